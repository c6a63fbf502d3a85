(** * Facts about the parsing of one declaration *)
From Coq Require Import String Ascii.
From Coq Require Import List NArith ZArith Arith Bool Lia Permutation.
From Verif Require Import Base BaseFacts Path Types SpecTypes TypesFacts P_Types Options SpecOptions OptionsFacts P_Options Decimal SpecDecimal
  Cost SpecCost Token Peg Grammar SpecGrammar PegFacts ExprFacts DedupFacts GrammarSound GrammarSafe GrammarComplete GrammarDirectives
  SpecDirective DirectiveFacts P_Grammar Parse SpecParse ParseFacts.
Import ListNotations.
Local Open Scope nat_scope.

Lemma pushed_nil st : pushed st [] = st.
Proof. destruct st. unfold pushed. cbn. rewrite app_nil_r. reflexivity. Qed.
Lemma pushed_app st a b : pushed (pushed st a) b = pushed st (a ++ b).
Proof. unfold pushed. cbn. rewrite app_assoc. reflexivity. Qed.

Lemma lift_fails {A} (p : parser_options -> parser A) st i : fails (p (ps_options st)) i -> lift p st i = SNot st.
Proof. intro F. unfold lift. rewrite F, pushed_nil. reflexivity. Qed.
Lemma salt_skip {A} (p q : sparser A) st i : p st i = SNot st -> salt p q st i = q st i.
Proof. intro H. unfold salt. rewrite H. reflexivity. Qed.
Lemma salt_only {A} (p q : sparser A) st i : (forall st', q st' i = SNot st') -> salt p q st i = p st i.
Proof. intro H. unfold salt. destruct (p st i); try reflexivity. apply H. Qed.

Section Once.
  Context (E : grammar_env) (I : input) (path_ : option path).
  Notation n := (List.length (in_tokens I)).

  (** The first token decides. *)
  Definition is_date (t : token) : bool := match t with T_Date _ => true | _ => false end.
  Lemma p_directive_fails po i : away I is_date i -> fails (p_directive E I po) i.
  Proof.
    intro A.
    assert (F : fails (spn I (p_date I)) i) by (apply fails_sp, p_date_fails; exact A).
    apply fails_choice. constructor; [|constructor; [|constructor]].
    - unfold p_transaction, p_transaction_header. apply fails_validate. do 2 apply fails_bind. exact F.
    - apply fails_choice.
      unfold p_price, p_balance, p_open, p_close, p_commodity, p_pad, p_document, p_note, p_event, p_query, p_line, p_custom.
      repeat (constructor; [first [apply fails_bind; exact F|apply fails_validate, fails_bind; exact F]|]). constructor.
  Qed.

  Lemma k_fails i k : ~ tok I i (T_Keyword k) -> fails (keyword_ I k) i.
  Proof. apply just_fails. Qed.

  Definition head : sparser pragma :=
    schoice
      [lift (fun _ => p_pushtag E I); lift (fun _ => p_poptag E I); lift (p_pushmeta E I); lift (fun _ => p_popmeta E I);
       lift (p_include I); smap P_Option (p_option E I path_); lift (p_plugin I)].

  Lemma pushtag_no st i : ~ tok I i (T_Keyword K_Pushtag) -> lift (fun _ => p_pushtag E I) st i = SNot st.
  Proof. intro N. apply lift_fails, fails_pmap, fails_sp, fails_bind, k_fails, N. Qed.
  Lemma poptag_no st i : ~ tok I i (T_Keyword K_Poptag) -> lift (fun _ => p_poptag E I) st i = SNot st.
  Proof. intro N. apply lift_fails, fails_pmap, fails_sp, fails_bind, k_fails, N. Qed.
  Lemma pushmeta_no st i : ~ tok I i (T_Keyword K_Pushmeta) -> lift (p_pushmeta E I) st i = SNot st.
  Proof. intro N. apply lift_fails, fails_pmap, fails_bind, k_fails, N. Qed.
  Lemma popmeta_no st i : ~ tok I i (T_Keyword K_Popmeta) -> lift (fun _ => p_popmeta E I) st i = SNot st.
  Proof. intro N. apply lift_fails, fails_pmap, fails_sp, fails_bind, k_fails, N. Qed.
  Lemma include_no st i : ~ tok I i (T_Keyword K_Include) -> lift (p_include I) st i = SNot st.
  Proof. intro N. apply lift_fails, fails_pmap, fails_bind, k_fails, N. Qed.
  Lemma plugin_no st i : ~ tok I i (T_Keyword K_Plugin) -> lift (p_plugin I) st i = SNot st.
  Proof. intro N. apply lift_fails, fails_pmap, fails_bind, k_fails, N. Qed.
  Lemma option_no st i : ~ tok I i (T_Keyword K_Option) -> smap P_Option (p_option E I path_) st i = SNot st.
  Proof.
    intro N. unfold smap, sbind, p_option. rewrite (lift_fails (p_option_tokens I) st i); [reflexivity|].
    apply fails_bind, k_fails, N.
  Qed.

  Lemma only_keyword i t k : tok I i t -> t <> T_Keyword k -> ~ tok I i (T_Keyword k).
  Proof. intros T D X. apply D. exact (tok_fun _ _ _ _ T X). Qed.

  Ltac no T := first
    [rewrite (salt_skip _ _ _ _ (pushtag_no _ _ (only_keyword _ _ K_Pushtag T ltac:(discriminate))))
    |rewrite (salt_skip _ _ _ _ (poptag_no _ _ (only_keyword _ _ K_Poptag T ltac:(discriminate))))
    |rewrite (salt_skip _ _ _ _ (pushmeta_no _ _ (only_keyword _ _ K_Pushmeta T ltac:(discriminate))))
    |rewrite (salt_skip _ _ _ _ (popmeta_no _ _ (only_keyword _ _ K_Popmeta T ltac:(discriminate))))
    |rewrite (salt_skip _ _ _ _ (include_no _ _ (only_keyword _ _ K_Include T ltac:(discriminate))))
    |rewrite (salt_skip _ _ _ _ (option_no _ _ (only_keyword _ _ K_Option T ltac:(discriminate))))
    |rewrite (plugin_no _ _ (only_keyword _ _ K_Plugin T ltac:(discriminate)))].
  Ltac alone T := first [reflexivity|apply salt_only; intro; repeat no T; reflexivity].

  Lemma head_pushtag st i : tok I i (T_Keyword K_Pushtag) -> head st i = lift (fun _ => p_pushtag E I) st i.
  Proof. intro T. unfold head. cbn [schoice]. repeat no T. alone T. Qed.
  Lemma head_poptag st i : tok I i (T_Keyword K_Poptag) -> head st i = lift (fun _ => p_poptag E I) st i.
  Proof. intro T. unfold head. cbn [schoice]. repeat no T. alone T. Qed.
  Lemma head_pushmeta st i : tok I i (T_Keyword K_Pushmeta) -> head st i = lift (p_pushmeta E I) st i.
  Proof. intro T. unfold head. cbn [schoice]. repeat no T. alone T. Qed.
  Lemma head_popmeta st i : tok I i (T_Keyword K_Popmeta) -> head st i = lift (fun _ => p_popmeta E I) st i.
  Proof. intro T. unfold head. cbn [schoice]. repeat no T. alone T. Qed.
  Lemma head_include st i : tok I i (T_Keyword K_Include) -> head st i = lift (p_include I) st i.
  Proof. intro T. unfold head. cbn [schoice]. repeat no T. alone T. Qed.
  Lemma head_option st i : tok I i (T_Keyword K_Option) -> head st i = smap P_Option (p_option E I path_) st i.
  Proof. intro T. unfold head. cbn [schoice]. repeat no T. alone T. Qed.
  Lemma head_plugin st i : tok I i (T_Keyword K_Plugin) -> head st i = lift (p_plugin I) st i.
  Proof. intro T. unfold head. cbn [schoice]. repeat no T. alone T. Qed.
  Definition pragma_keyword (k : keyword) : bool :=
    match k with K_Pushtag | K_Poptag | K_Pushmeta | K_Popmeta | K_Include | K_Option | K_Plugin => true | _ => false end.
  Lemma head_other st i : (forall k, pragma_keyword k = true -> ~ tok I i (T_Keyword k)) -> head st i = SNot st.
  Proof.
    intro H. unfold head. cbn [schoice].
    rewrite (salt_skip _ _ _ _ (pushtag_no _ _ (H K_Pushtag eq_refl))).
    rewrite (salt_skip _ _ _ _ (poptag_no _ _ (H K_Poptag eq_refl))).
    rewrite (salt_skip _ _ _ _ (pushmeta_no _ _ (H K_Pushmeta eq_refl))).
    rewrite (salt_skip _ _ _ _ (popmeta_no _ _ (H K_Popmeta eq_refl))).
    rewrite (salt_skip _ _ _ _ (include_no _ _ (H K_Include eq_refl))).
    rewrite (salt_skip _ _ _ _ (option_no _ _ (H K_Option eq_refl))).
    apply plugin_no, H. reflexivity.
  Qed.

  Lemma p_pragma_other st i : (forall k, pragma_keyword k = true -> ~ tok I i (T_Keyword k)) -> p_pragma E I path_ st i = SNot st.
  Proof. intro H. unfold p_pragma, sbind. change (schoice _) with head. rewrite (head_other st i H). reflexivity. Qed.
  Lemma p_once_date st i d : tok I i (T_Date d) -> p_once E I path_ st i = sspn I (smap D_Directive (lift (p_directive E I))) st i.
  Proof.
    intro T. unfold p_once, sspn. cbn [schoice]. rewrite salt_only; [reflexivity|].
    intro st'. unfold smap, sbind. rewrite p_pragma_other; [reflexivity|]. intros k _. exact (only_keyword _ _ k T ltac:(discriminate)).
  Qed.
  Lemma p_once_pragma st i : away I is_date i -> p_once E I path_ st i = sspn I (smap D_Pragma (p_pragma E I path_)) st i.
  Proof.
    intro A. unfold p_once, sspn. cbn [schoice]. rewrite salt_skip; [reflexivity|].
    unfold smap, sbind. rewrite lift_fails; [reflexivity|]. apply p_directive_fails. exact A.
  Qed.

  (** ** Pragmas, without the end of the line *)
  Definition headed (r : rules) (i k : nat) (p : pragma) (es : list report) (r' : rules) : Prop :=
    (pragma_at E I (rl_names r) i k p /\ es = [] /\ r' = r) \/ (exists o, p = P_Option o /\ option_at E I path_ r i k o es r').

  Context (En : environment_ok E) (Comp : computable E I) (Fo : fine_options I).

  Lemma fine_value i a b name value : tok I i (T_Keyword K_Option) ->
    written I (string_at I) (S i) a name -> written I (string_at I) a b value ->
    option_value (g_unicode E) (g_decimal E) (item name) (item value) path_ <> Panic.
  Proof.
    intros T [Sn _] [Sv _] P. apply C49_option_panics in P. destruct P as (c & X & W).
    assert (N1 : tok I (S i) (T_String (item name)) /\ a = S (S i)) by (inversion Sn; subst; auto). destruct N1 as [N1 ->].
    assert (N2 : tok I (S (S i)) (T_String (item value))) by (inversion Sv; subst; auto).
    pose proof (Fo i (item name) (item value) c T N1 N2 W) as A. apply Exists_exists in X. destruct X as (x & Hin & Nx).
    rewrite Forall_forall in A. exact (Nx (A _ Hin)).
  Qed.

  Lemma pragma_first names i k p : pragma_at E I names i k p -> exists kw, tok I i (T_Keyword kw) /\ kw <> K_Option /\ pragma_keyword kw = true.
  Proof. intros []; eexists; (split; [eassumption|split; [discriminate|reflexivity]]). Qed.
  Lemma option_first r i k o es r' : option_at E I path_ r i k o es r' -> tok I i (T_Keyword K_Option).
  Proof. intros []. assumption. Qed.
  Lemma headed_first r i k p es r' : headed r i k p es r' -> exists kw, tok I i (T_Keyword kw) /\ pragma_keyword kw = true.
  Proof.
    intros [(H & _ & _)|(o & _ & H)].
    - apply pragma_first in H. destruct H as (kw & T & _ & P). eauto.
    - apply option_first in H. eauto.
  Qed.

  Lemma no_option r i kw : tok I i (T_Keyword kw) -> kw <> K_Option -> forall k o es r', ~ option_at E I path_ r i k o es r'.
  Proof. intros T D k o es r' H. apply option_first in H. pose proof (tok_fun _ _ _ _ T H). congruence. Qed.

  Definition head_ok (r : rules) (i : nat) (x : sres pragma) : Prop :=
    match x with
    | SGot p k es st1 => exists es' r', es = map C_Report es' /\ headed r i k p es' r' /\ obeys E (ps_options st1) r' /\ i < k <= n
    | SNot st1 => (forall k o es r', ~ option_at E I path_ r i k o es r') /\ obeys E (ps_options st1) r
    | _ => False
    end.

  Lemma lift_head (p : parser_options -> parser pragma) st r i kw : obeys E (ps_options st) r -> i <= n ->
    tok I i (T_Keyword kw) -> kw <> K_Option ->
    sounds (p (ps_options st)) (fun i j p => pragma_at E I (rl_names r) i j p) ->
    steps (in_tokens I) 0 (p (ps_options st)) -> quiet (p (ps_options st)) -> head_ok r i (lift p st i).
  Proof.
    intros Ob Hi T D So St Qu. specialize (So i). specialize (St i (Nat.le_0_l i) Hi). specialize (Qu i).
    unfold lift. destruct (p (ps_options st) i) as [a j ws es|ws| |]; cbn.
    - destruct (So _ _ _ _ eq_refl) as [P ->]. exists [], r. split; [reflexivity|]. split; [left; auto|]. split; [exact Ob|exact St].
    - split; [exact (no_option r i kw T D)|exact Ob].
    - congruence.
    - exact St.
  Qed.

  Lemma p_option_ok st r i : obeys E (ps_options st) r -> i <= n -> tok I i (T_Keyword K_Option) ->
    match p_option E I path_ st i with
    | SGot o k es st1 => exists es' r', es = map C_Report es' /\ option_at E I path_ r i k o es' r' /\ obeys E (ps_options st1) r' /\ i < k <= n
    | SNot st1 => (forall k o es r', ~ option_at E I path_ r i k o es r') /\ obeys E (ps_options st1) r
    | _ => False
    end.
  Proof.
    intros Ob Hi T. unfold p_option, lift.
    pose proof (p_option_tokens_steps I (ps_options st) 0 i (Nat.le_0_l i) Hi) as St.
    pose proof (p_option_tokens_quiet I (ps_options st) i) as Qu.
    destruct (p_option_tokens I (ps_options st) i) as [[name value] j ws es|ws| |] eqn:X.
    - apply p_option_tokens_sounds in X. destruct X as (a & _ & Sn & Sv & ->). cbn [ps_options pushed map].
      destruct (option_read_effect E path_ En _ _ name value Ob (fine_value _ _ _ _ _ T Sn Sv)) as (o & es & r' & po' & -> & Ef & Ob').
      exists es, r'. split; [reflexivity|]. split; [econstructor; eassumption|]. split; [exact Ob'|exact St].
    - split; [|exact Ob]. intros k o es r' [a b name value o' es' r1 _ Sn Sv Ef].
      pose proof (p_option_tokens_reads I (ps_options st) _ _ _ _ _ T Sn Sv) as [Y _]. congruence.
    - congruence.
    - exact St.
  Qed.

  Lemma head_run st r i : obeys E (ps_options st) r -> i <= n -> head_ok r i (head st i).
  Proof.
    intros Ob Hi. destruct Comp as [Hc He].
    destruct (nth_error (in_tokens I) i) as [[t s]|] eqn:X.
    2:{ rewrite head_other; [|intros k _ [y Y]; congruence]. split; [|exact Ob]. intros k o es r' H. apply option_first in H. destruct H; congruence. }
    assert (T : tok I i t) by (exists s; exact X). clear X.
    assert (Other : (forall k, pragma_keyword k = true -> t <> T_Keyword k) -> head_ok r i (head st i)).
    { intro Q. rewrite head_other; [|intros k Pk Y; exact (Q k Pk (tok_fun _ _ _ _ T Y))].
      split; [|exact Ob]. intros k o es r' H. apply option_first in H. exact (Q K_Option eq_refl (tok_fun _ _ _ _ T H)). }
    destruct t; try (apply Other; discriminate).
    destruct k; try (apply Other; intros k; destruct k; discriminate).
    - rewrite head_pushtag by exact T. eapply lift_head; try eassumption; [discriminate|apply p_pushtag_sounds|apply p_pushtag_steps|apply p_pushtag_quiet].
    - rewrite head_poptag by exact T. eapply lift_head; try eassumption; [discriminate|apply p_poptag_sounds|apply p_poptag_steps|apply p_poptag_quiet].
    - rewrite head_pushmeta by exact T. eapply lift_head; try eassumption; [discriminate|apply p_pushmeta_sounds; assumption|apply p_pushmeta_steps|apply p_pushmeta_quiet; assumption].
    - rewrite head_popmeta by exact T. eapply lift_head; try eassumption; [discriminate|apply p_popmeta_sounds|apply p_popmeta_steps|apply p_popmeta_quiet].
    - rewrite head_option by exact T. unfold smap, sbind, sret.
      pose proof (p_option_ok st r i Ob Hi T) as P. destruct (p_option E I path_ st i) as [o k es st1|st1| |]; cbn; auto.
      destruct P as (es' & r' & -> & At & Ob' & B). exists es', r'. rewrite app_nil_r. split; [reflexivity|]. split; [right; eauto|]. split; [exact Ob'|exact B].
    - rewrite head_plugin by exact T. eapply lift_head; try eassumption; [discriminate|apply p_plugin_sounds|apply p_plugin_steps|apply p_plugin_quiet].
    - rewrite head_include by exact T. eapply lift_head; try eassumption; [discriminate|apply p_include_sounds|apply p_include_steps|apply p_include_quiet].
  Qed.

  (** *** Whatever is written is read *)
  Lemma lift_reads {A} (p : parser_options -> parser A) st r i k a : obeys E (ps_options st) r ->
    PegFacts.reads (in_tokens I) (long_strings (limit_of (ps_options st)) I) (p (ps_options st)) i k a [] [] ->
    lift p st i = SGot a k [] (pushed st (long_strings (rl_limit r) I i k)).
  Proof.
    intros [_ _ L] [Rd _]. unfold lift. rewrite Rd, app_nil_r. change (limit_of (ps_options st)) with (line_limit (ps_options st)). rewrite L. reflexivity.
  Qed.

  Lemma head_reads st r i k p es r' : obeys E (ps_options st) r -> headed r i k p es r' -> away I not_eol k ->
    exists st1, head st i = SGot p k (map C_Report es) st1 /\ obeys E (ps_options st1) r' /\
      ps_warnings st1 = ps_warnings st ++ long_strings (rl_limit r) I i k.
  Proof.
    intros Ob [(H & -> & ->)|(o & -> & H)] A.
    - exists (pushed st (long_strings (rl_limit r) I i k)). split; [|split; [exact Ob|reflexivity]].
      destruct H as [j t T H|j t T H|j kv T H|j kk T H Co|j s T H|j kk m c T H M].
      + rewrite head_pushtag by exact T. eapply lift_reads; [exact Ob|]. apply p_pushtag_reads; assumption.
      + rewrite head_poptag by exact T. eapply lift_reads; [exact Ob|]. apply p_poptag_reads; assumption.
      + rewrite head_pushmeta by exact T. eapply lift_reads; [exact Ob|]. eapply p_pushmeta_reads; eassumption.
      + rewrite head_popmeta by exact T. eapply lift_reads; [exact Ob|]. apply p_popmeta_reads; assumption.
      + rewrite head_include by exact T. eapply lift_reads; [exact Ob|]. apply p_include_reads; assumption.
      + rewrite head_plugin by exact T. eapply lift_reads; [exact Ob|]. eapply p_plugin_reads; eassumption.
    - destruct H as [a b name value o es r' T Sn Sv Ef].
      rewrite head_option by exact T. unfold smap, sbind, sret, p_option.
      rewrite (lift_reads (p_option_tokens I) st r i b (name, value) Ob); [|eapply p_option_tokens_reads; eassumption].
      cbn [pushed ps_options].
      destruct (option_read_effect E path_ En _ _ name value Ob (fine_value _ _ _ _ _ T Sn Sv)) as (o1 & es1 & r1 & po' & -> & Ef' & Ob').
      destruct (option_effect_fun E path_ En _ _ _ _ _ _ _ _ _ (obeys_inj E _ _ Ob) Ef Ef') as (<- & <- & <-).
      cbn. rewrite app_nil_r. eexists. split; [reflexivity|]. split; [exact Ob'|reflexivity].
  Qed.

  (** ** Declarations *)

  Lemma eol_run i : i <= n -> (exists j, line_end I i j /\ eol I i = Got tt j [] [] /\ i <= j <= n) \/ (fails (eol I) i /\ forall j, ~ line_end I i j).
  Proof.
    intro Hi. destruct (nth_error (in_tokens I) i) as [[t s]|] eqn:X.
    - assert (T : tok I i t) by (exists s; exact X).
      assert (D : t = T_Eol \/ t <> T_Eol) by (destruct t; auto; right; discriminate). destruct D as [->|D].
      + left. exists (S i). assert (L : line_end I i (S i)) by (constructor; exact T). split; [exact L|].
        pose proof (eol_reads I default_parser_options i (S i) L Hi) as [Rd B]. rewrite Rd, app_nil_r. split; [|exact B].
        unfold long_strings. f_equal. replace (S i - i) with 1 by lia. cbn. rewrite X. reflexivity.
      + right. split.
        * unfold eol. apply fails_choice. constructor; [|constructor; [|constructor]].
          -- apply fails_pmap, just_fails. intro Y. exact (D (tok_fun _ _ _ _ T Y)).
          -- unfold fails, at_end. rewrite X. reflexivity.
        * intros j L. inversion L as [k Y|k Y]; subst; [exact (D (tok_fun _ _ _ _ T Y))|]. unfold finished in Y. congruence.
    - left. exists i. assert (L : line_end I i i) by (apply line_end_input; exact X). split; [exact L|].
      pose proof (eol_reads I default_parser_options i i L Hi) as [Rd B]. rewrite Rd, long_strings_nil. split; [reflexivity|exact B].
  Qed.

  Lemma long_strings_line_end l i j : line_end I i j -> long_strings l I i j = [].
  Proof.
    intros [k T|k T]; [|apply long_strings_nil]. destruct T as [s T]. unfold long_strings. replace (S k - k) with 1 by lia. cbn. rewrite T. reflexivity.
  Qed.

  Lemma p_pragma_run st r i : obeys E (ps_options st) r -> i <= n ->
    match p_pragma E I path_ st i with
    | SGot p j es st1 => exists k es' r', es = map C_Report es' /\ headed r i k p es' r' /\ line_end I k j /\ obeys E (ps_options st1) r' /\ i < j <= n
    | SNot st1 => exists r', leaves E I path_ r i r' /\ obeys E (ps_options st1) r'
    | _ => False
    end.
  Proof.
    intros Ob Hi. unfold p_pragma, sbind. change (schoice _) with head.
    pose proof (head_run st r i Ob Hi) as H. unfold head_ok in H. destruct (head st i) as [p k es st1|st1| |]; try contradiction.
    - destruct H as (es' & r' & -> & Hd & Ob' & B). unfold lift.
      destruct (eol_run k (proj2 B)) as [(j & L & -> & B')|[F NL]].
      + cbn. rewrite app_nil_r. exists k, es', r'. split; [reflexivity|]. split; [exact Hd|]. split; [exact L|]. split; [exact Ob'|lia].
      + rewrite F. exists r'. split; [|exact Ob']. destruct Hd as [(Pr & _ & ->)|(o & -> & Op)].
        * apply leaves_alone. destruct (pragma_first _ _ _ _ Pr) as (kw & T & D & _). exact (no_option r i kw T D).
        * eapply leaves_option. exact Op.
    - destruct H as [NO Ob']. exists r. split; [apply leaves_alone; exact NO|exact Ob'].
  Qed.

  Lemma p_pragma_reads st r i k j p es r' : obeys E (ps_options st) r -> headed r i k p es r' -> line_end I k j -> i <= k <= n ->
    exists st1, p_pragma E I path_ st i = SGot p j (map C_Report es) st1 /\ obeys E (ps_options st1) r' /\
      ps_warnings st1 = ps_warnings st ++ long_strings (rl_limit r) I i j.
  Proof.
    intros Ob H L [Bk Hk]. pose proof (line_end_away I _ _ L) as A.
    destruct (head_reads st r i k p es r' Ob H A) as (st1 & Hd & Ob' & W).
    unfold p_pragma, sbind. change (schoice _) with head. rewrite Hd. unfold lift.
    destruct (eol_run k Hk) as [(j' & L' & -> & B')|[F NL]]; [|exfalso; exact (NL _ L)].
    assert (j' = j).
    { inversion L as [x T|x T]; inversion L' as [y T'|y T']; subst; try reflexivity; exfalso; unfold finished, tok in *; [destruct T as [z T]; congruence|destruct T' as [z T']; congruence]. }
    subst j'. exists (pushed st1 []). rewrite pushed_nil. cbn. rewrite app_nil_r. split; [reflexivity|]. split; [exact Ob'|]. rewrite W.
    rewrite (long_strings_app _ _ i k j) by (pose proof (line_end_le I default_parser_options _ _ L Hk); lia).
    rewrite (long_strings_line_end _ _ _ L), app_nil_r. reflexivity.
  Qed.

  Lemma headed_lt st r i k p es r' : obeys E (ps_options st) r -> headed r i k p es r' -> away I not_eol k -> i <= n -> i < k <= n.
  Proof.
    intros Ob H A Hi. destruct (head_reads st r i k p es r' Ob H A) as (st1 & Hd & _).
    pose proof (head_run st r i Ob Hi) as X. rewrite Hd in X. destruct X as (e & r1 & _ & _ & _ & B). exact B.
  Qed.

  Definition whose (r : rules) (i j : nat) (d : spanned declaration) (es : list report) (r' : rules) : Prop :=
    (exists x, d = mk_spanned (D_Directive x) (text I i j) /\ whole_at E I (rl_names r) i j x es /\ r' = r) \/
    (exists k p, d = mk_spanned (D_Pragma p) (text I i j) /\ headed r i k p es r' /\ line_end I k j).
  Lemma declares_whose r i j d es r' : declares E I path_ r i j d es r' <-> whose r i j d es r'.
  Proof.
    split.
    - intros [x e H|k p H L|k o e r1 H L]; [left; eauto|right; exists k, p|right; exists k, (P_Option o)];
        (split; [reflexivity|]); (split; [|exact L]); [left; auto|right; eauto].
    - intros [(x & -> & H & ->)|(k & p & -> & [(H & -> & ->)|(o & -> & H)] & L)]; econstructor; eassumption.
  Qed.

  Lemma directive_first names i j d es : directive_at E I names i j d es -> exists x, tok I i (T_Date x).
  Proof. intros H. destruct H; match goal with H : written I (date_at I) _ _ _ |- _ => destruct H as [H _]; inversion H; eauto end. Qed.
  Lemma declares_first r i j d es r' : declares E I path_ r i j d es r' ->
    exists t, tok I i t /\ (is_date t = true \/ exists k, t = T_Keyword k).
  Proof.
    rewrite declares_whose. intros [(x & _ & [H _] & _)|(k & p & _ & H & _)].
    - destruct (directive_first _ _ _ _ _ H) as [y T]. exists (T_Date y). auto.
    - destruct (headed_first _ _ _ _ _ _ H) as (kw & T & _). eauto.
  Qed.
  Lemma declares_le r i j d es r' : declares E I path_ r i j d es r' -> i < n.
  Proof. intro H. destruct (declares_first _ _ _ _ _ _ H) as (t & [s T] & _). apply nth_error_Some. congruence. Qed.
  Lemma not_indented r j : (exists j' d es r', declares E I path_ r j j' d es r') \/ finished I j -> ~ tok I j T_Indent.
  Proof.
    intros [(j' & d & es & r' & H)|F] T.
    - destruct (declares_first _ _ _ _ _ _ H) as (t & T' & X). pose proof (tok_fun _ _ _ _ T T'). subst t.
      destruct X as [X|[k X]]; discriminate.
    - destruct T as [s T]. unfold finished in F. congruence.
  Qed.

  (** What is written is read. *)
  Lemma p_once_reads st r i j d es r' : obeys E (ps_options st) r -> declares E I path_ r i j d es r' ->
    exists st1 more, p_once E I path_ st i = SGot d j (map C_Report es) st1 /\ obeys E (ps_options st1) r' /\ i < j <= n /\
      ps_warnings st1 = ps_warnings st ++ long_strings (rl_limit r) I i j ++ more /\ (~ tok I j T_Indent -> more = []).
  Proof.
    intros Ob H. pose proof (declares_le _ _ _ _ _ _ H) as Hi. apply declares_whose in H.
    pose proof (obeys_set E En _ _ Ob) as WS.
    destruct H as [(x & -> & H & ->)|(k & p & -> & H & L)].
    - destruct (directive_first _ _ _ _ _ (proj1 H)) as [y T]. rewrite (p_once_date st i y T).
      apply (C36_reads E I _ _ WS Comp i j x es ltac:(lia)) in H. destruct H as [ws H].
      destruct (C21_directive E I _ _ WS Comp i j x ws es ltac:(lia) H) as [W1 [more W2]].
      unfold sspn, smap, sbind, sret, lift. rewrite H. rewrite app_nil_r.
      exists (pushed st ws), more. split; [reflexivity|]. split; [exact Ob|].
      split; [apply (C36_sound E I _ _ WS _ _ _ _ _ H); lia|]. cbn. rewrite <- (ob_limit _ _ _ Ob).
      split; [rewrite W2; reflexivity|]. intro NI. apply W1 in NI. rewrite W2 in NI. rewrite <- (app_nil_r (long_strings (line_limit (ps_options st)) I i j)) in NI at 2.
      apply app_inv_head in NI. exact NI.
    - destruct (headed_first _ _ _ _ _ _ H) as (kw & T & _).
      rewrite p_once_pragma; [|apply (away_tok I _ _ _ T); reflexivity].
      pose proof (headed_lt st r i k p es r' Ob H (line_end_away I _ _ L) ltac:(lia)) as B.
      destruct (p_pragma_reads st r i k j p es r' Ob H L ltac:(lia)) as (st1 & Rd & Ob' & W).
      unfold sspn, smap, sbind, sret. rewrite Rd, app_nil_r. exists st1, []. split; [reflexivity|]. split; [exact Ob'|].
      split; [pose proof (line_end_le I default_parser_options _ _ L (proj2 B)); lia|]. rewrite app_nil_r. auto.
  Qed.

  (** What is read is written, and there is always an answer. *)
  Definition once_ok (r : rules) (i : nat) (x : sres (spanned declaration)) : Prop :=
    match x with
    | SGot d j es st1 => exists es' r', es = map C_Report es' /\ declares E I path_ r i j d es' r' /\ obeys E (ps_options st1) r' /\ i < j <= n
    | SNot st1 => (forall j d es r', ~ declares E I path_ r i j d es r') /\ exists r', leaves E I path_ r i r' /\ obeys E (ps_options st1) r'
    | _ => False
    end.
  Lemma p_once_run st r i : obeys E (ps_options st) r -> i <= n -> once_ok r i (p_once E I path_ st i).
  Proof.
    intros Ob Hi. pose proof (obeys_set E En _ _ Ob) as WS.
    assert (No : forall st1, p_once E I path_ st i = SNot st1 -> forall j d es r', ~ declares E I path_ r i j d es r').
    { intros st1 X j d es r' H. destruct (p_once_reads st r i j d es r' Ob H) as (st2 & more & Y & _). congruence. }
    destruct (nth_error (in_tokens I) i) as [[t s]|] eqn:X.
    2:{ assert (Aw : away I is_date i) by (apply away_finished; exact X).
        rewrite p_once_pragma in * by exact Aw. unfold sspn, smap, sbind in *.
        rewrite p_pragma_other in * by (intros k _ [y Y]; congruence). split; [apply (No st eq_refl)|].
        exists r. split; [|exact Ob]. apply leaves_alone. intros k o es r' H. apply option_first in H. destruct H as [y Y]. congruence. }
    assert (T : tok I i t) by (exists s; exact X). clear X.
    destruct (is_date t) eqn:D.
    - destruct t; try discriminate. rewrite (p_once_date st i _ T) in *. unfold sspn, smap, sbind, sret, lift in *.
      destruct (p_directive E I (ps_options st) i) as [x j ws es|ws| |] eqn:P.
      + exists es, r. rewrite app_nil_r. split; [reflexivity|]. split; [|split; [exact Ob|]].
        * apply declares_directive. apply (C36_reads E I _ _ WS Comp i j x es Hi). eauto.
        * apply (C36_sound E I _ _ WS _ _ _ _ _ P). exact Hi.
      + split; [apply (No _ eq_refl)|]. exists r. split; [|exact Ob]. apply leaves_alone.
        intros k o es r' H. apply option_first in H. pose proof (tok_fun _ _ _ _ T H). discriminate.
      + exact (C36_no_panic E I _ Comp _ P).
      + exact (C36_terminates E I _ _ Hi P).
    - assert (Aw : away I is_date i) by (apply (away_tok I _ _ _ T); exact D).
      rewrite p_once_pragma in * by exact Aw. unfold sspn, smap, sbind, sret in *.
      pose proof (p_pragma_run st r i Ob Hi) as Q.
      destruct (p_pragma E I path_ st i) as [p j es st1|st1| |]; try contradiction.
      + destruct Q as (k & es' & r' & -> & Hd & L & Ob' & B). exists es', r'. rewrite app_nil_r. split; [reflexivity|].
        split; [|split; [exact Ob'|exact B]]. apply declares_whose. right. exists k, p. auto.
      + split; [apply (No _ eq_refl)|]. exact Q.
  Qed.
End Once.
