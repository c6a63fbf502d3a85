(** * Facts about the parsing of a file *)
From Coq Require Import String Ascii.
From Coq Require Import List NArith ZArith Arith Bool Lia Permutation.
From Verif Require Import Base BaseFacts Path Types SpecTypes TypesFacts P_Types Options SpecOptions OptionsFacts P_Options Decimal SpecDecimal
  Cost SpecCost Token Peg Grammar SpecGrammar PegFacts ExprFacts DedupFacts GrammarSound GrammarSafe GrammarComplete GrammarDirectives
  SpecDirective DirectiveFacts P_Grammar Parse SpecParse ParseFacts ParseOnce Honest.
Import ListNotations.
Local Open Scope nat_scope.

Lemma within_refl {A} (l : list A) : within l l.
Proof. induction l; constructor; assumption. Qed.
Lemma within_app {A} (a a' b b' : list A) : within a a' -> within b b' -> within (a ++ b) (a' ++ b').
Proof.
  intros H K. induction H as [l|x l l' _ IH|x l l' _ IH]; cbn.
  - induction l; [exact K|]. cbn. constructor. assumption.
  - constructor. exact IH.
  - constructor. exact IH.
Qed.
Lemma within_more {A} (a b c : list A) : within a b -> within a (b ++ c).
Proof. intro H. rewrite <- (app_nil_r a). apply within_app; [exact H|constructor]. Qed.
Lemma within_later {A} (a b c : list A) : within a b -> within a (c ++ b).
Proof. intro H. change a with ([] ++ a). apply within_app; [constructor|exact H]. Qed.

Section Warnings.
  Context (E : grammar_env) (I : input) (path_ : option path) (En : environment_ok E).
  Context (W0 : list report) (lim : option (N * span)).

  Record kept (st : pstate) : Prop := {
    kept_limit : limit_in E I path_ lim (line_limit (ps_options st));
    kept_warnings : exists ws, ps_warnings st = W0 ++ ws /\ Forall (warrants E I path_ lim) ws
  }.
  Definition keeps {A} (p : sparser A) : Prop := forall st i, kept st ->
    match p st i with SGot _ _ _ st' => kept st' | SNot st' => kept st' | _ => True end.

  Lemma kept_pushed st ws : kept st -> Forall (for_string I (ps_options st)) ws -> kept (pushed st ws).
  Proof.
    intros [L (ws0 & X0 & F)] H. constructor; [exact L|]. cbn. rewrite X0. eexists. rewrite <- app_assoc. split; [reflexivity|].
    apply Forall_app. split; [exact F|]. eapply Forall_impl; [|exact H]. intros w (q & s & T & X).
    exists (line_limit (ps_options st)), q, s. auto.
  Qed.
  Lemma keeps_lift {A} (p : parser_options -> parser A) : (forall po, honest I po (p po)) -> keeps (lift p).
  Proof.
    intros H st i K. unfold lift. specialize (H (ps_options st) i). destruct (p (ps_options st) i); auto; apply kept_pushed; auto.
  Qed.
  Lemma keeps_ret {A} (a : A) : keeps (sret a).
  Proof. intros st i K. exact K. Qed.
  Lemma keeps_bind {A B} (p : sparser A) (f : A -> sparser B) : keeps p -> (forall a, keeps (f a)) -> keeps (sbind p f).
  Proof.
    intros P F st i K. unfold sbind. specialize (P st i K). destruct (p st i) as [a j es st1|st1| |]; auto.
    specialize (F a st1 j P). destruct (f a st1 j); auto.
  Qed.
  Lemma keeps_map {A B} (f : A -> B) (p : sparser A) : keeps p -> keeps (smap f p).
  Proof. intro P. apply keeps_bind; [exact P|]. intro. apply keeps_ret. Qed.
  Lemma keeps_alt {A} (p q : sparser A) : keeps p -> keeps q -> keeps (salt p q).
  Proof. intros P Q st i K. unfold salt. specialize (P st i K). destruct (p st i); auto. apply Q. exact P. Qed.
  Lemma keeps_choice {A} (ps : list (sparser A)) : Forall keeps ps -> keeps (schoice ps).
  Proof.
    induction ps as [|p [|q ps] IH]; intro F.
    - intros st i K. exact K.
    - inversion F. assumption.
    - inversion F as [|? ? P Q]. apply keeps_alt; [exact P|apply IH; exact Q].
  Qed.
  Lemma keeps_spn {A} (p : sparser A) : keeps p -> keeps (sspn I p).
  Proof. intros P st i K. unfold sspn. specialize (P st i K). destruct (p st i); auto. Qed.

  Lemma option_read_limit po name value o po' es : option_read E path_ po name value = Fine (o, po', es) ->
    line_limit po' = line_limit po \/
    exists m, SpecOptions.reads (g_unicode E) (g_decimal E) path_ (item name) (item value) (O_LongStringMaxlines m) /\
      line_limit po' = Some (m, span_of value).
  Proof.
    destruct En as [U _]. unfold option_read, option_parse, mapr.
    destruct (option_value (g_unicode E) (g_decimal E) (item name) (item value) path_) as [[v|e]|] eqn:V; [| |discriminate].
    - unfold po_assimilate. cbn [opt_variant opt_source].
      destruct v as [a1|ty s|a1 a2|a1|a1 a2|a1|a1|a1|a1|a1|m|a1|a1| |]; try (intro H; injection H as <- <- <-; left; reflexivity).
      + destruct (atn_update _ ty s) as [[names|t]|]; try discriminate; intro H; injection H as <- <- <-; left; reflexivity.
      + intro H. injection H as <- <- <-. right. exists m. split; [|reflexivity]. apply (C49_option_value _ _ _ _ _ _ U). exact V.
    - destruct e as [|e]; intro H; injection H as <- <- <-; left; reflexivity.
  Qed.

  Lemma keeps_option : keeps (p_option E I path_).
  Proof.
    intros st i K. unfold p_option.
    pose proof (keeps_lift (p_option_tokens I) (honest_option_tokens I) st i K) as L.
    destruct (lift (p_option_tokens I) st i) as [[name value] j es st1|st1| |] eqn:X; auto.
    destruct (option_read E path_ (ps_options st1) name value) as [[[o po'] es']|] eqn:R; auto.
    destruct L as [L1 L2]. constructor; [|exact L2]. cbn [ps_options].
    destruct (option_read_limit _ _ _ _ _ _ R) as [->|(m & Rd & ->)]; [exact L1|].
    unfold lift in X. destruct (p_option_tokens I (ps_options st) i) as [[a b] j' ws' es''|ws'| |] eqn:Y; try discriminate.
    injection X; intros; subst. apply p_option_tokens_sounds in Y. destruct Y as (c & T & Sn & Sv & _).
    eapply limit_set; eassumption.
  Qed.

  Lemma keeps_once : keeps (p_once E I path_).
  Proof.
    apply keeps_spn, keeps_choice. repeat (apply Forall_cons || apply Forall_nil).
    - apply keeps_map, keeps_lift. apply honest_directive.
    - apply keeps_map. apply keeps_bind; [|intro a; apply keeps_bind; [apply keeps_lift; intro; apply honest_eol|intro; apply keeps_ret]].
      apply keeps_choice. repeat (apply Forall_cons || apply Forall_nil); try (apply keeps_lift; intro).
      + apply honest_pushtag.
      + apply honest_poptag.
      + apply honest_pushmeta.
      + apply honest_popmeta.
      + apply honest_include.
      + apply keeps_map, keeps_option.
      + apply honest_plugin.
  Qed.

  Lemma keeps_retry f : keeps (retry E I path_ f).
  Proof.
    induction f as [|f IH]; intros st i K; [exact Logic.I|]. cbn. destruct (nth_error (in_tokens I) i); [|exact K].
    pose proof (keeps_once st (S i) K) as O. destruct (p_once E I path_ st (S i)) as [d j es st1|st1| |]; auto.
    - destruct es; auto. apply IH. exact O.
    - apply IH. exact O.
  Qed.
  Lemma keeps_declaration : keeps (p_declaration E I path_).
  Proof.
    intros st i K. unfold p_declaration. pose proof (keeps_once st i K) as O. destruct (p_once E I path_ st i) as [d j es st1|st1| |]; auto.
    pose proof (keeps_retry (S (List.length (in_tokens I) - i)) st1 i O) as R. destruct (retry _ _ _ _ st1 i); auto.
  Qed.
  Lemma keeps_declarations f : keeps (p_declarations E I path_ f).
  Proof.
    induction f as [|f IH]; intros st i K; [exact Logic.I|]. cbn. pose proof (keeps_declaration st i K) as O.
    destruct (p_declaration E I path_ st i) as [d j es st1|st1| |]; auto.
    specialize (IH st1 j O). destruct (p_declarations E I path_ f st1 j); auto.
  Qed.
End Warnings.

Section Files.
  Context (E : grammar_env) (I : input) (path_ : option path) (En : environment_ok E) (Comp : computable E I) (Fo : fine_options I).
  Notation n := (List.length (in_tokens I)).
  Notation declares := (declares E I path_).
  Notation leaves := (leaves E I path_).
  Notation seeks := (seeks E I path_).
  Notation declared := (declared E I path_).

  Lemma once_grows st r i : obeys E (ps_options st) r ->
    match p_once E I path_ st i with
    | SGot _ _ _ st' | SNot st' => exists ws, ps_warnings st' = ps_warnings st ++ ws
    | _ => True
    end.
  Proof.
    intros Ob. assert (K : kept E I path_ (ps_warnings st) (line_limit (ps_options st)) st).
    { constructor; [constructor|]. exists []. rewrite app_nil_r. auto. }
    pose proof (keeps_once E I path_ En _ _ st i K) as H.
    destruct (p_once E I path_ st i); auto; destruct H as [_ (ws & X & _)]; eauto.
  Qed.

  Lemma declares_leaves r i j d es r' : declares r i j d es r' -> leaves r i r'.
  Proof.
    intros [x e [D _]|k p P L|k o e r1 O L].
    - apply leaves_alone. destruct (directive_first _ _ _ _ _ _ _ D) as [y T]. intros k o es' r1 O.
      apply option_first in O. pose proof (tok_fun _ _ _ _ T O). discriminate.
    - apply leaves_alone. destruct (pragma_first _ _ _ _ _ _ P) as (kw & T & D & _). exact (no_option E I path_ r i kw T D).
    - eapply leaves_option. exact O.
  Qed.

  Lemma finished_ge i : i <= n -> (finished I i <-> i = n).
  Proof. intro Hi. unfold finished. rewrite nth_error_None. lia. Qed.

  Lemma retry_run : forall f st r i, obeys E (ps_options st) r -> i <= n -> n - i < f ->
    exists found r', seeks r i found r' /\
    match found with
    | Some (i', j, d, w) => exists st', retry E I path_ f st i = SGot d j [] st' /\ obeys E (ps_options st') r' /\ i < i' /\ i' < j <= n /\
        (exists a more, ps_warnings st' = ps_warnings st ++ a ++ w ++ more)
    | None => exists st', retry E I path_ f st i = SNot st' /\ obeys E (ps_options st') r' /\ (exists a, ps_warnings st' = ps_warnings st ++ a)
    end.
  Proof.
    induction f as [|f IH]; intros st r i Ob Hi Hf; [lia|]. cbn [retry].
    destruct (nth_error (in_tokens I) i) as [tk|] eqn:X.
    2:{ exists None, r. split; [constructor; exact X|]. exists st. split; [reflexivity|]. split; [exact Ob|]. exists []. rewrite app_nil_r. reflexivity. }
    assert (B : i < n) by (apply nth_error_Some; congruence).
    assert (NF : ~ finished I i) by (unfold finished; congruence).
    pose proof (p_once_run E I path_ En Comp Fo st r (S i) Ob ltac:(lia)) as H.
    pose proof (once_grows st r (S i) Ob) as G.
    assert (Go : forall st1 r1, leaves r (S i) r1 -> obeys E (ps_options st1) r1 -> (forall j d r2, ~ declares r (S i) j d [] r2) ->
      (exists ws, ps_warnings st1 = ps_warnings st ++ ws) ->
      exists found r', seeks r i found r' /\
      match found with
      | Some (i', j, d, w) => exists st', retry E I path_ f st1 (S i) = SGot d j [] st' /\ obeys E (ps_options st') r' /\ i < i' /\ i' < j <= n /\
          (exists a more, ps_warnings st' = ps_warnings st ++ a ++ w ++ more)
      | None => exists st', retry E I path_ f st1 (S i) = SNot st' /\ obeys E (ps_options st') r' /\ (exists a, ps_warnings st' = ps_warnings st ++ a)
      end).
    { intros st1 r1 L O1 No [ws Hws]. destruct (IH st1 r1 (S i) O1 ltac:(lia) ltac:(lia)) as (found & r' & Sk & F).
      exists found, r'. split; [eapply seeks_on; eassumption|]. destruct found as [[[[i' j] d] w]|].
      - destruct F as (st' & R & O' & B1 & B2 & a & more & Hw). exists st'. split; [exact R|]. split; [exact O'|]. split; [lia|]. split; [exact B2|].
        exists (ws ++ a), more. rewrite Hw, Hws, <- !app_assoc. reflexivity.
      - destruct F as (st' & R & O' & a & Hw). exists st'. split; [exact R|]. split; [exact O'|]. exists (ws ++ a). rewrite Hw, Hws, <- app_assoc. reflexivity. }
    destruct (p_once E I path_ st (S i)) as [d j es st1|st1| |] eqn:P; try contradiction.
    - destruct H as (es' & r' & -> & D & Ob' & B'). destruct es' as [|e es'].
      + cbn. exists (Some (S i, j, d, long_strings (rl_limit r) I (S i) j)), r'. split; [constructor; assumption|].
        exists st1. split; [reflexivity|]. split; [exact Ob'|]. split; [lia|]. split; [exact B'|].
        destruct (p_once_reads E I path_ En Comp Fo st r (S i) j d [] r' Ob D) as (st2 & more & Y & _ & _ & Hw & _).
        rewrite P in Y. injection Y as <-. exists [], more. exact Hw.
      + cbn. apply (Go st1 r'); auto; [eapply declares_leaves; exact D|].
        intros j' d' r2 D'. destruct (p_once_reads E I path_ En Comp Fo st r (S i) j' d' [] r2 Ob D') as (st2 & more & Y & _).
        rewrite P in Y. discriminate.
    - destruct H as (No & r' & L & Ob'). apply (Go st1 r'); auto.
  Qed.

  Lemma p_declarations_run : forall f st r i, obeys E (ps_options st) r -> i <= n -> n - i < f ->
    exists ds es ws k r' st', declared r i ds es ws k r' /\
      p_declarations E I path_ f st i = SGot (map snd ds) k es st' /\ obeys E (ps_options st') r' /\ i <= k <= n /\
      exists all, ps_warnings st' = ps_warnings st ++ all /\ within ws all.
  Proof.
    induction f as [|f IH]; intros st r i Ob Hi Hf; [lia|]. cbn [p_declarations]. unfold p_declaration.
    pose proof (p_once_run E I path_ En Comp Fo st r i Ob Hi) as H.
    pose proof (once_grows st r i Ob) as G.
    destruct (p_once E I path_ st i) as [d j es st1|st1| |] eqn:P; try contradiction.
    - destruct H as (es' & r1 & -> & D & Ob' & B).
      destruct (IH st1 r1 j Ob' ltac:(lia) ltac:(lia)) as (ds & es & ws & k & r' & st' & Dd & -> & Ob'' & B' & all & Hw & Wi).
      exists ((i, j, d) :: ds), (map C_Report es' ++ es), (long_strings (rl_limit r) I i j ++ ws), k, r', st'.
      split; [econstructor; eassumption|]. split; [reflexivity|]. split; [exact Ob''|]. split; [lia|].
      destruct (p_once_reads E I path_ En Comp Fo st r i j d es' r1 Ob D) as (st2 & more & Y & _ & _ & Hw1 & _).
      rewrite P in Y. injection Y as <-. exists ((long_strings (rl_limit r) I i j ++ more) ++ all). rewrite Hw, Hw1, <- !app_assoc.
      split; [reflexivity|]. apply within_app; [apply within_refl|]. apply within_later. exact Wi.
    - destruct H as (No & r1 & L & Ob1). destruct G as [ws0 Hw0].
      destruct (retry_run (S (n - i)) st1 r1 i Ob1 Hi ltac:(lia)) as (found & r2 & Sk & F).
      destruct found as [[[[i' j] d] w]|].
      + destruct F as (st2 & -> & Ob2 & B1 & B2 & a & more & Hw).
        destruct (IH st2 r2 j Ob2 ltac:(lia) ltac:(lia)) as (ds & es & ws & k & r' & st' & Dd & -> & Ob'' & B' & all & Hw' & Wi).
        exists ((i', j, d) :: ds), (C_Syntax (in_source I) i :: es), (w ++ ws), k, r', st'.
        split; [eapply declared_skip; eassumption|]. split; [reflexivity|]. split; [exact Ob''|]. split; [lia|].
        exists ((ws0 ++ a ++ w ++ more) ++ all). rewrite Hw', Hw, Hw0, <- !app_assoc. split; [reflexivity|].
        do 2 apply within_later. apply within_app; [apply within_refl|]. apply within_later. exact Wi.
      + destruct F as (st2 & -> & Ob2 & a & Hw). exists [], [], [], i, r2, st2.
        split; [eapply declared_stop; eassumption|]. split; [reflexivity|]. split; [exact Ob2|]. split; [lia|].
        exists (ws0 ++ a). rewrite Hw, Hw0, <- app_assoc. split; [reflexivity|constructor].
  Qed.

  (** ** There is only one reading *)

  Lemma option_at_fun r i k o es r' k2 o2 es2 r2 : (exists po, obeys E po r) ->
    option_at E I path_ r i k o es r' -> option_at E I path_ r i k2 o2 es2 r2 -> k = k2 /\ o = o2 /\ es = es2 /\ r' = r2.
  Proof.
    intros [po Ob] [a b name value o1 es1 r1 T [N Ns] [V Vs] Ef] H.
    destruct H as [a' b' name' value' o1' es1' r1' T' [N' Ns'] [V' Vs'] Ef'].
    destruct name as [nm ns], name' as [nm' ns'], value as [va vs], value' as [va' vs']. cbn [item span_of] in *.
    assert (X : tok I (S i) (T_String nm) /\ a = S (S i)) by (inversion N; subst; auto).
    assert (X' : tok I (S i) (T_String nm') /\ a' = S (S i)) by (inversion N'; subst; auto).
    destruct X as [X ->], X' as [X' ->]. pose proof (tok_fun _ _ _ _ X X') as Q. injection Q as <-.
    assert (Y : tok I (S (S i)) (T_String va) /\ b = S (S (S i))) by (inversion V; subst; auto).
    assert (Y' : tok I (S (S i)) (T_String va') /\ b' = S (S (S i))) by (inversion V'; subst; auto).
    destruct Y as [Y ->], Y' as [Y' ->]. pose proof (tok_fun _ _ _ _ Y Y') as Q. injection Q as <-. subst.
    destruct (option_effect_fun E path_ En _ _ _ _ _ _ _ _ _ (obeys_inj E _ _ Ob) Ef Ef') as (-> & -> & ->). auto.
  Qed.

  Lemma map_report_inj (a b : list report) : map C_Report a = map C_Report b -> a = b.
  Proof. revert b. induction a as [|x a IH]; intros [|y b] H; try discriminate; [reflexivity|]. injection H as -> H. f_equal. auto. Qed.

  Lemma declares_fun r i j d es r' j2 d2 es2 r2 : (exists po, obeys E po r) ->
    declares r i j d es r' -> declares r i j2 d2 es2 r2 -> j = j2 /\ d = d2 /\ es = es2 /\ r' = r2.
  Proof.
    intros [po Ob] H H2.
    destruct (p_once_reads E I path_ En Comp Fo (mk_pstate po []) r i j d es r' Ob H) as (st1 & m1 & P1 & _).
    destruct (p_once_reads E I path_ En Comp Fo (mk_pstate po []) r i j2 d2 es2 r2 Ob H2) as (st2 & m2 & P2 & _).
    rewrite P1 in P2. injection P2 as <- <- X <-. apply map_report_inj in X. subst es2.
    split; [reflexivity|]. split; [reflexivity|]. split; [reflexivity|].
    apply declares_whose in H, H2.
    destruct H as [(x & Hx & _ & ->)|(k & p & Hx & H & L)], H2 as [(x2 & Hx2 & _ & ->)|(k2 & p2 & Hx2 & H2 & L2)]; try reflexivity; try congruence.
    rewrite Hx in Hx2. injection Hx2 as <-. destruct H as [(P & _ & ->)|(o & -> & O)], H2 as [(P2 & _ & ->)|(o2 & X & O2)]; try reflexivity.
    - exfalso. destruct (pragma_first _ _ _ _ _ _ P) as (kw & T & D & _). exact (no_option E I path_ r i kw T D _ _ _ _ O2).
    - exfalso. destruct (pragma_first _ _ _ _ _ _ P2) as (kw & T & D & _). exact (no_option E I path_ r i kw T D _ _ _ _ O).
    - eapply option_at_fun; [exists po; exact Ob|exact O|exact O2].
  Qed.

  Lemma leaves_fun r i r1 r2 : (exists po, obeys E po r) -> leaves r i r1 -> leaves r i r2 -> r1 = r2.
  Proof.
    intros Ob [k o es r' O|N] [k2 o2 es2 r2' O2|N2]; try reflexivity.
    - eapply option_at_fun; eassumption.
    - exfalso. eapply N2; exact O.
    - exfalso. eapply N; exact O2.
  Qed.

  Lemma declares_obeys r i j d es r' : (exists po, obeys E po r) -> declares r i j d es r' -> exists po, obeys E po r'.
  Proof.
    intros [po Ob] H. destruct (p_once_reads E I path_ En Comp Fo (mk_pstate po []) r i j d es r' Ob H) as (st1 & m1 & _ & Ob' & _). eauto.
  Qed.
  Lemma leaves_obeys r i r' : i <= n -> (exists po, obeys E po r) -> leaves r i r' -> exists po, obeys E po r'.
  Proof.
    intros Hi [po Ob] L. pose proof (p_once_run E I path_ En Comp Fo (mk_pstate po []) r i Ob Hi) as H.
    destruct (p_once E I path_ (mk_pstate po []) i) as [d j es st1|st1| |]; try contradiction.
    - destruct H as (es' & r1 & -> & D & Ob' & _). apply declares_leaves in D.
      rewrite (leaves_fun r i r' r1); eauto.
    - destruct H as (_ & r1 & L1 & Ob'). rewrite (leaves_fun r i r' r1); eauto.
  Qed.

  Lemma not_finished_lt i : ~ finished I i -> i < n.
  Proof. intro H. destruct (Nat.lt_ge_cases i n) as [L|L]; [exact L|]. exfalso. apply H. apply nth_error_None. exact L. Qed.

  Lemma seeks_inv r i f r' : seeks r i f r' ->
    (finished I i /\ f = None /\ r' = r) \/
    (exists j d, ~ finished I i /\ declares r (S i) j d [] r' /\ f = Some (S i, j, d, long_strings (rl_limit r) I (S i) j)) \/
    (exists r1, ~ finished I i /\ (forall j d r2, ~ declares r (S i) j d [] r2) /\ leaves r (S i) r1 /\ seeks r1 (S i) f r').
  Proof. intros []; [left|right; left|right; right]; eauto 8. Qed.

  Lemma seeks_fun : forall r i f1 r1, seeks r i f1 r1 -> (exists po, obeys E po r) -> forall f2 r2, seeks r i f2 r2 -> f1 = f2 /\ r1 = r2.
  Proof.
    intros r i f1 r1 H. induction H as [r i F|r i j d r' NF D|r i found r1 r' NF No L Sk IH]; intros Ob f2 r2 H2;
      apply seeks_inv in H2; destruct H2 as [(F2 & -> & ->)|[(j2 & d2 & NF2 & D2 & ->)|(r3 & NF2 & No2 & L2 & Sk2)]]; try contradiction; auto.
    - destruct (declares_fun _ _ _ _ _ _ _ _ _ _ Ob D D2) as (-> & -> & _ & ->). auto.
    - exfalso. exact (No2 _ _ _ D).
    - exfalso. exact (No _ _ _ D2).
    - rewrite <- (leaves_fun _ _ _ _ Ob L L2) in Sk2. apply IH; [|exact Sk2].
      eapply leaves_obeys; [|exact Ob|exact L]. apply not_finished_lt in NF. lia.
  Qed.
  Lemma seeks_obeys : forall r i f r', seeks r i f r' -> (exists po, obeys E po r) -> exists po, obeys E po r'.
  Proof.
    intros r i f r' H. induction H as [r i F|r i j d r' NF D|r i found r1 r' NF No L Sk IH]; intro Ob; auto.
    - eapply declares_obeys; eassumption.
    - apply IH. eapply leaves_obeys; [|exact Ob|exact L]. apply not_finished_lt in NF. lia.
  Qed.

  Lemma declared_inv r i ds es ws k r' : declared r i ds es ws k r' ->
    (exists r1, (forall j d es r2, ~ declares r i j d es r2) /\ leaves r i r1 /\ seeks r1 i None r' /\ ds = [] /\ es = [] /\ ws = [] /\ k = i) \/
    (exists j d es1 r1 ds' es' ws', declares r i j d es1 r1 /\ declared r1 j ds' es' ws' k r' /\
       ds = (i, j, d) :: ds' /\ es = map C_Report es1 ++ es' /\ ws = long_strings (rl_limit r) I i j ++ ws') \/
    (exists i' j d w r1 r2 ds' es' ws', (forall j d es r2, ~ declares r i j d es r2) /\ leaves r i r1 /\ seeks r1 i (Some (i', j, d, w)) r2 /\
       declared r2 j ds' es' ws' k r' /\ ds = (i', j, d) :: ds' /\ es = C_Syntax (in_source I) i :: es' /\ ws = w ++ ws').
  Proof. intros []; [left; eauto 12|right; left; eauto 14|right; right]. do 9 eexists. eauto 14. Qed.

  Lemma declared_fun : forall r i ds es ws k r', declared r i ds es ws k r' -> i <= n -> (exists po, obeys E po r) ->
    forall ds2 es2 ws2 k2 r2, declared r i ds2 es2 ws2 k2 r2 -> ds = ds2 /\ es = es2 /\ ws = ws2 /\ k = k2 /\ r' = r2.
  Proof.
    intros r i ds es ws k r' H.
    induction H as [r i r1 r' No L Sk|r i j d es r1 ds es' ws k r' D Dd IH|r i i' j d w r1 r2 ds es' ws k r' No L Sk Dd IH];
      intros Hi Ob ds2 es2 ws2 k2 rr2 H2; apply declared_inv in H2;
      destruct H2 as [(r3 & No2 & L2 & Sk2 & -> & -> & -> & ->)|[(j2 & d2 & e2 & r3 & ds' & es3 & ws3 & D2 & Dd2 & -> & -> & ->)
        |(i2 & j2 & d2 & w2 & r3 & r4 & ds' & es3 & ws3 & No2 & L2 & Sk2 & Dd2 & -> & -> & ->)]];
      try (exfalso; exact (No _ _ _ _ D2)); try (exfalso; exact (No2 _ _ _ _ D)).
    - rewrite <- (leaves_fun _ _ _ _ Ob L L2) in Sk2.
      destruct (seeks_fun _ _ _ _ Sk (leaves_obeys _ _ _ Hi Ob L) _ _ Sk2) as [_ ->]. auto 6.
    - rewrite <- (leaves_fun _ _ _ _ Ob L L2) in Sk2.
      destruct (seeks_fun _ _ _ _ Sk (leaves_obeys _ _ _ Hi Ob L) _ _ Sk2) as [X _]. discriminate.
    - destruct (declares_fun _ _ _ _ _ _ _ _ _ _ Ob D D2) as (<- & <- & <- & <-).
      destruct Ob as [po Ob]. destruct (p_once_reads E I path_ En Comp Fo (mk_pstate po []) r i j d es r1 Ob D) as (st1 & m1 & _ & Ob' & B & _).
      destruct (IH ltac:(lia) (ex_intro _ _ Ob') _ _ _ _ _ Dd2) as (-> & -> & -> & -> & ->). auto 6.
    - rewrite <- (leaves_fun _ _ _ _ Ob L L2) in Sk2.
      destruct (seeks_fun _ _ _ _ Sk (leaves_obeys _ _ _ Hi Ob L) _ _ Sk2) as [X _]. discriminate.
    - rewrite <- (leaves_fun _ _ _ _ Ob L L2) in Sk2. pose proof (leaves_obeys _ _ _ Hi Ob L) as Ob1.
      destruct (seeks_fun _ _ _ _ Sk Ob1 _ _ Sk2) as [X ->]. injection X as <- <- <- <-.
      assert (Bj : j <= n).
      { destruct Ob1 as [po1 Ob1].
        destruct (retry_run (S (n - i)) (mk_pstate po1 []) _ i Ob1 Hi ltac:(lia)) as (f & rr & Sk' & F).
        destruct (seeks_fun _ _ _ _ Sk (ex_intro _ _ Ob1) _ _ Sk') as [<- _]. destruct F as (_ & _ & _ & _ & B & _). lia. }
      destruct (IH Bj (seeks_obeys _ _ _ _ Sk Ob1) _ _ _ _ _ Dd2) as (-> & -> & -> & -> & ->). auto 6.
  Qed.
End Files.
