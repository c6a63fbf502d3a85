(** * C39, C21: files *)
From Coq Require Import String Ascii.
From Coq Require Import List NArith ZArith Arith Bool Lia Permutation.
From Verif Require Import Base BaseFacts Path Types SpecTypes TypesFacts P_Types Options SpecOptions OptionsFacts P_Options Decimal SpecDecimal
  Cost SpecCost Token Peg Grammar SpecGrammar PegFacts ExprFacts DedupFacts GrammarSound GrammarSafe GrammarComplete GrammarDirectives
  SpecDirective DirectiveFacts P_Grammar Parse SpecParse ParseFacts ParseOnce Honest ParseFile.
Import ListNotations.
Local Open Scope nat_scope.

Section Files.
  Context (E : grammar_env) (I : input) (path_ : option path) (En : environment_ok E) (Comp : computable E I) (Fo : fine_options I).
  Notation n := (List.length (in_tokens I)).
  Notation declares := (declares E I path_).
  Notation leaves := (leaves E I path_).
  Notation seeks := (seeks E I path_).
  Notation declared := (declared E I path_).
  Notation tiles := (tiles E I path_).
  Notation parse_file := (parse_file E I path_).

  (** ** What is returned for a file *)

  (** There is always an answer: the file is read as specified.  The warnings
      include those for the strings of its declarations, and are all for
      strings of the file. *)
  Theorem C39_file : forall st r, obeys E (ps_options st) r ->
    exists out es ws r' st', parse_file st = Fine (Some (out, es, st')) /\ file_reads E I path_ r out es ws r' /\
      obeys E (ps_options st') r' /\
      exists all, ps_warnings st' = ps_warnings st ++ all /\ within ws all /\ Forall (warrants E I path_ (rl_limit r)) all.
  Proof.
    intros st r Ob. unfold Parse.parse_file.
    destruct (p_declarations_run E I path_ En Comp Fo (S n) st r 0 Ob ltac:(lia) ltac:(lia))
      as (ds & es & ws & k & r' & st' & Dd & Run & Ob' & B & all & Hw & Wi).
    assert (K : kept E I path_ (ps_warnings st) (rl_limit r) st).
    { constructor; [rewrite (ob_limit _ _ _ Ob); constructor|]. exists []. rewrite app_nil_r. auto. }
    pose proof (keeps_declarations E I path_ En _ _ (S n) st 0 K) as Kp. rewrite Run in *.
    destruct Kp as [_ (all' & Hw' & F)]. rewrite Hw in Hw'. apply app_inv_head in Hw'. subst all'.
    destruct (nth_error (in_tokens I) k) as [tk|] eqn:X.
    - exists None, (es ++ [C_Syntax (in_source I) k]), ws, r', st'. split; [reflexivity|]. split; [|eauto 6].
      eapply file_cut; [exact Dd|]. unfold finished. congruence.
    - exists (Some (map snd ds)), es, ws, r', st'. split; [reflexivity|]. split; [|eauto 6]. eapply file_whole; eassumption.
  Qed.

  (** There is only one way to read a file. *)
  Theorem C39_unambiguous : forall r out es ws r' out2 es2 ws2 r2, (exists po, obeys E po r) ->
    file_reads E I path_ r out es ws r' -> file_reads E I path_ r out2 es2 ws2 r2 ->
    out = out2 /\ es = es2 /\ ws = ws2 /\ r' = r2.
  Proof.
    intros r out es ws r' out2 es2 ws2 r2 Ob [ds e w k r1 D F|ds e w k r1 D F] [ds' e' w' k' r1' D' F'|ds' e' w' k' r1' D' F'];
      destruct (declared_fun E I path_ En Comp Fo _ _ _ _ _ _ _ D ltac:(lia) Ob _ _ _ _ _ D') as (<- & <- & <- & <- & <-);
      try contradiction; auto.
  Qed.

  (** ** Every token is part of a declaration, or there is an error *)

  Lemma seeks_positions r i i' j d w r' : seeks r i (Some (i', j, d, w)) r' -> (exists po, obeys E po r) -> i <= n -> i < i' /\ i' < j <= n.
  Proof.
    intros H Ob Hi. pose proof Ob as [po Ob1]. destruct (retry_run E I path_ En Comp Fo (S (n - i)) (mk_pstate po []) _ i Ob1 Hi ltac:(lia)) as (f & rr & Sk' & F).
    destruct (seeks_fun E I path_ En Comp Fo _ _ _ _ H Ob _ _ Sk') as [<- _]. destruct F as (_ & _ & _ & B & B' & _). auto.
  Qed.
  Lemma declares_positions r i j d es r' : declares r i j d es r' -> (exists po, obeys E po r) -> i < j <= n.
  Proof.
    intros H [po Ob]. destruct (p_once_reads E I path_ En Comp Fo (mk_pstate po []) r i j d es r' Ob H) as (st1 & m1 & _ & _ & B & _). exact B.
  Qed.

  (** Each declaration starts where the one before it ends, or later. *)
  Fixpoint ascending (i : nat) (ds : list (nat * nat * spanned declaration)) (k : nat) : Prop :=
    match ds with
    | [] => i <= k
    | (a, b, _) :: ds' => i <= a /\ a < b /\ ascending b ds' k
    end.
  Lemma ascending_le i ds k : ascending i ds k -> i <= k.
  Proof. revert i. induction ds as [|[[a b] d] ds IH]; cbn; intros i H; [exact H|]. destruct H as (H1 & H2 & H). apply IH in H. lia. Qed.
  Lemma ascending_in i ds k a b d : ascending i ds k -> In (a, b, d) ds -> i <= a /\ a < b <= k.
  Proof.
    revert i. induction ds as [|[[a' b'] d'] ds IH]; cbn; intros i H Hin; [contradiction|]. destruct H as (H1 & H2 & H).
    destruct Hin as [X|Hin]; [injection X as -> -> ->; apply ascending_le in H; lia|]. apply (IH _ H) in Hin. lia.
  Qed.

  Lemma declared_ascending : forall r i ds es ws k r', declared r i ds es ws k r' -> (exists po, obeys E po r) -> i <= n -> ascending i ds k /\ k <= n.
  Proof.
    intros r i ds es ws k r' H.
    induction H as [r i r1 r' No L Sk|r i j d es r1 ds es' ws k r' D Dd IH|r i i' j d w r1 r2 ds es' ws k r' No L Sk Dd IH]; intros Ob Hi; cbn.
    - lia.
    - pose proof (declares_positions _ _ _ _ _ _ D Ob) as B.
      destruct (IH (declares_obeys E I path_ En Comp Fo _ _ _ _ _ _ Ob D) ltac:(lia)). repeat split; try lia; auto.
    - pose proof (leaves_obeys E I path_ En Comp Fo _ _ _ Hi Ob L) as Ob1.
      pose proof (seeks_positions _ _ _ _ _ _ _ Sk Ob1 Hi) as B.
      destruct (IH (seeks_obeys E I path_ En Comp Fo _ _ _ _ Sk Ob1) ltac:(lia)). repeat split; try lia; auto.
  Qed.

  Lemma declared_later : forall r i ds es ws k r', declared r i ds es ws k r' -> (exists po, obeys E po r) -> i <= n ->
    forall s p, In (C_Syntax s p) es -> s = in_source I /\ i <= p < k.
  Proof.
    intros r i ds es ws k r' H.
    induction H as [r i r1 r' No L Sk|r i j d es r1 ds es' ws k r' D Dd IH|r i i' j d w r1 r2 ds es' ws k r' No L Sk Dd IH]; intros Ob Hi s p Hin.
    - destruct Hin.
    - apply in_app_or in Hin. destruct Hin as [Hin|Hin]; [apply in_map_iff in Hin; destruct Hin as (y & Y & _); discriminate|].
      pose proof (declares_positions _ _ _ _ _ _ D Ob).
      apply (IH (declares_obeys E I path_ En Comp Fo _ _ _ _ _ _ Ob D) ltac:(lia)) in Hin. split; [apply Hin|lia].
    - pose proof (leaves_obeys E I path_ En Comp Fo _ _ _ Hi Ob L) as Ob1.
      pose proof (seeks_positions _ _ _ _ _ _ _ Sk Ob1 Hi) as B.
      pose proof (seeks_obeys E I path_ En Comp Fo _ _ _ _ Sk Ob1) as Ob2.
      destruct Hin as [X|Hin].
      + injection X as <- <-. split; [reflexivity|]. destruct (declared_ascending _ _ _ _ _ _ _ Dd Ob2 ltac:(lia)) as [As _].
        apply ascending_le in As. lia.
      + apply (IH Ob2 ltac:(lia)) in Hin. split; [apply Hin|lia].
  Qed.

  Definition uncovered (ds : list (nat * nat * spanned declaration)) q : Prop := forall a b d, In (a, b, d) ds -> ~ a <= q < b.

  (** A token which is in no declaration: there is a syntax error at the start
      of the gap it is in. *)
  Lemma declared_uncovered : forall r i ds es ws k r', declared r i ds es ws k r' -> (exists po, obeys E po r) -> i <= n ->
    forall q, i <= q < k -> uncovered ds q ->
    exists p, In (C_Syntax (in_source I) p) es /\ p <= q /\ forall x, p <= x <= q -> uncovered ds x.
  Proof.
    intros r i ds es ws k r' H.
    induction H as [r i r1 r' No L Sk|r i j d es r1 ds es' ws k r' D Dd IH|r i i' j d w r1 r2 ds es' ws k r' No L Sk Dd IH]; intros Ob Hi q B Un.
    - lia.
    - pose proof (declares_positions _ _ _ _ _ _ D Ob) as Bj.
      pose proof (declares_obeys E I path_ En Comp Fo _ _ _ _ _ _ Ob D) as Ob1.
      assert (j <= q) by (specialize (Un i j d (or_introl eq_refl)); lia).
      destruct (IH Ob1 ltac:(lia) q ltac:(lia)) as (p & Hp & Le & Fi).
      { intros a b d' Hin. apply (Un a b d'). right. exact Hin. }
      exists p. split; [apply in_or_app; right; exact Hp|]. split; [exact Le|].
      intros x Bx a b d' [X|Hin]; [|eapply Fi; eassumption]. injection X as <- <- <-.
      pose proof (declared_later _ _ _ _ _ _ _ Dd Ob1 ltac:(lia) _ _ Hp). lia.
    - pose proof (leaves_obeys E I path_ En Comp Fo _ _ _ Hi Ob L) as Ob1.
      pose proof (seeks_positions _ _ _ _ _ _ _ Sk Ob1 Hi) as Bj.
      pose proof (seeks_obeys E I path_ En Comp Fo _ _ _ _ Sk Ob1) as Ob2.
      destruct (Nat.lt_ge_cases q i') as [Lt|Ge].
      + exists i. split; [left; reflexivity|]. split; [lia|]. intros x Bx a b d' Hin.
        assert (i' <= a); [|lia]. destruct Hin as [X|Hin]; [injection X as <- <- <-; lia|].
        destruct (declared_ascending _ _ _ _ _ _ _ Dd Ob2 ltac:(lia)) as [As _].
        destruct (ascending_in _ _ _ _ _ _ As Hin). lia.
      + assert (j <= q) by (specialize (Un i' j d (or_introl eq_refl)); lia).
        destruct (IH Ob2 ltac:(lia) q ltac:(lia)) as (p & Hp & Le & Fi).
        { intros a b d' Hin. apply (Un a b d'). right. exact Hin. }
        exists p. split; [right; exact Hp|]. split; [exact Le|].
        intros x Bx a b d' [X|Hin]; [|eapply Fi; eassumption]. injection X as <- <- <-.
        pose proof (declared_later _ _ _ _ _ _ _ Dd Ob2 ltac:(lia) _ _ Hp). lia.
  Qed.
  Lemma declared_syntax : forall r i ds es ws k r', declared r i ds es ws k r' -> (exists po, obeys E po r) -> i <= n ->
    forall s p, In (C_Syntax s p) es -> uncovered ds p.
  Proof.
    intros r i ds es ws k r' H.
    induction H as [r i r1 r' No L Sk|r i j d es r1 ds es' ws k r' D Dd IH|r i i' j d w r1 r2 ds es' ws k r' No L Sk Dd IH]; intros Ob Hi s p Hin.
    - destruct Hin.
    - apply in_app_or in Hin. destruct Hin as [Hin|Hin]; [apply in_map_iff in Hin; destruct Hin as (y & Y & _); discriminate|].
      pose proof (declares_positions _ _ _ _ _ _ D Ob).
      pose proof (declares_obeys E I path_ En Comp Fo _ _ _ _ _ _ Ob D) as Ob1.
      pose proof (declared_later _ _ _ _ _ _ _ Dd Ob1 ltac:(lia) _ _ Hin) as La.
      intros a b d' [X|Hd]; [injection X as <- <- <-; lia|]. exact (IH Ob1 ltac:(lia) _ _ Hin _ _ _ Hd).
    - pose proof (leaves_obeys E I path_ En Comp Fo _ _ _ Hi Ob L) as Ob1.
      pose proof (seeks_positions _ _ _ _ _ _ _ Sk Ob1 Hi) as B.
      pose proof (seeks_obeys E I path_ En Comp Fo _ _ _ _ Sk Ob1) as Ob2.
      destruct (declared_ascending _ _ _ _ _ _ _ Dd Ob2 ltac:(lia)) as [As _].
      destruct Hin as [X|Hin].
      + injection X as <- <-. intros a b d' [X|Hd]; [injection X as <- <- <-; lia|].
        destruct (ascending_in _ _ _ _ _ _ As Hd). lia.
      + pose proof (declared_later _ _ _ _ _ _ _ Dd Ob2 ltac:(lia) _ _ Hin) as La.
        intros a b d' [X|Hd]; [injection X as <- <- <-; lia|]. exact (IH Ob2 ltac:(lia) _ _ Hin _ _ _ Hd).
  Qed.

  (** The tokens of a file, and what is returned: there are places [ds], one
      after the other, each of them a declaration, and
      - a token outside them is in a gap at whose start there is an error,
      - an error is at a token outside them,
      - what is returned is those declarations, unless there are tokens after
        the last which no declaration could follow. *)
  Theorem C39_tokens_accounted_for : forall st r out es st', obeys E (ps_options st) r -> parse_file st = Fine (Some (out, es, st')) ->
    exists ds k, ascending 0 ds k /\ k <= n /\
      (forall i j d, In (i, j, d) ds -> exists r1 es1 r2, declares r1 i j d es1 r2) /\
      (out = Some (map snd ds) /\ k = n \/ out = None /\ k < n /\ In (C_Syntax (in_source I) k) es) /\
      (forall q, q < n -> uncovered ds q -> exists p, In (C_Syntax (in_source I) p) es /\ p <= q /\ forall x, p <= x <= q -> uncovered ds x) /\
      (forall s p, In (C_Syntax s p) es -> s = in_source I /\ p < n /\ uncovered ds p).
  Proof.
    intros st r out es st' Ob Run. destruct (C39_file st r Ob) as (out' & es' & ws & r' & st2 & Run' & Fr & _).
    rewrite Run in Run'. injection Run' as <- <- <-.
    assert (Obs : exists po, obeys E po r) by eauto.
    assert (Places : forall r i ds es ws k r', declared r i ds es ws k r' -> forall a b d, In (a, b, d) ds -> exists r1 es1 r2, declares r1 a b d es1 r2).
    { clear. intros r i ds es ws k r' H.
      induction H as [r i r1 r' No L Sk|r i j d es r1 ds es' ws k r' D Dd IH|r i i' j d w r1 r2 ds es' ws k r' No L Sk Dd IH]; intros a b d' Hin.
      - destruct Hin.
      - destruct Hin as [X|Hin]; [injection X as <- <- <-; eauto|eauto].
      - destruct Hin as [X|Hin]; [injection X as <- <- <-|eauto].
        clear - Sk. remember (Some (i', j, d, w)) as f eqn:F. revert F. induction Sk; intro F; try discriminate; eauto; injection F; intros; subst; eauto. }
    destruct Fr as [ds es ws k r' D F|ds es ws k r' D F]; exists ds, k; destruct (declared_ascending _ _ _ _ _ _ _ D Obs ltac:(lia)) as [As Hk].
    - assert (k = n). { unfold finished in F. apply nth_error_None in F. lia. } subst k.
      split; [exact As|]. split; [exact Hk|]. split; [eapply Places; exact D|]. split; [left; auto|]. split.
      + intros q Hq Un. eapply (declared_uncovered _ _ _ _ _ _ _ D Obs); auto; lia.
      + intros s p Hin. pose proof (declared_later _ _ _ _ _ _ _ D Obs ltac:(lia) _ _ Hin). repeat split; try apply H; try lia.
        exact (declared_syntax _ _ _ _ _ _ _ D Obs ltac:(lia) _ _ Hin).
    - assert (k < n). { unfold finished in F. apply nth_error_Some. exact F. }
      assert (After : forall x, k <= x -> uncovered ds x).
      { intros x Hx a b d Hin. destruct (ascending_in _ _ _ _ _ _ As Hin). lia. }
      split; [exact As|]. split; [exact Hk|]. split; [eapply Places; exact D|].
      split; [right; repeat split; auto; apply in_or_app; right; left; reflexivity|]. split.
      + intros q Hq Un. destruct (Nat.lt_ge_cases q k) as [Lt|Ge].
        * destruct (declared_uncovered _ _ _ _ _ _ _ D Obs ltac:(lia) q ltac:(lia) Un) as (p & Hp & R).
          exists p. split; [apply in_or_app; auto|exact R].
        * exists k. split; [apply in_or_app; right; left; reflexivity|]. split; [exact Ge|]. intros x Bx. apply After. lia.
      + intros s p Hin. apply in_app_or in Hin. destruct Hin as [Hin|[X|[]]].
        * pose proof (declared_later _ _ _ _ _ _ _ D Obs ltac:(lia) _ _ Hin). repeat split; try apply H0; try lia.
          exact (declared_syntax _ _ _ _ _ _ _ D Obs ltac:(lia) _ _ Hin).
        * injection X as <- <-. split; [reflexivity|]. split; [assumption|]. apply After. lia.
  Qed.

  (** ** Files without errors of syntax *)

  Lemma nothing_at_end r i : finished I i -> (exists po, obeys E po r) -> forall j d es r', ~ declares r i j d es r'.
  Proof.
    intros F Ob j d es r' D. pose proof (declares_positions _ _ _ _ _ _ D Ob). unfold finished in F. apply nth_error_None in F. lia.
  Qed.
  Lemma leaves_end r i r' : finished I i -> leaves r i r' -> r' = r.
  Proof.
    intros F L. inversion L as [k o es r0 O|]; [|reflexivity]. exfalso. apply option_first in O. destruct O as [s O].
    unfold finished in F. congruence.
  Qed.

  Lemma tiles_declared : forall r i ds es ws r', tiles r i ds es ws r' -> (exists po, obeys E po r) ->
    exists pds k, declared r i pds (map C_Report es) ws k r' /\ finished I k /\ map snd pds = ds.
  Proof.
    intros r i ds es ws r' H. induction H as [r i F|r i j d es r1 ds es' ws r' D T IH]; intro Ob.
    - exists [], i. split; [|auto]. eapply declared_stop with (r1 := r).
      + intros. apply nothing_at_end; auto.
      + apply leaves_alone. intros k o es r2 O. apply option_first in O. destruct O as [s O]. unfold finished in F. congruence.
      + apply seeks_end. exact F.
    - destruct (IH (declares_obeys E I path_ En Comp Fo _ _ _ _ _ _ Ob D)) as (pds & k & Dd & F & M).
      exists ((i, j, d) :: pds), k. split; [|split; [exact F|cbn; congruence]].
      rewrite map_app. eapply declared_next; eassumption.
  Qed.
  Lemma declared_tiles : forall r i pds es ws k r', declared r i pds es ws k r' -> (exists po, obeys E po r) -> finished I k ->
    (forall s p, ~ In (C_Syntax s p) es) -> exists es', es = map C_Report es' /\ tiles r i (map snd pds) es' ws r'.
  Proof.
    intros r i ds es ws k r' H.
    induction H as [r i r1 r' No L Sk|r i j d es r1 ds es' ws k r' D Dd IH|r i i' j d w r1 r2 ds es' ws k r' No L Sk Dd IH]; intros Ob F NS.
    - exists []. split; [reflexivity|]. apply (leaves_end _ _ _ F) in L. subst r1.
      assert (r' = r) as ->; [|apply tiles_end; exact F].
      inversion Sk; subst; auto; contradiction.
    - destruct (IH (declares_obeys E I path_ En Comp Fo _ _ _ _ _ _ Ob D) F) as (e2 & -> & T).
      { intros s p Hin. apply (NS s p). apply in_or_app. auto. }
      exists (es ++ e2). split; [rewrite map_app; reflexivity|]. eapply tiles_next; eassumption.
    - exfalso. apply (NS (in_source I) i). left. reflexivity.
  Qed.

  Lemma p_once_end st i : finished I i -> p_once E I path_ st i = SNot st.
  Proof.
    intro F. assert (Aw : away I is_date i) by (apply away_finished; exact F).
    rewrite p_once_pragma by exact Aw. unfold sspn, smap, sbind.
    rewrite p_pragma_other by (intros k _ [y Y]; unfold finished in F; congruence). reflexivity.
  Qed.
  Lemma tiles_run : forall r i ds es ws r', tiles r i ds es ws r' -> forall f st, obeys E (ps_options st) r -> i <= n -> n - i < f ->
    exists k st', p_declarations E I path_ f st i = SGot ds k (map C_Report es) st' /\ finished I k /\ obeys E (ps_options st') r' /\
      ps_warnings st' = ps_warnings st ++ ws.
  Proof.
    intros r i ds es ws r' H. induction H as [r i F|r i j d es r1 ds es' ws r' D T IH]; intros f st Ob Hi Hf; (destruct f as [|f]; [lia|]);
      cbn [p_declarations]; unfold p_declaration.
    - exists i, st. rewrite p_once_end by exact F. cbn [retry]. unfold finished in F. rewrite F. rewrite app_nil_r. auto.
    - assert (NI : ~ tok I j T_Indent).
      { apply (not_indented E I path_ r1). destruct T; [right; assumption|left; eauto 6]. }
      destruct (p_once_reads E I path_ En Comp Fo st r i j d es r1 Ob D) as (st1 & more & -> & Ob1 & B & Hw & Mo).
      destruct (IH f st1 Ob1 ltac:(lia) ltac:(lia)) as (k & st' & -> & F & Ob' & Hw').
      exists k, st'. rewrite map_app. split; [reflexivity|]. split; [exact F|]. split; [exact Ob'|].
      rewrite Hw', Hw, (Mo NI), app_nil_r, <- app_assoc. reflexivity.
  Qed.

  (** A file which is one declaration after the other: these are returned,
      with just the errors and the warnings for them... *)
  Theorem C39_clean : forall st r ds es ws r', obeys E (ps_options st) r -> tiles r 0 ds es ws r' ->
    exists st', parse_file st = Fine (Some (Some ds, map C_Report es, st')) /\ obeys E (ps_options st') r' /\
      ps_warnings st' = ps_warnings st ++ ws.
  Proof.
    intros st r ds es ws r' Ob T. unfold Parse.parse_file.
    destruct (tiles_run _ _ _ _ _ _ T (S n) st Ob ltac:(lia) ltac:(lia)) as (k & st' & -> & F & Ob' & Hw).
    unfold finished in F. rewrite F. eauto.
  Qed.

  (** ... and any file for which there is no error of syntax is such. *)
  Theorem C39_no_syntax_error : forall st r out es st', obeys E (ps_options st) r -> parse_file st = Fine (Some (out, es, st')) ->
    (forall s p, ~ In (C_Syntax s p) es) ->
    exists ds es' ws r', out = Some ds /\ es = map C_Report es' /\ tiles r 0 ds es' ws r' /\ ps_warnings st' = ps_warnings st ++ ws.
  Proof.
    intros st r out es st' Ob Run NS. destruct (C39_file st r Ob) as (out' & es' & ws & r' & st2 & Run' & Fr & _).
    rewrite Run in Run'. injection Run' as <- <- <-.
    destruct Fr as [ds es ws k r' D F|ds es ws k r' D F].
    - destruct (declared_tiles _ _ _ _ _ _ _ D ltac:(eauto) F NS) as (es2 & -> & T).
      destruct (C39_clean st r _ _ _ _ Ob T) as (st3 & Run' & _ & Hw). rewrite Run in Run'. injection Run' as <-.
      exists (map snd ds), es2, ws, r'. auto.
    - exfalso. apply (NS (in_source I) k). apply in_or_app. right. left. reflexivity.
  Qed.

  (** ** C21: the strings of a file *)

  (** Every warning is for a string of the file which is longer than a limit
      which is set at the start of the file, or by an option of it. *)
  Theorem C21_file_warnings : forall st r out es st', obeys E (ps_options st) r -> parse_file st = Fine (Some (out, es, st')) ->
    exists all, ps_warnings st' = ps_warnings st ++ all /\ Forall (warrants E I path_ (rl_limit r)) all.
  Proof.
    intros st r out es st' Ob Run. destruct (C39_file st r Ob) as (out' & es' & ws & r' & st2 & Run' & _ & _ & all & Hw & _ & F).
    rewrite Run in Run'. injection Run' as <- <- <-. eauto.
  Qed.
End Files.

(** ** A case *)

Lemma ex_environment : environment_ok ex_env.
Proof. split; [intros c H; repeat split|intro l; apply Permutation_refl]. Qed.
Lemma ex_obeys : obeys ex_env (ps_options default_pstate) initial_rules.
Proof.
  split; cbn; [exact named_default| |reflexivity]. intro t. apply default_names_valid. intros c H. repeat split.
Qed.
(** Options with nothing but ASCII characters do not panic. *)
Definition check_options (I : input) : bool :=
  forallb (fun x => match fst x with T_String s => forallb (fun c => (c <? 128)%N) s | _ => true end) (in_tokens I).
Lemma check_options_ok I : check_options I = true -> fine_options I.
Proof.
  unfold check_options. rewrite forallb_forall. intros A i name value c _ _ [r T] H. apply nth_error_In in T. apply A in T. cbn [fst] in T.
  assert (V : Forall ascii value).
  { rewrite forallb_forall in T. apply Forall_forall. intros x Hx. apply T in Hx. apply N.ltb_lt in Hx. exact Hx. }
  destruct H as [[_ ->]|(_ & _ & [->|[rest ->]])]; auto. apply Forall_app in V. apply V.
Qed.

(** A name for an account type and a limit; a string of three lines; an
    account with that name.  Then a line which is no declaration, a bad option
    and another declaration. *)
Definition ex_file_tokens : list token :=
  [T_Keyword K_Option; T_String (lit "name_assets"); T_String (lit "Actifs"); T_Eol;
   T_Keyword K_Option; T_String (lit "long_string_maxlines"); T_String (lit "2"); T_Eol;
   T_Date (mk_date 2024 2 29); T_Asterisk; T_String [97; 10; 98; 10]%N; T_Eol;
   T_Indent; T_Account (lit "Actifs:Cash"); T_Eol].
Definition ex_file : input := ex_tokens ex_file_tokens.
Definition ex_broken : input := ex_tokens (ex_file_tokens ++
  [T_Asterisk; T_Eol; T_Keyword K_Option; T_String (lit "colour"); T_String (lit "red"); T_Eol;
   T_Date (mk_date 2024 3 1); T_Keyword K_Close; T_Account (lit "Actifs:Cash"); T_Eol]).
Definition ex_cut : input := ex_tokens (ex_file_tokens ++ [T_Asterisk; T_Eol]).
Lemma ex_file_computable : computable ex_env ex_file /\ computable ex_env ex_broken /\ computable ex_env ex_cut.
Proof. split; [|split]; apply check_computable_ok; vm_compute; reflexivity. Qed.
Lemma ex_file_options : fine_options ex_file /\ fine_options ex_broken /\ fine_options ex_cut.
Proof. split; [|split]; apply check_options_ok; vm_compute; reflexivity. Qed.

(** The whole file is declarations... *)
Example ex_file_read : exists ds st' w, parse_file ex_env ex_file None default_pstate = Fine (Some (Some ds, [], st')) /\ List.length ds = 3 /\
  ps_warnings st' = [w] /\ rp_problem w = StringTooLong false 2 3.
Proof. do 3 eexists. vm_compute. repeat split. Qed.
Example ex_file_tiles : exists ds es ws r', tiles ex_env ex_file None initial_rules 0 ds es ws r' /\ List.length ds = 3.
Proof.
  destruct ex_file_read as (ds & st' & w & H & L & _).
  destruct (C39_no_syntax_error ex_env ex_file None ex_environment (proj1 ex_file_computable) (proj1 ex_file_options)
    default_pstate initial_rules _ _ _ ex_obeys H) as (ds' & es & ws & r' & X & _ & T & _); [intros s p []|].
  injection X as <-. exists ds, es, ws, r'. auto.
Qed.
(** ... and here one line of it is not: the error is where that line starts,
    and what comes next is the first declaration without an error. *)
Example ex_broken_read : exists ds st', parse_file ex_env ex_broken None default_pstate = Fine (Some (Some ds, [C_Syntax 7 15], st')) /\ List.length ds = 4.
Proof. do 2 eexists. vm_compute. repeat split. Qed.
(** If nothing comes after it, there are no declarations at all. *)
Example ex_cut_read : exists st', parse_file ex_env ex_cut None default_pstate = Fine (Some (None, [C_Syntax 7 15], st')).
Proof. eexists. vm_compute. repeat split. Qed.

Print Assumptions C39_file.
Print Assumptions C39_unambiguous.
Print Assumptions C39_tokens_accounted_for.
Print Assumptions C39_clean.
Print Assumptions C39_no_syntax_error.
Print Assumptions C21_file_warnings.
