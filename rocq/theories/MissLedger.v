(** * Whole ledgers with misses *)
From Coq Require Import String Ascii.
From Coq Require Import List NArith ZArith Arith Bool Lia.
From Verif Require Import Base Text Path Sources Types SortM Options Pragma Read Token Lexer Decimal Cost Peg PegFacts Grammar GrammarSafe Parse Messages Miss MissGrammar MissParse
  MissErased SpecMiss MissPlace MissFile MissPrefix MissFirst.
Import ListNotations.
Local Open Scope nat_scope.

Definition erased_all (r : outcome (option (list (option path * list (spanned declaration)) * list mcomplaint * pstate))) :=
  match r with
  | Fine (Some (outputs, es, st)) => Fine (Some (outputs, map plainly es, st))
  | Fine None => Fine None
  | Panic => Panic
  end.

Lemma file_erased E I f st :
  match mparse_file E I f st with
  | Fine (Some (out, es, st')) => Fine (Some (out, map plainly es, st'))
  | Fine None => Fine None
  | Panic => Panic
  end = parse_file E I f st.
Proof. apply (file_placed E I f (fun _ => True)); [intro; auto|exact Logic.I]. Qed.

Lemma all_erased E toks : forall cs outputs errors st,
  erased_all (mparse_all E toks cs outputs errors st) = parse_all E toks cs outputs (map plainly errors) st.
Proof.
  induction cs as [|[[id f] c] cs IH]; intros outputs errors st; cbn [mparse_all parse_all]; [reflexivity|].
  destruct (nth_error toks id) as [ts|]; [|reflexivity]. rewrite <- (file_erased E (input_of id c ts) f st).
  destruct (mparse_file E (input_of id c ts) f st) as [[[[out es] st']|]|]; try reflexivity.
  rewrite IH, map_app. reflexivity.
Qed.

Lemma plainly_told es : Forall told (map MC_Report es).
Proof. apply Forall_forall. intros c H. apply in_map_iff in H as (r & <- & _). exists r. reflexivity. Qed.

(** ** Where the errors are *)

Section Placed.
  Context (E : grammar_env) (toks : list (list rtoken)) (all : list (nat * option path * str)).

  Definition well (c : mcomplaint) : Prop :=
    match c with
    | MC_Report _ => True
    | MC_Syntax _ _ _ => exists id f content ts, In (id, f, content) all /\ nth_error toks id = Some ts /\ said_well E (input_of id content ts) (in_force E all toks) c
    end.

  Lemma all_placed : forall cs outputs errors st outputs' errors' st', incl cs all ->
    in_force E all toks (ps_options st) -> Forall well errors ->
    mparse_all E toks cs outputs errors st = Fine (Some (outputs', errors', st')) -> Forall well errors'.
  Proof.
    induction cs as [|[[id f] c] cs IH]; intros outputs errors st outputs' errors' st' Inc Fo W H; cbn [mparse_all] in H; [injection H as _ <- _; exact W|].
    destruct (nth_error toks id) as [ts|] eqn:N; [|discriminate].
    assert (Cl : closed E (input_of id c ts) f (in_force E all toks)).
    { intros po i name value sn sv o po' es Fpo (r1 & N1) (r2 & N2) (r3 & N3) R. eapply in_force_option; try eassumption. apply Inc. left. reflexivity. }
    pose proof (proj1 (file_placed E (input_of id c ts) f (in_force E all toks) Cl st Fo)) as P.
    destruct (mparse_file E (input_of id c ts) f st) as [[[[out es] st1]|]|]; [|discriminate|discriminate]. destruct P as [P Fo'].
    eapply IH; [intros x Hx; apply Inc; right; exact Hx|exact Fo'| |exact H]. apply Forall_app. split; [exact W|].
    eapply Forall_impl; [|exact P]. intros [r|s p x] Hc; cbn; [exact Logic.I|]. exists id, f, c, ts. repeat split; [apply Inc; left; reflexivity|exact N|apply Hc..].
  Qed.
End Placed.

(** ** The first error *)

Lemma mparse_all_app E toks : forall cs1 cs2 outputs errors st,
  mparse_all E toks (cs1 ++ cs2) outputs errors st =
  match mparse_all E toks cs1 outputs errors st with
  | Fine (Some (outputs', errors', st')) => mparse_all E toks cs2 outputs' errors' st'
  | r => r
  end.
Proof.
  induction cs1 as [|[[id f] c] cs1 IH]; intros cs2 outputs errors st; cbn [mparse_all List.app]; [reflexivity|].
  destruct (nth_error toks id) as [ts|]; [|reflexivity].
  destruct (mparse_file E (input_of id c ts) f st) as [[[[out es] st']|]|]; try reflexivity. apply IH.
Qed.
Lemma mparse_all_same E toks toks' : forall cs outputs errors st,
  (forall id f c, In (id, f, c) cs -> nth_error toks id = nth_error toks' id) ->
  mparse_all E toks cs outputs errors st = mparse_all E toks' cs outputs errors st.
Proof.
  induction cs as [|[[id f] c] cs IH]; intros outputs errors st H; cbn [mparse_all]; [reflexivity|].
  rewrite (H id f c) by (left; reflexivity). destruct (nth_error toks' id) as [ts|]; [|reflexivity].
  destruct (mparse_file E (input_of id c ts) f st) as [[[[out es] st']|]|]; try reflexivity. apply IH. intros. eapply H. right. eassumption.
Qed.
(** The errors of the files come after those before, each from one of the files. *)
Lemma mparse_all_extends E toks : forall cs outputs errors st outputs' errors' st',
  mparse_all E toks cs outputs errors st = Fine (Some (outputs', errors', st')) ->
  exists more, errors' = errors ++ more /\ forall s p x, In (MC_Syntax s p x) more -> In s (map (fun c => fst (fst c)) cs).
Proof.
  induction cs as [|[[id f] c] cs IH]; intros outputs errors st outputs' errors' st' H; cbn [mparse_all] in H.
  - injection H as _ <- _. exists []. split; [rewrite app_nil_r; reflexivity|]. intros ? ? ? [].
  - destruct (nth_error toks id) as [ts|] eqn:N; [|discriminate].
    pose proof (proj1 (file_placed E (input_of id c ts) f (fun _ => True) ltac:(intro; auto) st Logic.I)) as P.
    destruct (mparse_file E (input_of id c ts) f st) as [[[[out es] st1]|]|]; [|discriminate|discriminate]. destruct P as [P _].
    destruct (IH _ _ _ _ _ _ H) as (more & -> & Hm). exists (es ++ more). split; [rewrite app_assoc; reflexivity|].
    intros s p x Hx. apply in_app_or in Hx as [Hx|Hx]; [|right; eapply Hm; exact Hx]. left. rewrite Forall_forall in P. specialize (P _ Hx). destruct P as [-> _]. reflexivity.
Qed.

(** Where the first of the syntax errors is in a concatenation. *)
Lemma first_error_app es1 es2 rs s p x : first_error (es1 ++ es2) rs s p x ->
  first_error es1 rs s p x \/ (Forall told es1 /\ exists rs2, rs = es1 ++ rs2 /\ first_error es2 rs2 s p x).
Proof.
  revert rs. induction es1 as [|c es1 IH]; intros rs (rest & Eq & T); cbn [List.app] in Eq.
  - right. split; [constructor|]. exists rs. split; [reflexivity|]. exists rest. auto.
  - destruct rs as [|d rs]; cbn [List.app] in Eq.
    + injection Eq as Ec Er. subst c. left. exists es1. split; [reflexivity|constructor].
    + injection Eq as <- Eq. inversion T as [|? ? Tc T']; subst. destruct (IH rs) as [(rest1 & -> & T1)|(T1 & rs2 & -> & F)]; [exists rest; auto| |].
      * left. exists rest1. split; [reflexivity|constructor; assumption].
      * right. split; [constructor; assumption|]. exists rs2. auto.
Qed.
Lemma first_error_more es1 es2 rs s p x : first_error es1 rs s p x -> first_error (es1 ++ es2) rs s p x.
Proof. intros (rest & -> & T). exists (rest ++ es2). rewrite <- app_assoc. auto. Qed.
Lemma first_error_after es1 es2 rs s p x : Forall told es1 -> first_error es2 rs s p x -> first_error (es1 ++ es2) (es1 ++ rs) s p x.
Proof. intros T1 (rest & -> & T). exists rest. rewrite <- app_assoc. split; [reflexivity|]. apply Forall_app. auto. Qed.
Lemma first_error_in es rs s p x : first_error es rs s p x -> In (MC_Syntax s p x) es.
Proof. intros (rest & -> & _). apply in_or_app. right. left. reflexivity. Qed.
Lemma told_no_first es rs s p x : Forall told es -> ~ first_error es rs s p x.
Proof. intros T F. apply first_error_in in F. rewrite Forall_forall in T. destruct (T _ F) as (r & X). discriminate. Qed.

Section Prefix.
  Context (E : grammar_env) (toks toks' : list (list rtoken)).
  Context (pre post post' : list (nat * option path * str)) (id : nat) (f : option path) (c c' : str) (ts ts' : list rtoken).
  Context (Pre : forall id f c, In (id, f, c) pre -> nth_error toks id = nth_error toks' id).
  Context (Hts : nth_error toks id = Some ts) (Hts' : nth_error toks' id = Some ts').
  Context (Nid : ~ In id (map (fun c => fst (fst c)) post)).

  Lemma all_first outputs errors st outputs' errors' st' rs p x :
    mparse_all E toks (pre ++ (id, f, c) :: post) [] [] default_pstate = Fine (Some (outputs, errors, st)) ->
    first_error errors rs id p x ->
    alike_up_to (S (ms_at x)) (input_of id c ts) (input_of id c' ts') ->
    mparse_all E toks' (pre ++ (id, f, c') :: post') [] [] default_pstate = Fine (Some (outputs', errors', st')) ->
    first_error errors' rs id p x.
  Proof.
    rewrite !mparse_all_app. rewrite <- (mparse_all_same E toks toks' pre) by exact Pre.
    destruct (mparse_all E toks pre [] [] default_pstate) as [[[[o1 e1] st1]|]|]; [|discriminate|discriminate]. cbn [mparse_all]. rewrite Hts, Hts'.
    destruct (mparse_file E (input_of id c ts) f st1) as [[[[out es] st2]|]|] eqn:Q; [|discriminate|discriminate]. intros H F Al.
    destruct (mparse_file E (input_of id c' ts') f st1) as [[[[out' es'] st2']|]|] eqn:Q'; [|discriminate|discriminate]. intro H'.
    destruct (mparse_all_extends _ _ _ _ _ _ _ _ _ H) as (more & -> & Hm). destruct (mparse_all_extends _ _ _ _ _ _ _ _ _ H') as (more' & -> & _).
    apply first_error_more. rewrite <- app_assoc in F. destruct (first_error_app _ _ _ _ _ _ F) as [F1|(T1 & rs2 & -> & F2)].
    - apply first_error_more. exact F1.
    - apply first_error_after; [exact T1|]. destruct (first_error_app _ _ _ _ _ _ F2) as [F3|(T3 & rs3 & -> & F4)].
      + eapply first_alike; [exact Al|exact Q|exact F3|lia|exact Q'].
      + exfalso. apply Nid. eapply Hm. eapply first_error_in. exact F4.
  Qed.
End Prefix.
