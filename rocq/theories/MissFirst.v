(** * The first syntax error depends on nothing after it *)
From Coq Require Import String Ascii.
From Coq Require Import List NArith ZArith Arith Bool Lia.
From Verif Require Import Base Text Path Sources Types SortM Options Pragma Read Token Lexer Decimal Cost Peg PegFacts Grammar GrammarSafe Parse P_Total Messages Miss MissGrammar MissParse
  MissErased SpecMiss MissPlace MissFile MissPrefix.
Import ListNotations.
Local Open Scope nat_scope.

Definition any_options (_ : parser_options) : Prop := True.
Lemma any_closed E I path : closed E I path any_options.
Proof. intros po i name value sn sv o po' es _ _ _ _ _. exact Logic.I. Qed.

Lemma further_at_least a b x : further a b = Some x -> forall y, a = Some y \/ b = Some y -> ms_at y <= ms_at x.
Proof.
  intros H y Y. destruct a as [a|], b as [b|]; cbn [further] in H; try discriminate.
  - destruct (Nat.compare (ms_at a) (ms_at b)) eqn:Q; injection H as <-; cbn [ms_at];
      [apply Nat.compare_eq in Q|apply Nat.compare_lt_iff in Q|apply Nat.compare_gt_iff in Q]; destruct Y as [Y|Y]; injection Y as <-; lia.
  - injection H as <-. destruct Y as [Y|Y]; [injection Y as <-; lia|discriminate].
  - injection H as <-. destruct Y as [Y|Y]; [discriminate|injection Y as <-; lia].
Qed.
Lemma further_keeps I x k : k <= ms_at x -> further (Some x) (not_end I k) = Some x.
Proof.
  intro L. unfold not_end, missed. cbn [further ms_at]. destruct (Nat.compare (ms_at x) k) eqn:Q; [|apply Nat.compare_lt_iff in Q; lia|reflexivity].
  destruct x as [a sp [c|]]; reflexivity.
Qed.

Section File.
  Context (E : grammar_env) (I J : input) (source_path : option path).
  Let n := List.length (in_tokens I).

  (** From here on, with what was said so far, the declarations up to [p] are
      read with the errors [rs], and there is none at [p]. *)
  Inductive reaches : misses -> pstate -> nat -> list mcomplaint -> nat -> miss -> Prop :=
  | reaches_here m0 st i st1 m1 x : q_once E I source_path st i = (MNot st1, m1) -> further m0 m1 = Some x -> i < n ->
      reaches m0 st i [] i x
  | reaches_on m0 st i d j es st1 m1 rs p x : q_once E I source_path st i = (MGot d j es st1, m1) -> reaches (further m0 m1) st1 j rs p x ->
      reaches m0 st i (es ++ rs) p x.

  Lemma reaches_unique m0 st i rs p x : reaches m0 st i rs p x -> forall rs' p' x', reaches m0 st i rs' p' x' -> rs' = rs /\ p' = p /\ x' = x.
  Proof.
    induction 1 as [m0 st i st1 m1 x Q Fu L|m0 st i d j es st1 m1 rs p x Q R IH]; intros rs' p' x' R'; destruct R' as [m0 st i st1' m1' x' Q' Fu' L'|m0 st i d' j' es' st1' m1' rs' p' x' Q' R'].
    - rewrite Q in Q'. injection Q' as <- <-. rewrite Fu in Fu'. injection Fu' as <-. auto.
    - congruence.
    - congruence.
    - rewrite Q in Q'. injection Q' as <- <- <- <- <-. destruct (IH _ _ _ R') as (-> & -> & ->). auto.
  Qed.

  Lemma once_placed st i : i <= n -> match q_once E I source_path st i with
    | (MGot _ j es st', m) => i <= j <= n /\ fits E I any_options i m /\ Forall told es
    | (MNot st', m) => m <> None /\ fits E I any_options i m
    | _ => True end.
  Proof.
    intro L. pose proof (splaced_once E I source_path any_options (any_closed E I source_path) st i L Logic.I) as H.
    destruct (q_once E I source_path st i) as [[d j es st1|st1| |] m]; try exact Logic.I; tauto.
  Qed.

  Lemma reaches_bounds m0 st i rs p x : reaches m0 st i rs p x -> i <= n ->
    i <= p /\ p < n /\ p <= ms_at x /\ Forall told rs /\ (forall y, m0 = Some y -> ms_at y <= ms_at x).
  Proof.
    induction 1 as [m0 st i st1 m1 x Q Fu L|m0 st i d j es st1 m1 rs p x Q R IH]; intro Li; pose proof (once_placed st i Li) as P; rewrite Q in P.
    - destruct P as [P1 P2]. split; [lia|]. split; [exact L|]. split.
      + destruct m1 as [y|]; [|congruence]. destruct (P2 y eq_refl) as [[Ly _] _]. pose proof (further_at_least _ _ _ Fu y (or_intror eq_refl)). lia.
      + split; [constructor|]. intros y Y. apply (further_at_least _ _ _ Fu). left. exact Y.
    - destruct P as (P1 & P2 & P3). destruct (IH (proj2 P1)) as (H1 & H2 & H3 & H4 & H5). split; [lia|]. split; [exact H2|]. split; [exact H3|].
      split; [apply Forall_app; auto|]. intros y Y. destruct (further m0 m1) as [z|] eqn:Fu.
      + pose proof (further_at_least _ _ _ Fu y (or_introl Y)). pose proof (H5 z eq_refl). lia.
      + exfalso. apply (further_some m0 m1); [left; congruence|exact Fu].
  Qed.

  (** What the parser of declarations comes to. *)
  Lemma declarations_reach f : forall m0 st i ds k es st' m, i <= n -> fits E I any_options 0 m0 ->
    q_declarations E I source_path f m0 st i = (MGot ds k es st', m) ->
    (exists rs p x, first_error es rs (in_source I) p x /\ reaches m0 st i rs p x) \/
    (Forall told es /\
     ((exists x, k < n /\ m = Some x /\ k <= ms_at x /\ reaches m0 st i es k x) \/
      (k = n /\ forall rs p x, ~ reaches m0 st i rs p x))).
  Proof.
    induction f as [|f IH]; intros m0 st i ds k es st' m L M Q; [discriminate|]. cbn [q_declarations] in Q.
    unfold q_declaration in Q. pose proof (once_placed st i L) as P. destruct (q_once E I source_path st i) as [[d j es1 st1|st1| |] m1] eqn:O; try discriminate.
    - destruct P as (P1 & P2 & P3).
      destruct (q_declarations E I source_path f (further m0 m1) st1 j) as [[ds' k' es' st2|st2| |] m2] eqn:D; try discriminate.
      injection Q as <- <- <- <- <-. assert (M' : fits E I any_options 0 (further m0 m1)).
      { apply fits_further; [exact M|]. apply fits_from with (j := i); [lia|exact P2]. }
      destruct (IH _ _ _ _ _ _ _ _ (proj2 P1) M' D) as [(rs & p & x & (rest & -> & T) & R)|[T [(x & Lk & -> & Lx & R)|[-> N]]]].
      + left. exists (es1 ++ rs), p, x. split; [|apply reaches_on with (1 := O); exact R]. exists rest. rewrite app_assoc. split; [reflexivity|]. apply Forall_app. auto.
      + right. split; [apply Forall_app; auto|]. left. exists x. split; [exact Lk|]. split; [reflexivity|]. split; [exact Lx|]. apply reaches_on with (1 := O). exact R.
      + right. split; [apply Forall_app; auto|]. right. split; [reflexivity|]. intros rs p x R. remember m0 as m0' eqn:Em. remember st as st0 eqn:Es. remember i as i0 eqn:Ei.
        destruct R as [m0'' st'' i'' st1' m1' x' Q' Fu' L'|m0'' st'' i'' d' j' es'' st1' m1' rs' p' x' Q' R']; subst; [congruence|].
        rewrite O in Q'. injection Q' as <- <- <- <- <-. exact (N _ _ _ R').
    - destruct P as [P1 P2]. destruct (further m0 m1) as [x|] eqn:Fu; [|discriminate].
      assert (Lx : i <= ms_at x).
      { destruct m1 as [y|]; [|congruence]. destruct (P2 y eq_refl) as [[Ly _] _]. pose proof (further_at_least _ _ _ Fu y (or_intror eq_refl)). lia. }
      destruct (Nat.eq_dec i n) as [->|Ne].
      + cbn [mretry] in Q. assert (X : nth_error (in_tokens I) n = None) by (apply nth_error_None; apply le_n). rewrite X in Q. injection Q as <- <- <- <- <-.
        right. split; [constructor|]. right. split; [reflexivity|]. intros rs p x' R. remember n as i0 eqn:Ei. remember m0 as m0' eqn:Em. remember st as st0 eqn:Es.
        destruct R as [m0'' st'' i'' st1' m1' x'' Q' Fu' L'|m0'' st'' i'' d' j' es'' st1' m1' rs' p' x'' Q' R']; subst; [lia|congruence].
      + destruct (mretry E I source_path (S (List.length (in_tokens I) - i)) st1 i) as [[d j es1 st2|st2| |] m2] eqn:R; try discriminate.
        * destruct (q_declarations E I source_path f m2 st2 j) as [[ds' k' es' st3|st3| |] m3] eqn:D; try discriminate. injection Q as <- <- <- <- <-.
          left. exists [], i, x. split; [exists es'; split; [reflexivity|constructor]|]. apply reaches_here with (1 := O); [exact Fu|lia].
        * injection Q as <- <- <- <- <-. right. split; [constructor|]. left. exists x. split; [lia|]. split; [reflexivity|]. split; [exact Lx|].
          apply reaches_here with (1 := O); [exact Fu|lia].
  Qed.

  (** And so for files. *)
  Lemma file_reach st out es st' : mparse_file E I source_path st = Fine (Some (out, es, st')) ->
    (exists rs p x, first_error es rs (in_source I) p x /\ reaches None st 0 rs p x) \/
    (Forall told es /\ forall rs p x, ~ reaches None st 0 rs p x).
  Proof.
    unfold mparse_file. destruct (q_declarations E I source_path (S (List.length (in_tokens I))) None st 0) as [[ds j es1 st1|st1| |] m] eqn:D; try discriminate.
    pose proof (declarations_reach _ _ _ _ _ _ _ _ _ (Nat.le_0_l _) (fits_none E I any_options 0) D) as H.
    destruct (nth_error (in_tokens I) j) as [tk|] eqn:N.
    - assert (Lj : j < n) by (apply nth_error_Some; congruence).
      destruct (further m (not_end I j)) as [said|] eqn:Fu; [|discriminate]. intro Q. injection Q as <- <- <-.
      destruct H as [(rs & p & x & (rest & -> & T) & R)|[T [(x & Lk & -> & Lx & R)|[-> N']]]]; [| |lia].
      + left. exists rs, p, x. split; [|exact R]. exists (rest ++ [MC_Syntax (in_source I) j said]). rewrite <- app_assoc. split; [reflexivity|exact T].
      + rewrite further_keeps in Fu by exact Lx. injection Fu as <-. left. exists es1, j, x. split; [|exact R]. exists []. split; [reflexivity|exact T].
    - intro Q. injection Q as <- <- <-. apply nth_error_None in N. fold n in N.
      destruct H as [(rs & p & x & Fe & R)|[T [(x & Lk & -> & Lx & R)|[-> N']]]]; [left; exists rs, p, x; auto|lia|].
      right. split; [exact T|exact N'].
  Qed.
End File.

Section Two.
  Context (E : grammar_env) (I J : input) (source_path : option path) (M : nat) (au : alike_up_to M I J).
  Let n := List.length (in_tokens I).
  Notation within := (within M).

  Definition sdet {A} (q q' : msparser A) : Prop := forall st i, i <= n ->
    match q st i with
    | (MGot _ j _ _, m) => j <= M -> within m -> q' st i = q st i
    | (MNot _, m) => within m -> q' st i = q st i
    | _ => True
    end.
  Notation splaced := (splaced E I any_options).

  Lemma sdet_lift {A} (q q' : parser_options -> mparser A) : (forall po, det I M 0 (q po) (q' po)) -> sdet (mlift q) (mlift q').
  Proof.
    intros D st i L. specialize (D (ps_options st) i (conj (Nat.le_0_l i) L)). unfold mlift. destruct (q (ps_options st) i) as [[a j ws es|ws| |] m]; try exact Logic.I.
    - intros Lj W. rewrite (D Lj W). reflexivity.
    - intro W. rewrite (D W). reflexivity.
  Qed.
  Lemma sdet_bind {A B} (q q' : msparser A) (g g' : A -> msparser B) : splaced q -> sdet q q' -> (forall a, splaced (g a)) -> (forall a, sdet (g a) (g' a)) ->
    sdet (msbind q g) (msbind q' g').
  Proof.
    intros P D G D' st i L. specialize (P st i L Logic.I). specialize (D st i L). unfold msbind. destruct (q st i) as [[a j es st1|st1| |] m]; try exact Logic.I.
    - destruct P as (P1 & P2 & _). specialize (G a st1 j (proj2 P1) Logic.I). specialize (D' a st1 j (proj2 P1)).
      destruct (g a st1 j) as [[b k es' st2|st2| |] m']; try exact Logic.I.
      + intros Lk W. apply (within_further I) in W. destruct W as [W W']. rewrite (D ltac:(lia) W), (D' Lk W'). reflexivity.
      + intro W. apply (within_further I) in W. destruct W as [W W']. destruct G as (G1 & G2 & _). destruct m' as [x|]; [|congruence].
        destruct (G2 x eq_refl) as [[Lx _] _]. pose proof (W' x eq_refl) as Wx. rewrite (D ltac:(lia) W), (D' W'). reflexivity.
    - intro W. rewrite (D W). reflexivity.
  Qed.
  Lemma sdet_ret {A} (a : A) : sdet (msret a) (msret a).
  Proof. intros st i L _ _. reflexivity. Qed.
  Lemma sdet_map {A B} (f : A -> B) q q' : splaced q -> sdet q q' -> sdet (msmap f q) (msmap f q').
  Proof. intros P D. apply sdet_bind; [exact P|exact D|intro; apply splaced_ret|intro; apply sdet_ret]. Qed.
  Lemma sdet_alt {A} (q1 q1' q2 q2' : msparser A) : sdet q1 q1' -> sdet q2 q2' -> sdet (msalt q1 q2) (msalt q1' q2').
  Proof.
    intros D D' st i L. specialize (D st i L). unfold msalt. destruct (q1 st i) as [[a j es st1|st1| |] m]; try exact Logic.I.
    - intros Lj W. rewrite (D Lj W). reflexivity.
    - specialize (D' st1 i L). destruct (q2 st1 i) as [[a j es st2|st2| |] m']; try exact Logic.I.
      + intros Lj W. apply (within_further I) in W. destruct W as [W W']. rewrite (D W), (D' Lj W'). reflexivity.
      + intro W. apply (within_further I) in W. destruct W as [W W']. rewrite (D W), (D' W'). reflexivity.
  Qed.

  Lemma sdet_option : sdet (q_option E I source_path) (q_option E J source_path).
  Proof.
    intros st i L. unfold q_option. pose proof (sdet_lift _ _ (fun po => det_option_tokens E I J po M au 0) st i L) as D.
    destruct (mlift (q_option_tokens I) st i) as [[[name value] j es st1|st1| |] m]; try exact Logic.I.
    - destruct (option_read E source_path (ps_options st1) name value) as [[[o po'] es']|] eqn:R; [|exact Logic.I].
      intros Lj W. rewrite (D Lj W), R. reflexivity.
    - intro W. rewrite (D W). reflexivity.
  Qed.
  Lemma sdet_pragma : sdet (q_pragma E I source_path) (q_pragma E J source_path).
  Proof.
    unfold q_pragma. apply sdet_bind.
    - cbn [mschoice]. repeat apply splaced_alt.
      + apply splaced_lift. intros po P. apply placed_pushtag with (po := po). exact P.
      + apply splaced_lift. intros po P. apply placed_poptag with (po := po). exact P.
      + apply splaced_lift. intros po P. apply placed_pushmeta. exact P.
      + apply splaced_lift. intros po P. apply placed_popmeta with (po := po). exact P.
      + apply splaced_lift. intros po P. apply placed_include.
      + apply splaced_map, splaced_option, any_closed.
      + apply splaced_lift. intros po P. apply placed_plugin.
    - cbn [mschoice]. repeat apply sdet_alt.
      + apply sdet_lift. intro po. apply (det_pushtag E I J po M au).
      + apply sdet_lift. intro po. apply (det_poptag E I J po M au).
      + apply sdet_lift. intro po. apply (det_pushmeta E I J po M au).
      + apply sdet_lift. intro po. apply (det_popmeta E I J po M au).
      + apply sdet_lift. intro po. apply (det_include E I J po M au).
      + apply sdet_map; [apply splaced_option, any_closed|apply sdet_option].
      + apply sdet_lift. intro po. apply (det_plugin E I J po M au).
    - intro a. apply splaced_bind; [apply splaced_lift; intros; apply placed_eol|intro; apply splaced_ret].
    - intro a. apply sdet_bind; [apply splaced_lift; intros; apply placed_eol|apply sdet_lift; intro; apply (det_eol I J M au)|intro; apply splaced_ret|intro; apply sdet_ret].
  Qed.
  Lemma sdet_once : sdet (q_once E I source_path) (q_once E J source_path).
  Proof.
    assert (D : sdet (mschoice [msmap D_Directive (mlift (q_directive E I)); msmap D_Pragma (q_pragma E I source_path)])
                     (mschoice [msmap D_Directive (mlift (q_directive E J)); msmap D_Pragma (q_pragma E J source_path)])).
    { cbn [mschoice]. apply sdet_alt; apply sdet_map.
      - apply splaced_lift. intros. apply placed_directive. assumption.
      - apply sdet_lift. intro po. apply (det_directive E I J po M au).
      - apply splaced_pragma, any_closed.
      - apply sdet_pragma. }
    intros st i L. specialize (D st i L). pose proof (p_once_ssteps E I source_path st i L) as St. pose proof (ssame_once E I source_path st i) as Sm.
    unfold q_once in *. unfold msspn in *.
    destruct (mschoice [msmap D_Directive (mlift (q_directive E I)); msmap D_Pragma (q_pragma E I source_path)] st i) as [[d j es st1|st1| |] m]; try exact Logic.I.
    - cbn [fst eres] in Sm. rewrite <- Sm in St. intros Lj W. rewrite (D Lj W). rewrite (span_alike I J M au i j) by (try apply St; exact Lj). reflexivity.
    - intro W. rewrite (D W). reflexivity.
  Qed.

  Lemma reaches_alike m0 st i rs p x : reaches E I source_path m0 st i rs p x -> i <= n -> ms_at x < M -> reaches E J source_path m0 st i rs p x.
  Proof.
    induction 1 as [m0 st i st1 m1 x Q Fu L|m0 st i d j es st1 m1 rs p x Q R IH]; intros Li Lx; pose proof (sdet_once st i Li) as D; rewrite Q in D.
    - assert (W : within m1). { intros y Y. pose proof (further_at_least _ _ _ Fu y (or_intror Y)). lia. }
      pose proof (reaches_bounds E I source_path _ _ _ _ _ _ (reaches_here E I source_path _ _ _ _ _ _ Q Fu L) Li) as (_ & _ & Lp & _).
      apply reaches_here with (1 := D W); [exact Fu|]. apply nth_error_Some. rewrite <- (au_tokens _ _ _ au i) by lia. apply nth_error_Some. exact L.
    - pose proof (once_placed E I source_path st i Li) as P. rewrite Q in P. destruct P as (P1 & P2 & P3).
      pose proof (reaches_bounds E I source_path _ _ _ _ _ _ R (proj2 P1)) as (H1 & H2 & H3 & H4 & H5).
      assert (W : within m1).
      { intros y Y. destruct (further m0 m1) as [z|] eqn:Fu; [|exfalso; apply (further_some m0 m1); [right; congruence|exact Fu]].
        pose proof (further_at_least _ _ _ Fu y (or_intror Y)). pose proof (H5 z eq_refl). lia. }
      apply reaches_on with (1 := D ltac:(lia) W). apply IH; [apply P1|exact Lx].
  Qed.

  (** The first syntax error of a file is the first of every file which begins
      alike, up to the token where the error is. *)
  Lemma first_alike st out es st' rs s p x out' es' st'' :
    mparse_file E I source_path st = Fine (Some (out, es, st')) -> first_error es rs s p x -> ms_at x < M ->
    mparse_file E J source_path st = Fine (Some (out', es', st'')) -> first_error es' rs s p x.
  Proof.
    intros Q (rest & -> & T) Lx Q'. destruct (file_reach _ _ _ _ _ _ _ Q) as [(rs1 & p1 & x1 & (rest1 & Eq & T1) & R)|[N _]].
    - assert (X : rs1 = rs /\ s = in_source I /\ p1 = p /\ x1 = x).
      { clear -Eq T T1. revert rs1 Eq T1. induction T as [|c rs (r & ->) T IH]; intros [|c1 rs1] Eq T1.
        - injection Eq as <- <- <- <-. auto.
        - exfalso. inversion T1 as [|? ? [r X] T1']. subst c1. discriminate Eq.
        - discriminate.
        - injection Eq as <- Eq. inversion T1; subst. destruct (IH _ Eq H2) as (-> & -> & -> & ->). auto. }
      destruct X as (-> & -> & -> & ->). pose proof (reaches_alike _ _ _ _ _ _ R (Nat.le_0_l _) Lx) as RJ.
      destruct (file_reach _ _ _ _ _ _ _ Q') as [(rs2 & p2 & x2 & Fe & R2)|[_ N]]; [|exfalso; exact (N _ _ _ RJ)].
      destruct (reaches_unique E J source_path _ _ _ _ _ _ RJ _ _ _ R2) as (-> & -> & ->). rewrite (au_source _ _ _ au). exact Fe.
    - exfalso. apply Forall_app in N. destruct N as [_ N]. inversion N as [|? ? (r & X)]. discriminate.
  Qed.
End Two.
