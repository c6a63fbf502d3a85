(** * A failing parser fails alike on every input which begins alike *)
From Coq Require Import String Ascii.
From Coq Require Import List NArith ZArith Arith Bool Lia.
From Verif Require Import Base Types Options Decimal Cost Token Peg PegFacts Grammar ExprFacts GrammarSafe Messages Miss MissGrammar MissErased SpecMiss MissPlace.
Import ListNotations.
Local Open Scope nat_scope.

(** ** How much fuel the expressions are given does not matter *)

Definition stable {A} (q q' : mparser A) : Prop := forall i, fst (q i) <> Loop -> q' i = q i.
Lemma stable_refl {A} (q : mparser A) : stable q q.
Proof. intros i _. reflexivity. Qed.
Lemma stable_bind {A B} (q q' : mparser A) (g g' : A -> mparser B) : stable q q' -> (forall a, stable (g a) (g' a)) -> stable (mbind q g) (mbind q' g').
Proof.
  intros H G i N. unfold mbind in *. specialize (H i). destruct (q i) as [[a j ws es|ws| |] m]; try (rewrite H by discriminate; reflexivity).
  - rewrite H by discriminate. specialize (G a j). destruct (g a j) as [[b k ws' es'|ws'| |] m']; try (rewrite G by discriminate; reflexivity). now destruct N.
  - now destruct N.
Qed.
Lemma stable_map {A B} (f : A -> B) q q' : stable q q' -> stable (mmap f q) (mmap f q').
Proof. intro H. apply stable_bind; [exact H|intro; apply stable_refl]. Qed.
Lemma stable_alt {A} (q1 q1' q2 q2' : mparser A) : stable q1 q1' -> stable q2 q2' -> stable (malt q1 q2) (malt q1' q2').
Proof.
  intros H G i N. unfold malt in *. specialize (H i). specialize (G i). destruct (q1 i) as [[a j ws es|ws| |] m]; try (rewrite H by discriminate; reflexivity).
  - rewrite H by discriminate. destruct (q2 i) as [[b k ws' es'|ws'| |] m']; try (rewrite G by discriminate; reflexivity). now destruct N.
  - now destruct N.
Qed.
Lemma stable_many_n {A} f (q q' : mparser A) : stable q q' -> stable (mmany_n f q) (mmany_n f q').
Proof.
  intro H. induction f as [|f IH]; intros i N; [reflexivity|]. cbn [mmany_n] in *. specialize (H i).
  destruct (q i) as [[a j ws es|ws| |] m]; try (rewrite H by discriminate; reflexivity).
  - rewrite H by discriminate. specialize (IH j). destruct (mmany_n f q j) as [[b k ws' es'|ws'| |] m']; try (rewrite IH by discriminate; reflexivity). now destruct N.
  - now destruct N.
Qed.
Lemma stable_foldl {A B} toks (q1 q1' : mparser A) (q2 q2' : mparser B) f : stable q1 q1' -> stable q2 q2' -> stable (mfoldl toks q1 q2 f) (mfoldl toks q1' q2' f).
Proof.
  intros H G. apply stable_bind; [exact H|]. intro a. apply stable_bind; [|intro; apply stable_refl]. intros i. apply (stable_many_n _ q2 q2' G).
Qed.
Lemma stable_factor I q q' : stable q q' -> stable (q_factor I q) (q_factor I q').
Proof.
  intro H. unfold q_factor, q_primary. apply stable_bind; [apply stable_refl|]. intro o. apply stable_bind; [|intro; apply stable_refl].
  apply stable_alt; [apply stable_refl|]. apply stable_map. apply stable_bind; [apply stable_refl|]. intro t. apply stable_bind; [exact H|intro; apply stable_refl].
Qed.
Lemma stable_product I q q' : stable q q' -> stable (q_product I q) (q_product I q').
Proof.
  intro H. pose proof (stable_factor I q q' H) as F. apply stable_foldl; [exact F|]. unfold q_product_rest. apply stable_bind; [apply stable_refl|].
  intro o. apply stable_bind; [exact F|intro; apply stable_refl].
Qed.
Lemma stable_sum I q q' : stable q q' -> stable (q_sum I q) (q_sum I q').
Proof.
  intro H. pose proof (stable_product I q q' H) as F. apply stable_foldl; [exact F|]. unfold q_sum_rest. apply stable_bind; [apply stable_refl|].
  intro o. apply stable_bind; [exact F|intro; apply stable_refl].
Qed.
Lemma stable_expr_n I f : forall g, f <= g -> stable (mexpr_n I f) (mexpr_n I g).
Proof.
  induction f as [|f IH]; intros g L; [intros i N; now destruct N|]. destruct g as [|g]; [lia|]. cbn [mexpr_n]. apply stable_sum. apply IH. lia.
Qed.

Section Prefix.
  Context (E : grammar_env) (I J : input) (po : parser_options) (M : nat) (au : alike_up_to M I J).
  Let n := List.length (in_tokens I).
  Notation placed := (MissPlace.placed E I (fun _ => True)).
  Notation fits := (MissPlace.fits E I (fun _ => True)).

  Definition within (m : misses) : Prop := forall x, m = Some x -> ms_at x < M.
  Definition det {A} (b : nat) (q q' : mparser A) : Prop := forall i, b <= i <= n ->
    match q i with
    | (Got _ j _ _, m) => j <= M -> within m -> q' i = q i
    | (Not _, m) => within m -> q' i = q i
    | _ => True
    end.
  Definition adv {A} (q : mparser A) : Prop := forall i, i <= n -> match q i with (Got _ j _ _, _) => i < j | _ => True end.

  Lemma within_further a b : within (further a b) <-> within a /\ within b.
  Proof.
    destruct a as [a|], b as [b|]; cbn [further].
    - destruct (Nat.compare (ms_at a) (ms_at b)) eqn:Q.
      + apply Nat.compare_eq in Q. split.
        * intro H. specialize (H _ eq_refl). cbn in H. split; intros x X; injection X as <-; lia.
        * intros [H _] x X. injection X as <-. cbn. apply H. reflexivity.
      + apply Nat.compare_lt_iff in Q. split; [|tauto]. intro H. split; [|exact H]. specialize (H _ eq_refl). intros x X. injection X as <-. lia.
      + apply Nat.compare_gt_iff in Q. split; [|tauto]. intro H. split; [exact H|]. specialize (H _ eq_refl). intros x X. injection X as <-. lia.
    - split; [|tauto]. intro H. split; [exact H|discriminate].
    - split; [|tauto]. intro H. split; [discriminate|exact H].
    - split; [|tauto]. intro H. split; discriminate.
  Qed.

  Lemma ends_alike k : k <= n -> k <= M -> k <= List.length (in_tokens J).
  Proof.
    intros L H. destruct k as [|k]; [lia|]. apply nth_error_Some. rewrite <- (au_tokens _ _ _ au) by lia. apply nth_error_Some. exact L.
  Qed.

  Lemma adv_same {A} (p : parser A) (q : mparser A) : same p q -> steps (in_tokens I) 0 p -> adv q.
  Proof.
    intros H S' i L. specialize (H i). specialize (S' i (Nat.le_0_l i) L). destruct (q i) as [[a j ws es|ws| |] m]; try exact Logic.I.
    cbn in H. rewrite <- H in S'. apply S'.
  Qed.
  Lemma adv_sel {A} (f : token -> option A) : adv (msel I f).
  Proof. intros i L. unfold msel, mselect. destruct (nth_error (in_tokens I) i) as [[t r]|]; [|exact Logic.I]. destruct (f t); [lia|exact Logic.I]. Qed.
  Lemma adv_just t : adv (mjust I t).
  Proof. apply adv_sel. Qed.
  Lemma adv_keyword k : adv (mkeyword I k).
  Proof. apply adv_sel. Qed.
  Lemma adv_spn {A} (q : mparser A) : adv q -> adv (mspn I q).
  Proof. intros H i L. specialize (H i L). unfold mspn, msp, mmap_span. destruct (q i) as [[a j ws es|ws| |] m]; exact H. Qed.
  Lemma adv_map_out {A B} (f : A -> outcome B) q : adv q -> adv (mmap_out f q).
  Proof. intros H i L. specialize (H i L). unfold mmap_out. destruct (q i) as [[a j ws es|ws| |] m]; try exact H. destruct (f a); [exact H|exact Logic.I]. Qed.
  Lemma adv_alt {A} (q q' : mparser A) : adv q -> adv q' -> adv (malt q q').
  Proof.
    intros H H' i L. specialize (H i L). specialize (H' i L). unfold malt. destruct (q i) as [[a j ws es|ws| |] m]; try exact H.
    destruct (q' i) as [[a j ws' es|ws'| |] m']; exact H'.
  Qed.
  Lemma adv_bind_l {A B} (q : mparser A) (g : A -> mparser B) : placed q -> adv q -> (forall a, placed (g a)) -> adv (mbind q g).
  Proof.
    intros P H G i L. specialize (P i L). specialize (H i L). unfold mbind. destruct (q i) as [[a j ws es|ws| |] m]; try exact Logic.I.
    specialize (G a j (proj2 (proj1 P))). destruct (g a j) as [[b k ws' es'|ws'| |] m']; try exact Logic.I. lia.
  Qed.
  Lemma adv_map {A B} (f : A -> B) q : adv q -> adv (mmap f q).
  Proof. intros H i L. specialize (H i L). unfold mmap, mbind. destruct (q i) as [[a j ws es|ws| |] m]; exact H. Qed.

  Lemma det_ret {A} b (a : A) : det b (mret a) (mret a).
  Proof. intros i L _ _. reflexivity. Qed.
  Lemma det_bind_gen {A B} b c (q q' : mparser A) (g g' : A -> mparser B) :
    placed q -> (c = b \/ (adv q /\ c = 1)) -> det b q q' ->
    (forall a, placed (g a)) -> (forall a, det c (g a) (g' a)) -> det b (mbind q g) (mbind q' g').
  Proof.
    intros P C D G D' i L. specialize (P i (proj2 L)). specialize (D i L). unfold mbind.
    assert (A' : c = b \/ (match q i with (Got _ j _ _, _) => i < j | _ => True end /\ c = 1)).
    { destruct C as [C|[C1 C2]]; [left; exact C|right; split; [apply C1; apply L|exact C2]]. }
    destruct (q i) as [[a j ws es|ws| |] m]; try exact Logic.I.
    - destruct P as [Lj Fm]. specialize (G a j (proj2 Lj)).
      assert (Lc : c <= j <= n) by (destruct A' as [->|[A1 ->]]; lia). specialize (D' a j Lc). clear A'.
      destruct (g a j) as [[b' k ws' es'|ws'| |] m']; try exact Logic.I.
      + intros Lk W. apply within_further in W. destruct W as [W W']. rewrite (D ltac:(lia) W), (D' Lk W'). reflexivity.
      + intro W. apply within_further in W. destruct W as [W W']. destruct G as [G1 G2].
        destruct m' as [x|]; [|congruence]. destruct (G2 x eq_refl) as [[Lx _] _]. pose proof (W' x eq_refl) as Wx.
        rewrite (D ltac:(lia) W), (D' W'). reflexivity.
    - intro W. rewrite (D W). reflexivity.
  Qed.
  Lemma det_bind {A B} b (q q' : mparser A) (g g' : A -> mparser B) :
    placed q -> det b q q' -> (forall a, placed (g a)) -> (forall a, det b (g a) (g' a)) -> det b (mbind q g) (mbind q' g').
  Proof. intros. eapply det_bind_gen; eauto. Qed.
  Lemma det_after {A B} b (q q' : mparser A) (g g' : A -> mparser B) :
    placed q -> adv q -> det b q q' -> (forall a, placed (g a)) -> (forall a, det 1 (g a) (g' a)) -> det b (mbind q g) (mbind q' g').
  Proof. intros. apply det_bind_gen with (c := 1); eauto. Qed.
  Lemma det_map {A B} b (f : A -> B) q q' : det b q q' -> det b (mmap f q) (mmap f q').
  Proof.
    intros D i L. specialize (D i L). unfold mmap, mbind. destruct (q i) as [[a j ws es|ws| |] m]; try exact Logic.I; cbn [mret].
    - intros Lj W. rewrite D; [reflexivity|exact Lj|]. apply within_further in W. apply W.
    - intro W. rewrite (D W). reflexivity.
  Qed.
  Lemma det_map_out {A B} b (f : A -> outcome B) q q' : det b q q' -> det b (mmap_out f q) (mmap_out f q').
  Proof.
    intros D i L. specialize (D i L). unfold mmap_out. destruct (q i) as [[a j ws es|ws| |] m]; try exact Logic.I.
    - destruct (f a) eqn:Fa; [|exact Logic.I]. intros Lj W. rewrite (D Lj W). rewrite Fa. reflexivity.
    - intro W. rewrite (D W). reflexivity.
  Qed.
  Lemma det_validate {A B} b (f : A -> B * list report) q q' : det b q q' -> det b (mvalidate f q) (mvalidate f q').
  Proof.
    intros D i L. specialize (D i L). unfold mvalidate. destruct (q i) as [[a j ws es|ws| |] m]; try exact Logic.I.
    - destruct (f a) eqn:Fa. intros Lj W. rewrite (D Lj W). rewrite Fa. reflexivity.
    - intro W. rewrite (D W). reflexivity.
  Qed.
  Lemma det_alt {A} b (q1 q1' q2 q2' : mparser A) : det b q1 q1' -> det b q2 q2' -> det b (malt q1 q2) (malt q1' q2').
  Proof.
    intros D D' i L. specialize (D i L). specialize (D' i L). unfold malt. destruct (q1 i) as [[a j ws es|ws| |] m]; try exact Logic.I.
    - intros Lj W. rewrite (D Lj W). reflexivity.
    - destruct (q2 i) as [[a j ws' es|ws'| |] m']; try exact Logic.I.
      + intros Lj W. apply within_further in W. destruct W as [W W']. rewrite (D W), (D' Lj W'). reflexivity.
      + intro W. apply within_further in W. destruct W as [W W']. rewrite (D W), (D' W'). reflexivity.
  Qed.
  Lemma det_choice_one {A} b (q q' : mparser A) : det b q q' -> det b (mchoice [q]) (mchoice [q']).
  Proof. exact (fun H => H). Qed.
  Lemma det_choice_cons {A} b (q1 q1' q2 q2' : mparser A) qs qs' :
    det b q1 q1' -> det b (mchoice (q2 :: qs)) (mchoice (q2' :: qs')) -> det b (mchoice (q1 :: q2 :: qs)) (mchoice (q1' :: q2' :: qs')).
  Proof. apply det_alt. Qed.
  Lemma det_opt {A} b (q q' : mparser A) : det b q q' -> det b (mopt q) (mopt q').
  Proof.
    intros D i L. specialize (D i L). unfold mopt. destruct (q i) as [[a j ws es|ws| |] m]; try exact Logic.I.
    - intros Lj W. rewrite (D Lj W). reflexivity.
    - intros _ W. rewrite (D W). reflexivity.
  Qed.
  Lemma det_many_n {A} b f (q q' : mparser A) : placed q -> det b q q' -> det b (mmany_n f q) (mmany_n f q').
  Proof.
    intros P D. induction f as [|f IH]; intros i L; [exact Logic.I|]. cbn [mmany_n]. specialize (P i (proj2 L)) as Pi. specialize (D i L).
    destruct (q i) as [[a j ws es|ws| |] m]; try exact Logic.I.
    - destruct Pi as [Lj Fm]. specialize (IH j ltac:(lia)). pose proof (placed_many_n E I (fun _ => True) f q P j (proj2 Lj)) as G.
      destruct (mmany_n f q j) as [[b' k ws' es'|ws'| |] m']; try exact Logic.I.
      + intros Lk W. apply within_further in W. destruct W as [W W']. rewrite (D ltac:(lia) W), (IH Lk W'). reflexivity.
      + intro W. apply within_further in W. destruct W as [W W']. destruct G as [G1 G2].
        destruct m' as [x|]; [|congruence]. destruct (G2 x eq_refl) as [[Lx _] _]. pose proof (W' x eq_refl) as Wx.
        rewrite (D ltac:(lia) W), (IH W'). reflexivity.
    - intros _ W. rewrite (D W). reflexivity.
  Qed.
  (** More repetitions than suffice make no difference. *)
  Lemma many_more {A} (q : mparser A) f : forall g i, f <= g -> fst (mmany_n f q i) <> Loop -> mmany_n g q i = mmany_n f q i.
  Proof.
    induction f as [|f IH]; intros g i L N; [now destruct N|]. destruct g as [|g]; [lia|]. cbn [mmany_n] in *.
    destruct (q i) as [[a j ws es|ws| |] m]; try reflexivity.
    assert (N' : fst (mmany_n f q j) <> Loop) by (destruct (mmany_n f q j) as [[| | |] m']; cbn in *; congruence).
    rewrite (IH g j) by (try lia; exact N'). reflexivity.
  Qed.
  Lemma many_enough {A} (q : mparser A) : placed q -> adv q -> forall f i l k ws es m, i <= n ->
    mmany_n f q i = (Got l k ws es, m) -> mmany_n (S (k - i)) q i = (Got l k ws es, m).
  Proof.
    intros P H. induction f as [|f IH]; intros i l k ws es m L Q; [discriminate|]. cbn [mmany_n] in Q |- *.
    pose proof (P i L) as Pi. specialize (H i L). destruct (q i) as [[a j w e|w| |] m1]; try discriminate.
    - destruct Pi as [Lj _]. pose proof (placed_many_n E I (fun _ => True) f q P j (proj2 Lj)) as G.
      destruct (mmany_n f q j) as [[l' k' w' e'|w'| |] m2] eqn:R; try discriminate. injection Q as <- <- <- <- <-.
      apply IH in R; [|apply Lj]. rewrite (many_more q (S (k' - j)) (k' - i) j); [rewrite R; reflexivity| |rewrite R; discriminate].
      destruct G as [G _]. lia.
    - exact Q.
  Qed.
  Lemma many_n_never {A} (q : mparser A) f : forall i ws m, mmany_n f q i <> (Not ws, m).
  Proof.
    induction f as [|f IH]; intros i ws m; cbn [mmany_n]; [discriminate|]. destruct (q i) as [[a j w e|w| |] m1]; try discriminate.
    destruct (mmany_n f q j) as [[a' j' w' e'|w'| |] m'] eqn:R; try discriminate. exfalso. exact (IH _ _ _ R).
  Qed.
  Lemma det_rep {A} b (q q' : mparser A) :
    placed q -> adv q -> det b q q' -> det b (mrep I q) (mrep J q').
  Proof.
    intros P H D i L. unfold mrep, mmany.
    pose proof (placed_many_n E I (fun _ => True) (S (List.length (in_tokens I) - i)) q P i (proj2 L)) as G.
    destruct (mmany_n (S (List.length (in_tokens I) - i)) q i) as [[l k ws es|ws| |] m] eqn:Q; try exact Logic.I.
    - intros Lk W. destruct G as [Lk' _]. pose proof (ends_alike k (proj2 Lk') Lk) as Jk.
      apply (many_enough q P H) in Q; [|apply L].
      pose proof (det_many_n b (S (k - i)) q q' P D i L) as X. rewrite Q in X. specialize (X Lk W).
      rewrite <- X. apply many_more; [lia|]. rewrite X. discriminate.
    - exfalso. exact (many_n_never _ _ _ _ _ Q).
  Qed.
  Lemma det_foldl {A B} b (q1 q1' : mparser A) (q2 q2' : mparser B) f :
    placed q1 -> placed q2 -> adv q2 -> det b q1 q1' -> det b q2 q2' ->
    det b (mfoldl (in_tokens I) q1 q2 f) (mfoldl (in_tokens J) q1' q2' f).
  Proof.
    intros P1 P2 H D1 D2. apply det_bind; [exact P1|exact D1| |].
    - intro a. apply placed_bind; [exact (placed_rep _ _ _ q2 P2)|intro; apply placed_ret].
    - intro a. apply det_bind; [exact (placed_rep _ _ _ q2 P2)|exact (det_rep b q2 q2' P2 H D2)|intro; apply placed_ret|intro; apply det_ret].
  Qed.
  Lemma adv_bind_r {A B} (q : mparser A) (g : A -> mparser B) : placed q -> (forall a, adv (g a)) -> adv (mbind q g).
  Proof.
    intros P H i L. specialize (P i L). unfold mbind. destruct (q i) as [[a j ws es|ws| |] m]; try exact Logic.I.
    specialize (H a j (proj2 (proj1 P))). destruct (g a j) as [[b k ws' es'|ws'| |] m']; try exact Logic.I. lia.
  Qed.

  Lemma missed_alike i : i <= n -> i < M ->
    missed (in_source J) (in_tokens J) (in_len J) i = missed (in_source I) (in_tokens I) (in_len I) i.
  Proof.
    intros Ln L. unfold missed. rewrite <- (au_source _ _ _ au), <- (au_tokens _ _ _ au i L). do 2 f_equal. unfold span_at. f_equal.
    - unfold start_of. rewrite <- (au_tokens _ _ _ au i L). destruct (nth_error (in_tokens I) i) eqn:N; [reflexivity|].
      symmetry. apply (au_end _ _ _ au). apply nth_error_None in N. lia.
    - destruct (nth_error (in_tokens I) i) as [[t [x y]]|] eqn:N.
      + unfold end_before. rewrite <- (au_tokens _ _ _ au i L). rewrite N. reflexivity.
      + apply nth_error_None in N. unfold end_before. destruct i as [|i].
        * symmetry. apply (au_end _ _ _ au). lia.
        * rewrite <- (au_tokens _ _ _ au i) by lia. destruct (nth_error (in_tokens I) i) eqn:N'; [reflexivity|].
          apply nth_error_None in N'. subst n. lia.
  Qed.
  Lemma det_sel {A} b (f : token -> option A) : det b (msel I f) (msel J f).
  Proof.
    intros i L. unfold msel, mselect. destruct (nth_error (in_tokens I) i) as [[t r]|] eqn:N.
    - destruct (f t) eqn:Ft.
      + intros Lj _. rewrite <- (au_tokens _ _ _ au i) by lia. rewrite N, Ft. reflexivity.
      + intro W. assert (Li : i < M) by (apply (W _ eq_refl)). rewrite <- (au_tokens _ _ _ au i) by lia. rewrite N, Ft, missed_alike by (try apply L; exact Li). reflexivity.
    - intro W. assert (Li : i < M) by (apply (W _ eq_refl)). rewrite <- (au_tokens _ _ _ au i) by lia. rewrite N, missed_alike by (try apply L; exact Li). reflexivity.
  Qed.
  Lemma det_just b t : det b (mjust I t) (mjust J t).
  Proof. apply det_sel. Qed.
  Lemma det_keyword b k : det b (mkeyword I k) (mkeyword J k).
  Proof. apply det_sel. Qed.
  Lemma det_eol b : det b (meol I) (meol J).
  Proof.
    intros i L. unfold meol, mchoice, malt. pose proof (det_map b (fun _ => tt) _ _ (det_just b T_Eol) i L) as H.
    assert (T : match mmap (fun _ => tt) (mjust I T_Eol) i with (Not _, m) => m = missed (in_source I) (in_tokens I) (in_len I) i | _ => True end).
    { unfold mmap, mbind, mjust, msel, mselect. destruct (nth_error (in_tokens I) i) as [[t r]|]; [|reflexivity]. destruct (token_eq_dec t T_Eol); [exact Logic.I|reflexivity]. }
    destruct (mmap (fun _ => tt) (mjust I T_Eol) i) as [[a j ws es|ws| |] m]; try exact Logic.I.
    - intros Lj W. rewrite (H Lj W). reflexivity.
    - subst m. unfold mat_end. destruct (nth_error (in_tokens I) i) eqn:N.
      + intro W. apply within_further in W. destruct W as [W _]. assert (Li : i < M) by (apply (W _ eq_refl)).
        rewrite (H W), <- (au_tokens _ _ _ au i Li), N, missed_alike by (try apply L; exact Li). reflexivity.
      + intros _ W. apply within_further in W. destruct W as [W _]. assert (Li : i < M) by (apply (W _ eq_refl)).
        rewrite (H W), <- (au_tokens _ _ _ au i Li), N. reflexivity.
  Qed.

  Lemma span_alike i j : i < j -> j <= n -> j <= M ->
    span_at (in_source J) (in_tokens J) (in_len J) i j = span_at (in_source I) (in_tokens I) (in_len I) i j.
  Proof.
    intros L Ln LM. unfold span_at, start_of, end_before. rewrite <- (au_source _ _ _ au). destruct j as [|j]; [lia|].
    rewrite <- !(au_tokens _ _ _ au) by lia. f_equal.
    - destruct (nth_error (in_tokens I) i) as [[t [x y]]|] eqn:N; [reflexivity|]. apply nth_error_None in N. subst n. lia.
    - destruct (nth_error (in_tokens I) j) as [[t [x y]]|] eqn:N; [reflexivity|]. apply nth_error_None in N. subst n. lia.
  Qed.
  Lemma empty_alike i : 0 < i -> i <= n -> i < M ->
    span_at (in_source J) (in_tokens J) (in_len J) i i = span_at (in_source I) (in_tokens I) (in_len I) i i.
  Proof.
    intros L Ln LM. unfold span_at, start_of, end_before. rewrite <- (au_source _ _ _ au). destruct i as [|i]; [lia|].
    rewrite <- !(au_tokens _ _ _ au) by lia. f_equal.
    - destruct (nth_error (in_tokens I) (S i)) as [[t [x y]]|] eqn:N; [reflexivity|]. symmetry. apply (au_end _ _ _ au). apply nth_error_None in N. subst n. lia.
    - destruct (nth_error (in_tokens I) i) as [[t [x y]]|] eqn:N; [reflexivity|]. apply nth_error_None in N. subst n. lia.
  Qed.

  (** Parsers which have looked at the token where they started. *)
  Definition touch {A} (q : mparser A) : Prop := forall i, i <= n ->
    match q i with (Got _ j _ _, m) => i < j \/ exists x, m = Some x /\ i <= ms_at x | _ => True end.
  Lemma touch_opt {A} (q : mparser A) : placed q -> adv q -> touch (mopt q).
  Proof.
    intros P H i L. specialize (P i L). specialize (H i L). unfold mopt. destruct (q i) as [[a j ws es|ws| |] m]; try exact Logic.I; [left; exact H|].
    right. destruct P as [P1 P2]. destruct m as [x|]; [|congruence]. exists x. split; [reflexivity|]. apply (P2 x eq_refl).
  Qed.
  Lemma touch_many_n {A} f (q : mparser A) : placed q -> forall i, i <= n ->
    match mmany_n f q i with (Got _ j _ _, m) => exists x, m = Some x /\ j <= ms_at x | _ => True end.
  Proof.
    intro P. induction f as [|f IH]; intros i L; [exact Logic.I|]. cbn [mmany_n]. specialize (P i L). destruct (q i) as [[a j ws es|ws| |] m]; try exact Logic.I.
    - specialize (IH j (proj2 (proj1 P))). destruct (mmany_n f q j) as [[b k ws' es'|ws'| |] m']; try exact Logic.I.
      destruct IH as (x & -> & Lx). destruct m as [y|]; cbn [further]; [|exists x; auto].
      destruct (Nat.compare (ms_at y) (ms_at x)) eqn:Q; [| exists x; auto|].
      + apply Nat.compare_eq in Q. eexists. split; [reflexivity|]. cbn. lia.
      + apply Nat.compare_gt_iff in Q. exists y. split; [reflexivity|lia].
    - destruct P as [P1 P2]. destruct m as [x|]; [|congruence]. exists x. split; [reflexivity|]. apply (P2 x eq_refl).
  Qed.
  Lemma touch_rep {A} (q : mparser A) : placed q -> touch (mrep I q).
  Proof.
    intros P i L. pose proof (touch_many_n (S (List.length (in_tokens I) - i)) q P i L) as T.
    pose proof (placed_rep E I (fun _ => True) q P i L) as G. unfold mrep, mmany in *.
    destruct (mmany_n (S (List.length (in_tokens I) - i)) q i) as [[l k ws es|ws| |] m]; try exact Logic.I.
    right. destruct T as (x & -> & Lx). exists x. split; [reflexivity|]. lia.
  Qed.
  Lemma touch_validate {A B} (f : A -> B * list report) q : touch q -> touch (mvalidate f q).
  Proof.
    intros T i L. specialize (T i L). unfold mvalidate. destruct (q i) as [[a j ws es|ws| |] m]; try exact T. destruct (f a). exact T.
  Qed.

  Lemma det_map_span {A B} b (f : A -> span -> B) q q' : placed q -> adv q -> det b q q' ->
    det b (mmap_span (in_source I) (in_tokens I) (in_len I) f q) (mmap_span (in_source J) (in_tokens J) (in_len J) f q').
  Proof.
    intros P H D i L. specialize (P i (proj2 L)). specialize (H i (proj2 L)). specialize (D i L). unfold mmap_span.
    destruct (q i) as [[a j ws es|ws| |] m]; try exact Logic.I.
    - intros Lj W. rewrite (D Lj W). rewrite span_alike by (try exact H; try apply P; exact Lj). reflexivity.
    - intro W. rewrite (D W). reflexivity.
  Qed.
  Lemma det_spn {A} b (q q' : mparser A) : placed q -> adv q -> det b q q' -> det b (mspn I q) (mspn J q').
  Proof. apply det_map_span. Qed.
  Lemma det_spn_touch {A} b (q q' : mparser A) : placed q -> touch q -> 1 <= b -> det b q q' -> det b (mspn I q) (mspn J q').
  Proof.
    intros P H Lb D i L. specialize (P i (proj2 L)). specialize (H i (proj2 L)). specialize (D i L). unfold mspn, msp, mmap_span.
    destruct (q i) as [[a j ws es|ws| |] m]; try exact Logic.I.
    - intros Lj W. rewrite (D Lj W). destruct (Nat.eq_dec i j) as [<-|Ne].
      + destruct H as [H|(x & -> & Lx)]; [lia|]. specialize (W x eq_refl). rewrite empty_alike by lia. reflexivity.
      + rewrite span_alike by lia. reflexivity.
    - intro W. rewrite (D W). reflexivity.
  Qed.

  Lemma det_try_gen {A B X} b (show : X -> str) (f : A -> outcome (result B X)) q q' :
    placed q -> adv q ->
    (forall i, i <= n -> match q i with (Got _ j _ _, m) => j <= S i \/ exists x, m = Some x /\ j <= S (ms_at x) | _ => True end) ->
    det b q q' -> det b (mtry I show f q) (mtry J show f q').
  Proof.
    intros P H T D i L. specialize (P i (proj2 L)). specialize (H i (proj2 L)). specialize (T i (proj2 L)). specialize (D i L). unfold mtry, mtry_map.
    destruct (q i) as [[a j ws es|ws| |] m]; try exact Logic.I.
    - destruct (f a) as [[x|x]|] eqn:Fa; [|  |exact Logic.I].
      + intros Lj W. rewrite (D Lj W), Fa. reflexivity.
      + intro W. apply within_further in W. destruct W as [W W']. specialize (W' _ eq_refl). cbn in W'.
        assert (Lj : j <= M). { destruct T as [T|(y & -> & T)]; [lia|]. specialize (W y eq_refl). lia. }
        rewrite (D Lj W), Fa. rewrite span_alike by (try exact H; try apply P; exact Lj). reflexivity.
    - intro W. rewrite (D W). reflexivity.
  Qed.
  Lemma det_try {A B X} b (show : X -> str) (f : A -> outcome (result B X)) q q' g :
    takes I q g -> det b q q' -> det b (mtry I show f q) (mtry J show f q').
  Proof.
    intros T D. assert (P : placed q).
    { intros i L. specialize (T i L). destruct (q i) as [[a j ws es|ws| |] m]; try exact Logic.I.
      - destruct T as (-> & -> & t & r & N & _). assert (i < n) by (apply nth_error_Some; congruence). split; [fold n; lia|apply fits_none].
      - subst m. split; [discriminate|apply fits_missed; exact L]. }
    apply det_try_gen; [exact P| | |exact D].
    - intros i L. specialize (T i L). destruct (q i) as [[a j ws es|ws| |] m]; try exact Logic.I. destruct T as [-> _]. lia.
    - intros i L. specialize (T i L). destruct (q i) as [[a j ws es|ws| |] m]; try exact Logic.I. destruct T as [-> _]. left. lia.
  Qed.

  (** ** The grammar *)
  Let pl_po : (fun _ : parser_options => True) po := Logic.I.
  Create HintDb pfx.
  Hint Resolve placed_eol placed_date placed_decimal placed_string placed_bool placed_flag placed_txn placed_booking placed_expr placed_expr_value : pfx.
  Lemma pl_account : placed (q_account E I po). Proof. apply placed_account. exact Logic.I. Qed.
  Lemma pl_tag : placed (q_tag E I). Proof. apply placed_tag with (po := po). exact Logic.I. Qed.
  Lemma pl_link : placed (q_link E I). Proof. apply placed_link with (po := po). exact Logic.I. Qed.
  Lemma pl_key : placed (q_key E I). Proof. apply placed_key with (po := po). exact Logic.I. Qed.
  Lemma pl_currency : placed (q_currency I). Proof. apply placed_currency with (po := po). exact Logic.I. Qed.
  Lemma pl_booking : placed (q_booking I po). Proof. apply placed_booking. exact Logic.I. Qed.
  Lemma pl_amount : placed (q_amount E I). Proof. apply placed_amount with (po := po). exact Logic.I. Qed.
  Lemma pl_amount_tol : placed (q_amount_with_tolerance E I). Proof. apply placed_amount_tol with (po := po). exact Logic.I. Qed.
  Lemma pl_compound_expr : placed (q_compound_expr E I). Proof. apply placed_compound_expr. Qed.
  Lemma pl_compound_amount : placed (q_compound_amount E I). Proof. apply placed_compound_amount with (po := po). exact Logic.I. Qed.
  Lemma pl_price_annotation : placed (q_price_annotation E I). Proof. apply placed_price_annotation with (po := po). exact Logic.I. Qed.
  Lemma pl_cost_comp : placed (q_cost_comp E I po). Proof. apply placed_cost_comp. exact Logic.I. Qed.
  Lemma pl_cost_spec : placed (q_cost_spec E I po). Proof. apply placed_cost_spec. exact Logic.I. Qed.
  Lemma pl_simple_value : placed (q_simple_value E I po). Proof. apply placed_simple_value. exact Logic.I. Qed.
  Lemma pl_meta_value : placed (q_meta_value E I po). Proof. apply placed_meta_value. exact Logic.I. Qed.
  Lemma pl_meta_key_value : placed (q_meta_key_value E I po). Proof. apply placed_meta_key_value. exact Logic.I. Qed.
  Lemma pl_metadatum_line : placed (q_metadatum_line E I po). Proof. apply placed_metadatum_line. exact Logic.I. Qed.
  Lemma pl_metadata : placed (q_metadata E I po). Proof. apply placed_metadata. exact Logic.I. Qed.
  Lemma pl_tags_links : placed (q_tags_links E I). Proof. apply placed_tags_links with (po := po). exact Logic.I. Qed.
  Lemma pl_posting : placed (q_posting E I po). Proof. apply placed_posting. exact Logic.I. Qed.
  Lemma pl_transaction_header : placed (q_transaction_header E I po). Proof. apply placed_transaction_header. exact Logic.I. Qed.
  Lemma pl_currency_list : placed (q_currency_list I). Proof. apply placed_currency_list with (po := po). exact Logic.I. Qed.
  Hint Resolve pl_account pl_tag pl_link pl_key pl_currency pl_booking pl_amount pl_amount_tol pl_compound_expr pl_compound_amount pl_price_annotation
    pl_cost_comp pl_cost_spec pl_simple_value pl_meta_value pl_meta_key_value pl_metadatum_line pl_metadata pl_tags_links pl_posting pl_transaction_header pl_currency_list : pfx.

  Ltac plc :=
    repeat first
      [ solve [eauto 2 with pfx] | apply placed_ret | apply placed_just | apply placed_keyword | apply placed_sel
      | apply placed_bind; [|intro] | apply placed_map | apply placed_map_out | apply placed_validate | apply placed_opt
      | apply placed_rep | apply placed_spn | apply placed_map_span | apply placed_alt
      | apply placed_choice_one | apply placed_choice_cons | apply placed_foldl ].

  Lemma adv_account : adv (q_account E I po). Proof. eapply adv_same; [apply same_account|apply p_account_steps]. Qed.
  Lemma adv_tag : adv (q_tag E I). Proof. eapply adv_same; [apply same_tag|apply p_tag_steps]. Qed.
  Lemma adv_link : adv (q_link E I). Proof. eapply adv_same; [apply same_link|apply p_link_steps]. Qed.
  Lemma adv_key : adv (q_key E I). Proof. eapply adv_same; [apply same_key|apply p_key_steps]. Qed.
  Lemma adv_currency : adv (q_currency I). Proof. eapply adv_same; [apply same_currency|apply p_currency_steps]. Qed.
  Lemma adv_date : adv (q_date I). Proof. apply adv_sel. Qed.
  Lemma adv_decimal : adv (q_decimal I). Proof. apply adv_sel. Qed.
  Lemma adv_string : adv (q_string I po). Proof. eapply adv_same; [apply same_string|apply p_string_steps]. Qed.
  Lemma adv_flag : adv (q_flag I). Proof. eapply adv_same; [apply same_flag|apply p_flag_steps]. Qed.
  Lemma adv_txn : adv (q_txn I). Proof. eapply adv_same; [apply same_txn|apply p_txn_steps]. Qed.
  Lemma adv_booking : adv (q_booking I po). Proof. eapply adv_same; [apply same_booking|apply p_booking_steps]. Qed.
  Lemma adv_expr_value : adv (q_expr_value E I). Proof. eapply adv_same; [apply same_expr_value|apply p_expr_value_steps]. Qed.
  Lemma adv_amount : adv (q_amount E I). Proof. eapply adv_same; [apply same_amount|apply p_amount_steps]. Qed.
  Lemma adv_amount_tol : adv (q_amount_with_tolerance E I). Proof. eapply adv_same; [apply same_amount_tol|apply p_amount_with_tolerance_steps]. Qed.
  Lemma adv_compound_amount : adv (q_compound_amount E I). Proof. eapply adv_same; [apply same_compound_amount|apply p_compound_amount_steps]. Qed.
  Lemma adv_price_annotation : adv (q_price_annotation E I). Proof. eapply adv_same; [apply same_price_annotation|apply p_price_annotation_steps]. Qed.
  Lemma adv_cost_comp : adv (q_cost_comp E I po). Proof. eapply adv_same; [apply same_cost_comp|apply p_cost_comp_steps]. Qed.
  Lemma adv_cost_spec : adv (q_cost_spec E I po). Proof. eapply adv_same; [apply same_cost_spec|apply p_cost_spec_steps]. Qed.
  Lemma adv_meta_value : adv (q_meta_value E I po). Proof. eapply adv_same; [apply same_meta_value|apply p_meta_value_steps]. Qed.
  Lemma adv_meta_key_value : adv (q_meta_key_value E I po). Proof. eapply adv_same; [apply same_meta_key_value|apply p_meta_key_value_steps]. Qed.
  Lemma adv_metadatum_line : adv (q_metadatum_line E I po). Proof. eapply adv_same; [apply same_metadatum_line|apply p_metadatum_line_steps]. Qed.
  Lemma adv_posting : adv (q_posting E I po). Proof. eapply adv_same; [apply same_posting|apply p_posting_steps]. Qed.
  Lemma adv_transaction_header : adv (q_transaction_header E I po). Proof. eapply adv_same; [apply same_transaction_header|apply p_transaction_header_steps]. Qed.
  Hint Resolve adv_account adv_tag adv_link adv_key adv_currency adv_date adv_decimal adv_string adv_flag adv_txn adv_booking adv_expr_value adv_amount adv_amount_tol
    adv_compound_amount adv_price_annotation adv_cost_comp adv_cost_spec adv_meta_value adv_meta_key_value adv_metadatum_line adv_posting adv_transaction_header : pfx.

  Ltac adv :=
    repeat first
      [ solve [eauto 2 with pfx] | apply adv_just | apply adv_keyword | apply adv_sel | apply adv_spn | apply adv_map | apply adv_map_out | apply adv_alt
      | lazymatch goal with |- adv (mchoice (_ :: _ :: _)) => apply adv_alt | |- adv (mchoice [?q]) => change (adv q) end
      | apply adv_bind_l; [solve [plc]|solve [adv]|intro; solve [plc]]
      | apply adv_bind_r; [solve [plc]|intro] ].

  Ltac touches := repeat first [apply touch_validate|apply touch_rep; solve [plc]|apply touch_opt; [solve [plc]|solve [adv]]].
  Ltac det_ :=
    try solve [eauto 2 with pfx];
    lazymatch goal with
    | |- det _ (mret _) _ => apply det_ret
    | |- det _ (mjust _ _) _ => apply det_just
    | |- det _ (mkeyword _ _) _ => apply det_keyword
    | |- det _ (msel _ _) _ => apply det_sel
    | |- det _ (mmap _ _) _ => apply det_map; det_
    | |- det _ (mmap_out _ _) _ => apply det_map_out; det_
    | |- det _ (mvalidate _ _) _ => apply det_validate; det_
    | |- det _ (mopt _) _ => apply det_opt; det_
    | |- det _ (malt _ _) _ => apply det_alt; det_
    | |- det _ (mchoice (_ :: _ :: _)) _ => apply det_choice_cons; det_
    | |- det _ (mchoice [_]) _ => apply det_choice_one; det_
    | |- det _ (mbind _ _) _ =>
        first [apply det_after; [solve [plc]|solve [adv]|det_|intro; solve [plc]|intro; det_]
              |apply det_bind; [solve [plc]|det_|intro; solve [plc]|intro; det_]]
    | |- det _ (mrep _ _) _ => apply det_rep; [solve [plc]|solve [adv]|det_]
    | |- det _ (mspn _ _) _ =>
        first [apply det_spn; [solve [plc]|solve [adv]|det_]|apply det_spn_touch; [solve [plc]|solve [touches]|lia|det_]]
    | |- det _ (mmap_span _ _ _ _ _) _ => apply det_map_span; [solve [plc]|solve [adv]|det_]
    | |- det _ (mfoldl _ _ _ _) _ => apply det_foldl; [solve [plc]|solve [plc]|solve [adv]|det_|det_]
    | |- _ => idtac
    end.

  Hint Resolve det_eol : pfx.
  Lemma det_account b : det b (q_account E I po) (q_account E J po).
  Proof. eapply det_try; [apply takes_sel|apply det_sel]. Qed.
  Lemma det_tag b : det b (q_tag E I) (q_tag E J).
  Proof. eapply det_try; [apply takes_sel|apply det_sel]. Qed.
  Lemma det_link b : det b (q_link E I) (q_link E J).
  Proof. eapply det_try; [apply takes_sel|apply det_sel]. Qed.
  Lemma det_key b : det b (q_key E I) (q_key E J).
  Proof. eapply det_try; [apply takes_sel|apply det_sel]. Qed.
  Lemma det_currency b : det b (q_currency I) (q_currency J).
  Proof. eapply det_try; [apply takes_sel|apply det_sel]. Qed.
  Lemma det_date b : det b (q_date I) (q_date J).
  Proof. apply det_sel. Qed.
  Lemma det_decimal b : det b (q_decimal I) (q_decimal J).
  Proof. apply det_sel. Qed.
  Lemma det_string b : det b (q_string I po) (q_string J po).
  Proof.
    intros i L. unfold q_string.
    pose proof (det_spn b _ _ (placed_sel E I (fun _ => True) (fun t => match t with T_String s => Some s | _ => None end)) (adv_sel _) (det_sel b _) i L) as H.
    destruct (mspn I (msel I (fun t => match t with T_String s => Some s | _ => None end)) i) as [[s j ws es|ws| |] m]; try exact Logic.I.
    - intros Lj W. rewrite (H Lj W). reflexivity.
    - intro W. rewrite (H W). reflexivity.
  Qed.
  Lemma det_booking b : det b (q_booking I po) (q_booking J po).
  Proof. eapply det_try; [apply takes_string|apply det_string]. Qed.
  Hint Resolve det_account det_tag det_link det_key det_currency det_date det_decimal det_string det_booking : pfx.
  Lemma det_bool b : det b (q_bool I) (q_bool J).
  Proof. unfold q_bool. det_. Qed.
  Lemma det_flag b : det b (q_flag I) (q_flag J).
  Proof. unfold q_flag. det_. Qed.
  Hint Resolve det_bool det_flag : pfx.
  Lemma det_txn b : det b (q_txn I) (q_txn J).
  Proof. unfold q_txn. det_. Qed.
  Hint Resolve det_txn : pfx.

  (** *** Expressions *)
  Lemma adv_factor q : placed q -> adv (q_factor I q).
  Proof. intro P. unfold q_factor, q_primary. adv. Qed.
  Lemma adv_product q : placed q -> adv (q_product I q).
  Proof.
    intro P. pose proof (placed_factor E I (fun _ => True) q P) as F. unfold q_product, mfoldl. apply adv_bind_l; [exact F|apply adv_factor; exact P|]. intro a.
    apply placed_bind; [|intro; apply placed_ret]. refine (placed_rep E I _ _ _). unfold q_product_rest. plc.
  Qed.
  Lemma det_factor b q q' : placed q -> det b q q' -> det 1 q q' -> det b (q_factor I q) (q_factor J q').
  Proof. intros P D D1. unfold q_factor, q_primary. det_. Qed.
  Lemma det_product b q q' : placed q -> det b q q' -> det 1 q q' -> det b (q_product I q) (q_product J q').
  Proof.
    intros P D D1. pose proof (placed_factor E I (fun _ => True) q P) as F. pose proof (det_factor b q q' P D D1) as DF. pose proof (det_factor 1 q q' P D1 D1) as DF1.
    unfold q_product, q_product_rest. det_.
  Qed.
  Lemma det_sum b q q' : placed q -> det b q q' -> det 1 q q' -> det b (q_sum I q) (q_sum J q').
  Proof.
    intros P D D1. pose proof (placed_product E I (fun _ => True) q P) as F. pose proof (det_product b q q' P D D1) as DF. pose proof (det_product 1 q q' P D1 D1) as DF1.
    unfold q_sum, q_sum_rest. det_.
  Qed.
  Lemma det_expr_n f : forall b, det b (mexpr_n I f) (mexpr_n J f).
  Proof.
    induction f as [|f IH]; intro b; [intros i L; exact Logic.I|]. apply det_sum; [apply placed_expr_n|apply IH|apply IH].
  Qed.
  Lemma det_expr b : det b (q_expr I) (q_expr J).
  Proof.
    intros i L. unfold q_expr. pose proof (det_expr_n (S (List.length (in_tokens I) - i)) b i L) as D.
    pose proof (placed_expr_n E I (fun _ => True) (S (List.length (in_tokens I) - i)) i (proj2 L)) as P.
    assert (G : i <= List.length (in_tokens J) -> fst (mexpr_n J (S (List.length (in_tokens I) - i)) i) <> Loop ->
      mexpr_n J (S (List.length (in_tokens J) - i)) i = mexpr_n J (S (List.length (in_tokens I) - i)) i).
    { intros Lj N. destruct (Nat.le_ge_cases (List.length (in_tokens I)) (List.length (in_tokens J))) as [C|C].
      - apply stable_expr_n; [lia|exact N].
      - symmetry. apply stable_expr_n; [lia|]. rewrite (same_expr_n J _ i).
        pose proof (expr_n_steps J (S (List.length (in_tokens J) - i)) i ltac:(lia) i (le_n _) Lj) as St. intro X. rewrite X in St. exact St. }
    destruct (mexpr_n I (S (List.length (in_tokens I) - i)) i) as [[a j ws es|ws| |] m]; try exact Logic.I.
    - intros Lj W. specialize (D Lj W). rewrite G, D; [reflexivity| |rewrite D; discriminate]. apply ends_alike; [apply L|lia].
    - intro W. specialize (D W). rewrite G, D; [reflexivity| |rewrite D; discriminate].
      destruct P as [P1 P2]. destruct m as [x|]; [|congruence]. destruct (P2 x eq_refl) as [[Lx _] _]. specialize (W x eq_refl). apply ends_alike; [apply L|lia].
  Qed.
  Hint Resolve det_expr : pfx.
  Lemma det_expr_value b : det b (q_expr_value E I) (q_expr_value E J).
  Proof. unfold q_expr_value. det_. Qed.
  Hint Resolve det_expr_value : pfx.
  Lemma det_amount b : det b (q_amount E I) (q_amount E J).
  Proof. unfold q_amount. det_. Qed.
  Hint Resolve det_amount : pfx.
  Lemma det_amount_tol b : det b (q_amount_with_tolerance E I) (q_amount_with_tolerance E J).
  Proof. unfold q_amount_with_tolerance. det_. Qed.
  Lemma det_compound_expr b : det b (q_compound_expr E I) (q_compound_expr E J).
  Proof. unfold q_compound_expr. det_. Qed.
  Hint Resolve det_amount_tol det_compound_expr : pfx.
  Lemma det_compound_amount b : det b (q_compound_amount E I) (q_compound_amount E J).
  Proof. unfold q_compound_amount. det_. Qed.
  Lemma det_price_annotation b : det b (q_price_annotation E I) (q_price_annotation E J).
  Proof. unfold q_price_annotation. det_. Qed.
  Hint Resolve det_compound_amount det_price_annotation : pfx.
  Lemma det_cost_comp b : det b (q_cost_comp E I po) (q_cost_comp E J po).
  Proof. unfold q_cost_comp. det_. Qed.
  Hint Resolve det_cost_comp : pfx.

  (** Parsers which have looked at the token where they stop. *)
  Definition looked {A} (q : mparser A) : Prop := forall i, i <= n ->
    match q i with (Got _ j _ _, m) => exists x, m = Some x /\ j <= ms_at x | _ => True end.
  Lemma further_beyond a b x : b = Some x -> exists y, further a b = Some y /\ ms_at x <= ms_at y.
  Proof.
    intros ->. destruct a as [a|]; cbn [further]; [|exists x; auto]. destruct (Nat.compare (ms_at a) (ms_at x)) eqn:Q.
    - apply Nat.compare_eq in Q. eexists. split; [reflexivity|]. cbn. lia.
    - exists x. auto.
    - apply Nat.compare_gt_iff in Q. exists a. split; [reflexivity|lia].
  Qed.
  Lemma looked_rep {A} (q : mparser A) : placed q -> looked (mrep I q).
  Proof. intros P i L. apply (touch_many_n _ q P i L). Qed.
  Lemma looked_ret {A B} (q : mparser A) (f : A -> B) : looked q -> looked (mbind q (fun a => mret (f a))).
  Proof.
    intros H i L. specialize (H i L). unfold mbind. destruct (q i) as [[a j ws es|ws| |] m]; try exact Logic.I. cbn [mret].
    destruct H as (x & -> & Lx). exists x. split; [reflexivity|exact Lx].
  Qed.
  Lemma looked_bind {A B} (q : mparser A) (g : A -> mparser B) : placed q -> (forall a, looked (g a)) -> looked (mbind q g).
  Proof.
    intros P H i L. specialize (P i L). unfold mbind. destruct (q i) as [[a j ws es|ws| |] m]; try exact Logic.I.
    specialize (H a j (proj2 (proj1 P))). destruct (g a j) as [[b k ws' es'|ws'| |] m']; try exact Logic.I.
    destruct H as (x & -> & Lx). destruct (further_beyond m (Some x) x eq_refl) as (y & -> & Ly). exists y. split; [reflexivity|lia].
  Qed.
  Lemma looked_opt {A} (q : mparser A) : placed q -> looked q -> looked (mopt q).
  Proof.
    intros P H i L. specialize (P i L). specialize (H i L). unfold mopt. destruct (q i) as [[a j ws es|ws| |] m]; try exact Logic.I; [exact H|].
    destruct P as [P1 P2]. destruct m as [x|]; [|congruence]. exists x. split; [reflexivity|]. apply (P2 x eq_refl).
  Qed.
  Lemma looked_then {A} (q : mparser A) t : placed q -> looked q -> forall i, i <= n ->
    match mbind q (fun a => mbind (mjust I t) (fun _ => mret a)) i with (Got _ j _ _, m) => exists x, m = Some x /\ j <= S (ms_at x) | _ => True end.
  Proof.
    intros P H i L. specialize (P i L). specialize (H i L). unfold mbind. destruct (q i) as [[a j ws es|ws| |] m]; try exact Logic.I.
    unfold mjust, msel, mselect. destruct (nth_error (in_tokens I) j) as [[t' r]|]; [|exact Logic.I]. destruct (token_eq_dec t' t); [|exact Logic.I]. cbn [mret further].
    destruct H as (x & -> & Lx). exists x. split; [reflexivity|lia].
  Qed.
  Lemma then_looked {A B} (q : mparser A) (g : mparser B) : placed q ->
    (forall i, i <= n -> match g i with (Got _ j _ _, m) => exists x, m = Some x /\ j <= S (ms_at x) | _ => True end) ->
    forall i, i <= n -> match mbind q (fun _ => g) i with (Got _ j _ _, m) => j <= S i \/ exists x, m = Some x /\ j <= S (ms_at x) | _ => True end.
  Proof.
    intros P H i L. specialize (P i L). unfold mbind. destruct (q i) as [[a j ws es|ws| |] m]; try exact Logic.I.
    specialize (H j (proj2 (proj1 P))). destruct (g j) as [[b k ws' es'|ws'| |] m']; try exact Logic.I.
    destruct H as (x & -> & Lx). right. destruct (further_beyond m (Some x) x eq_refl) as (y & -> & Ly). exists y. split; [reflexivity|lia].
  Qed.
  Lemma det_cost_spec b : det b (q_cost_spec E I po) (q_cost_spec E J po).
  Proof.
    unfold q_cost_spec. apply det_try_gen; [plc|adv| |det_]. apply then_looked; [plc|]. apply looked_then; [plc|].
    apply looked_opt; [plc|]. apply looked_bind; [plc|]. intro h. apply (looked_ret _ (fun tail => (h, tail))). apply looked_rep. plc.
  Qed.
  Hint Resolve det_cost_spec : pfx.
  Lemma det_simple_value b : det b (q_simple_value E I po) (q_simple_value E J po).
  Proof. unfold q_simple_value. det_. Qed.
  Hint Resolve det_simple_value : pfx.
  Lemma det_meta_value b : det b (q_meta_value E I po) (q_meta_value E J po).
  Proof. unfold q_meta_value. det_. Qed.
  Hint Resolve det_meta_value : pfx.
  Lemma det_meta_key_value b : det b (q_meta_key_value E I po) (q_meta_key_value E J po).
  Proof. unfold q_meta_key_value. det_. Qed.
  Hint Resolve det_meta_key_value : pfx.
  Lemma det_metadatum_line b : det b (q_metadatum_line E I po) (q_metadatum_line E J po).
  Proof. unfold q_metadatum_line. det_. Qed.
  Hint Resolve det_metadatum_line : pfx.
  Lemma det_metadata b : det b (q_metadata E I po) (q_metadata E J po).
  Proof. unfold q_metadata. det_. Qed.
  Lemma det_tags_links b : det b (q_tags_links E I) (q_tags_links E J).
  Proof. unfold q_tags_links. det_. Qed.
  Lemma det_currency_list b : det b (q_currency_list I) (q_currency_list J).
  Proof. unfold q_currency_list. det_. Qed.
  Hint Resolve det_metadata det_tags_links det_currency_list : pfx.
  Lemma touch_metadata : touch (q_metadata E I po).
  Proof. unfold q_metadata. touches. Qed.
  Lemma det_spn_metadata : det 1 (mspn I (q_metadata E I po)) (mspn J (q_metadata E J po)).
  Proof. apply det_spn_touch; [plc|apply touch_metadata|lia|apply det_metadata]. Qed.
  Hint Resolve det_spn_metadata : pfx.
  Lemma det_posting b : det b (q_posting E I po) (q_posting E J po).
  Proof. unfold q_posting. det_. Qed.
  Lemma det_transaction_header b : det b (q_transaction_header E I po) (q_transaction_header E J po).
  Proof. unfold q_transaction_header. det_. Qed.
  Hint Resolve det_posting det_transaction_header : pfx.
  Lemma det_transaction b : det b (q_transaction E I po) (q_transaction E J po).
  Proof. unfold q_transaction. det_. Qed.
  Lemma det_line b k f f' : placed f -> det 1 f f' -> det b (q_line E I po k f) (q_line E J po k f').
  Proof. intros P D. unfold q_line. det_. Qed.
  Hint Resolve det_transaction : pfx.
  Lemma det_custom b : det b (q_custom E I po) (q_custom E J po).
  Proof. unfold q_custom. det_. Qed.
  Lemma det_directive b : det b (q_directive E I po) (q_directive E J po).
  Proof.
    unfold q_directive. apply det_choice_cons; [apply det_transaction|]. apply det_choice_one.
    repeat (apply det_choice_cons; [first [apply det_custom|apply det_line; [plc|det_]]|]). apply det_choice_one. apply det_custom.
  Qed.
  Lemma det_pushtag b : det b (q_pushtag E I) (q_pushtag E J).
  Proof. unfold q_pushtag. det_. Qed.
  Lemma det_poptag b : det b (q_poptag E I) (q_poptag E J).
  Proof. unfold q_poptag. det_. Qed.
  Lemma det_pushmeta b : det b (q_pushmeta E I po) (q_pushmeta E J po).
  Proof. unfold q_pushmeta. det_. Qed.
  Lemma det_popmeta b : det b (q_popmeta E I) (q_popmeta E J).
  Proof. unfold q_popmeta. det_. Qed.
  Lemma det_include b : det b (q_include I po) (q_include J po).
  Proof. unfold q_include. det_. Qed.
  Lemma det_plugin b : det b (q_plugin I po) (q_plugin J po).
  Proof. unfold q_plugin. det_. Qed.
  Lemma det_option_tokens b : det b (q_option_tokens I po) (q_option_tokens J po).
  Proof. unfold q_option_tokens. det_. Qed.
End Prefix.
