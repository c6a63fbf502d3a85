(** * Two inputs which are read in step: the combinators *)
From Coq Require Import List NArith Arith Bool Lia Permutation.
From Verif Require Import Base Types Token Peg.
Import ListNotations.
Local Open Scope nat_scope.

(** Reports which say the same, in the same order; or in any. *)
Definition same_said (ws ws' : list report) : Prop := map rp_problem ws = map rp_problem ws'.
Definition same_saids (es es' : list report) : Prop := Permutation (map rp_problem es) (map rp_problem es').
Lemma same_said_app a b a' b' : same_said a a' -> same_said b b' -> same_said (a ++ b) (a' ++ b').
Proof. unfold same_said. intros. rewrite !map_app. congruence. Qed.
Lemma same_saids_app a b a' b' : same_saids a a' -> same_saids b b' -> same_saids (a ++ b) (a' ++ b').
Proof. unfold same_saids. intros. rewrite !map_app. apply Permutation_app; assumption. Qed.
Lemma same_saids_refl a : same_saids a a.
Proof. apply Permutation_refl. Qed.

(** Alike values, at places which correspond.  Both run out of steps at their
    own time. *)
Definition rsim {A B} (S : nat -> nat -> Prop) (Q : A -> B -> Prop) (r : res A) (r' : res B) : Prop :=
  match r, r' with
  | Loop, _ | _, Loop => True
  | Crash, Crash => True
  | Got a j ws es, Got b j' ws' es' => Q a b /\ S j j' /\ same_said ws ws' /\ same_saids es es'
  | Not ws, Not ws' => same_said ws ws'
  | _, _ => False
  end.
Definition sim {A B} (S0 S1 : nat -> nat -> Prop) (Q : A -> B -> Prop) (p : parser A) (p' : parser B) : Prop :=
  forall i i', S0 i i' -> rsim S1 Q (p i) (p' i').

Ltac sim_done :=
  repeat match goal with
    | H : _ /\ _ |- _ => destruct H
    end; subst; auto; repeat split; auto using same_said_app, same_saids_app, same_saids_refl.

Section Combinators.

  Lemma sim_weaken {A B} (S0 S0' S1 S1' : nat -> nat -> Prop) (Q Q' : A -> B -> Prop) p p' :
    sim S0 S1 Q p p' -> (forall i j, S0' i j -> S0 i j) -> (forall i j, S1 i j -> S1' i j) -> (forall a b, Q a b -> Q' a b) -> sim S0' S1' Q' p p'.
  Proof.
    intros H A0 A1 A2 i i' Si. specialize (H i i' (A0 _ _ Si)). destruct (p i), (p' i'); cbn in *; auto. sim_done.
  Qed.
  Lemma sim_value {A B} (S0 S1 : nat -> nat -> Prop) (Q Q' : A -> B -> Prop) p p' : sim S0 S1 Q p p' -> (forall a b, Q a b -> Q' a b) -> sim S0 S1 Q' p p'.
  Proof. intros. eapply sim_weaken; eauto. Qed.
  Lemma sim_ret {A B} (S0 : nat -> nat -> Prop) (Q : A -> B -> Prop) a b : Q a b -> sim S0 S0 Q (ret a) (ret b).
  Proof. intros H i i' Si. cbn. sim_done. Qed.
  Lemma sim_bind {A A' B B'} (S0 S1 S2 : nat -> nat -> Prop) (Q : A -> A' -> Prop) (T : B -> B' -> Prop) p p' f f' :
    sim S0 S1 Q p p' -> (forall a a', Q a a' -> sim S1 S2 T (f a) (f' a')) -> sim S0 S2 T (bind p f) (bind p' f').
  Proof.
    intros H F i i' Si. specialize (H i i' Si). unfold bind. destruct (p i) as [a j ws es|ws| |], (p' i') as [a' j' ws' es'|ws'| |]; cbn in H; try contradiction; cbn; auto.
    - destruct H as (Qa & Sj & W & Es). specialize (F a a' Qa j j' Sj). destruct (f a j), (f' a' j'); cbn in F |- *; auto; sim_done.
    - destruct (f a j); exact Logic.I.
  Qed.
  Lemma sim_map {A A' B B'} (S0 S1 : nat -> nat -> Prop) (Q : A -> A' -> Prop) (T : B -> B' -> Prop) f f' p p' :
    sim S0 S1 Q p p' -> (forall a a', Q a a' -> T (f a) (f' a')) -> sim S0 S1 T (pmap f p) (pmap f' p').
  Proof. intros H F. eapply sim_bind; [exact H|]. intros a a' Qa. apply sim_ret. auto. Qed.
  Lemma sim_map_out {A A' B B'} (S0 S1 : nat -> nat -> Prop) (Q : A -> A' -> Prop) (T : B -> B' -> Prop) (f : A -> outcome B) (f' : A' -> outcome B') p p' :
    sim S0 S1 Q p p' -> (forall a a', Q a a' -> match f a, f' a' with Fine b, Fine b' => T b b' | Panic, Panic => True | _, _ => False end) ->
    sim S0 S1 T (pmap_out f p) (pmap_out f' p').
  Proof.
    intros H F i i' Si. specialize (H i i' Si). unfold pmap_out. destruct (p i) as [a j ws es|ws| |], (p' i') as [a' j' ws' es'|ws'| |]; cbn in H; try contradiction; cbn; auto.
    - destruct H as (Qa & Sj & W & Es). specialize (F a a' Qa). destruct (f a), (f' a'); cbn in *; auto; sim_done.
    - destruct (f a); exact Logic.I.
  Qed.
  Lemma sim_try_map {A A' B B' X X'} (S0 S1 : nat -> nat -> Prop) (Q : A -> A' -> Prop) (T : B -> B' -> Prop) (f : A -> outcome (result B X)) (f' : A' -> outcome (result B' X')) p p' :
    sim S0 S1 Q p p' ->
    (forall a a', Q a a' -> match f a, f' a' with Fine (Ok b), Fine (Ok b') => T b b' | Fine (Err _), Fine (Err _) => True | Panic, Panic => True | _, _ => False end) ->
    sim S0 S1 T (try_map f p) (try_map f' p').
  Proof.
    intros H F i i' Si. specialize (H i i' Si). unfold try_map. destruct (p i) as [a j ws es|ws| |], (p' i') as [a' j' ws' es'|ws'| |]; cbn in H; try contradiction; cbn; auto.
    - destruct H as (Qa & Sj & W & Es). specialize (F a a' Qa). destruct (f a) as [[]|], (f' a') as [[]|]; cbn in *; try contradiction; auto; sim_done.
    - destruct (f a) as [[]|]; exact Logic.I.
  Qed.
  Lemma sim_validate {A A' B B'} (S0 S1 : nat -> nat -> Prop) (Q : A -> A' -> Prop) (T : B -> B' -> Prop) (f : A -> B * list report) (f' : A' -> B' * list report) p p' :
    sim S0 S1 Q p p' -> (forall a a', Q a a' -> T (fst (f a)) (fst (f' a')) /\ same_saids (snd (f a)) (snd (f' a'))) ->
    sim S0 S1 T (validate f p) (validate f' p').
  Proof.
    intros H F i i' Si. specialize (H i i' Si). unfold validate. destruct (p i) as [a j ws es|ws| |], (p' i') as [a' j' ws' es'|ws'| |]; cbn in H; try contradiction; cbn; auto.
    - destruct H as (Qa & Sj & W & Es). specialize (F a a' Qa). destruct (f a), (f' a'); cbn in *; sim_done.
    - destruct (f a); exact Logic.I.
  Qed.
  Lemma sim_alt {A A'} (S0 S1 : nat -> nat -> Prop) (Q : A -> A' -> Prop) p p' q q' : sim S0 S1 Q p p' -> sim S0 S1 Q q q' -> sim S0 S1 Q (alt p q) (alt p' q').
  Proof.
    intros H F i i' Si. specialize (H i i' Si). specialize (F i i' Si). unfold alt.
    destruct (p i) as [a j ws es|ws| |], (p' i') as [a' j' ws' es'|ws'| |]; cbn in H; try contradiction; cbn; auto.
    - destruct (q i), (q' i'); cbn in *; auto; sim_done.
    - destruct (q i); exact Logic.I.
  Qed.
  Lemma sim_choice {A A'} (S0 S1 : nat -> nat -> Prop) (Q : A -> A' -> Prop) ps ps' : Forall2 (sim S0 S1 Q) ps ps' -> sim S0 S1 Q (choice ps) (choice ps').
  Proof.
    induction 1 as [|p p' ps ps' H F IH]; [intros i i' _; reflexivity|].
    destruct F as [|q q' ps ps' H' F]; [exact H|]. change (sim S0 S1 Q (alt p (choice (q :: ps))) (alt p' (choice (q' :: ps')))). apply sim_alt; assumption.
  Qed.
  Lemma sim_opt {A A'} (S0 S1 : nat -> nat -> Prop) (Q : A -> A' -> Prop) p p' : (forall i j, S0 i j -> S1 i j) -> sim S0 S1 Q p p' ->
    sim S0 S1 (fun x y => match x, y with Some a, Some b => Q a b | None, None => True | _, _ => False end) (opt p) (opt p').
  Proof.
    intros Sub H i i' Si. specialize (H i i' Si). unfold opt. destruct (p i), (p' i'); cbn in *; try contradiction; auto; sim_done.
  Qed.
  Lemma sim_many_n {A A'} (S0 : nat -> nat -> Prop) (Q : A -> A' -> Prop) p p' : sim S0 S0 Q p p' -> forall n n', sim S0 S0 (Forall2 Q) (many_n n p) (many_n n' p').
  Proof.
    intro H. induction n as [|n IH]; intros n' i i' Si; [exact Logic.I|].
    destruct n' as [|n']; [cbn; destruct (p i); [destruct (many_n n p j)| | |]; exact Logic.I|].
    cbn [many_n]. pose proof (H i i' Si) as Hi. destruct (p i) as [a j ws es|ws| |], (p' i') as [a' j' ws' es'|ws'| |]; cbn in Hi; try contradiction; cbn; auto.
    - destruct Hi as (Qa & Sj & W & Es). specialize (IH n' j j' Sj). destruct (many_n n p j), (many_n n' p' j'); cbn in IH |- *; auto; sim_done.
    - destruct (many_n n p j); exact Logic.I.
    - sim_done.
  Qed.
End Combinators.

Section Spans.
  Context (s s' : nat) (toks toks' : list rtoken) (len len' : nat).

  Lemma sim_many {A A'} (S0 : nat -> nat -> Prop) (Q : A -> A' -> Prop) p p' : sim S0 S0 Q p p' -> sim S0 S0 (Forall2 Q) (many toks p) (many toks' p').
  Proof. intros H i i' Si. apply sim_many_n; assumption. Qed.
  Lemma sim_foldl {A A' B B'} (S0 : nat -> nat -> Prop) (Q : A -> A' -> Prop) (T : B -> B' -> Prop) p p' q q' f f' :
    sim S0 S0 Q p p' -> sim S0 S0 T q q' -> (forall a a' b b', Q a a' -> T b b' -> Q (f a b) (f' a' b')) ->
    sim S0 S0 Q (foldl toks p q f) (foldl toks' p' q' f').
  Proof.
    intros H F G. eapply sim_bind; [exact H|]. intros a a' Qa. eapply sim_bind; [apply sim_many; exact F|]. intros l l' L. apply sim_ret.
    revert a a' Qa. induction L; intros; cbn; auto.
  Qed.
  Lemma sim_map_span {A A' B B'} (S0 S1 : nat -> nat -> Prop) (Q : A -> A' -> Prop) (T : B -> B' -> Prop) f f' p p' :
    sim S0 S1 Q p p' -> (forall a a' x x', Q a a' -> T (f a x) (f' a' x')) -> sim S0 S1 T (map_span s toks len f p) (map_span s' toks' len' f' p').
  Proof.
    intros H F i i' Si. specialize (H i i' Si). unfold map_span. destruct (p i), (p' i'); cbn in *; auto; sim_done.
  Qed.
  Lemma sim_sp {A A'} (S0 S1 : nat -> nat -> Prop) (Q : A -> A' -> Prop) p p' : sim S0 S1 Q p p' -> sim S0 S1 (fun x y => Q (item x) (item y)) (sp s toks len p) (sp s' toks' len' p').
  Proof. intro H. eapply sim_map_span; [exact H|]. auto. Qed.
End Spans.
