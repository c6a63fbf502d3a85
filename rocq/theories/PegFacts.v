(** * Facts about the combinators *)
From Coq Require Import List NArith Arith Bool Lia.
From Verif Require Import Base Types Token Peg SpecGrammar.
Import ListNotations.
Local Open Scope nat_scope.

(** ** Inversion *)

Lemma bind_got {A B} (p : parser A) (f : A -> parser B) i b k ws es :
  bind p f i = Got b k ws es ->
  exists a j ws1 es1 ws2 es2, p i = Got a j ws1 es1 /\ f a j = Got b k ws2 es2 /\ ws = ws1 ++ ws2 /\ es = es1 ++ es2.
Proof.
  unfold bind. destruct (p i) as [a j w e|w| |] eqn:P; try discriminate.
  destruct (f a j) as [b' k' w' e'|w'| |] eqn:F; try discriminate.
  intro H. injection H as <- <- <- <-. exists a, j, w, e, w', e'. auto.
Qed.

Lemma pmap_got {A B} (f : A -> B) (p : parser A) i b k ws es :
  pmap f p i = Got b k ws es -> exists a, p i = Got a k ws es /\ b = f a.
Proof.
  intro H. apply bind_got in H. destruct H as (a & j & ws1 & es1 & ws2 & es2 & P & R & -> & ->).
  unfold ret in R. injection R as <- <- <- <-. rewrite !app_nil_r. exists a. auto.
Qed.

Lemma pmap_out_got {A B} (f : A -> outcome B) (p : parser A) i b k ws es :
  pmap_out f p i = Got b k ws es -> exists a, p i = Got a k ws es /\ f a = Fine b.
Proof.
  unfold pmap_out. destruct (p i) as [a j w e|w| |] eqn:P; try discriminate.
  destruct (f a) eqn:F; [|discriminate]. intro H. injection H as <- <- <- <-. exists a. auto.
Qed.

Lemma try_map_got {A B E} (f : A -> outcome (result B E)) (p : parser A) i b k ws es :
  try_map f p i = Got b k ws es -> exists a, p i = Got a k ws es /\ f a = Fine (Ok b).
Proof.
  unfold try_map. destruct (p i) as [a j w e|w| |] eqn:P; try discriminate.
  destruct (f a) as [[x|x]|] eqn:F; try discriminate. intro H. injection H as <- <- <- <-. exists a. auto.
Qed.

Lemma validate_got {A B} (f : A -> B * list report) (p : parser A) i b k ws es :
  validate f p i = Got b k ws es -> exists a es1 es2, p i = Got a k ws es1 /\ f a = (b, es2) /\ es = es1 ++ es2.
Proof.
  unfold validate. destruct (p i) as [a j w e|w| |] eqn:P; try discriminate.
  destruct (f a) as [x e'] eqn:F. intro H. injection H as <- <- <- <-. exists a, e, e'. auto.
Qed.

Lemma alt_got {A} (p q : parser A) i a j ws es :
  alt p q i = Got a j ws es ->
  p i = Got a j ws es \/
  exists ws1 ws2, p i = Not ws1 /\ q i = Got a j ws2 es /\ ws = ws1 ++ ws2.
Proof.
  unfold alt. destruct (p i) as [x jx w e|w| |] eqn:P; try discriminate.
  - intro H. left. exact H.
  - destruct (q i) as [x jx w' e|w'| |] eqn:Q; try discriminate. intro H. injection H as <- <- <- <-.
    right. exists w, w'. auto.
Qed.

Lemma choice_got {A} (ps : list (parser A)) i a j ws es :
  choice ps i = Got a j ws es -> exists p ws', In p ps /\ p i = Got a j ws' es.
Proof.
  revert ws. induction ps as [|p ps IH]; intros ws H; [discriminate|].
  destruct ps as [|q ps].
  - exists p, ws. split; [left; reflexivity|exact H].
  - change (choice (p :: q :: ps)) with (alt p (choice (q :: ps))) in H. apply alt_got in H.
    destruct H as [H|(w1 & w2 & P & Q & ->)].
    + exists p, ws. split; [left; reflexivity|exact H].
    + destruct (IH w2 Q) as (r & w & Hr & E). exists r, w. split; [right; exact Hr|exact E].
Qed.

Lemma opt_got {A} (p : parser A) i o j ws es :
  opt p i = Got o j ws es ->
  (exists a, p i = Got a j ws es /\ o = Some a) \/ (p i = Not ws /\ o = None /\ j = i /\ es = []).
Proof.
  unfold opt. destruct (p i) as [x jx w e|w| |] eqn:P; try discriminate;
    intro H; injection H as <- <- <- <-; [left|right]; eauto.
Qed.

Lemma many_n_got {A} (p : parser A) n i l k ws es :
  many_n n p i = Got l k ws es ->
  star (fun i j a es => exists ws, p i = Got a j ws es) i k l es /\ exists ws, p k = Not ws.
Proof.
  revert i l ws es. induction n as [|n IH]; intros i l ws es H; [discriminate|]. cbn [many_n] in H.
  destruct (p i) as [a j w e|w| |] eqn:P; try discriminate.
  - destruct (many_n n p j) as [l' k' w' e'|w'| |] eqn:M; try discriminate.
    injection H as <- <- <- <-. destruct (IH _ _ _ _ M) as [S1 S2]. split; [|exact S2].
    apply star_cons with (j := j); [exists w; exact P|exact S1].
  - injection H as <- <- <- <-. split; [constructor|]. exists w. exact P.
Qed.

Lemma star_impl {A} (R Q : nat -> nat -> A -> list report -> Prop) :
  (forall i j a es, R i j a es -> Q i j a es) -> forall i j l es, star R i j l es -> star Q i j l es.
Proof.
  intros H i j l es S1. induction S1; [constructor|]. econstructor; eauto.
Qed.

Section Facts.
  Context (source : nat) (toks : list rtoken) (len : nat).
  Let n := List.length toks.

  (** ** No endless loops, and progress *)

  (** From position [lo] on. *)
  Definition safe {A} (lo : nat) (p : parser A) : Prop :=
    forall i, lo <= i -> i <= n -> match p i with Got _ j _ _ => i <= j <= n | Loop => False | _ => True end.
  Definition steps {A} (lo : nat) (p : parser A) : Prop :=
    forall i, lo <= i -> i <= n -> match p i with Got _ j _ _ => i < j <= n | Loop => False | _ => True end.

  Section Bound.
  Context (lo : nat).
  Lemma steps_safe {A} (p : parser A) : steps lo p -> safe lo p.
  Proof. intros H i Lo Hi. specialize (H i Lo Hi). destruct (p i); auto; lia. Qed.

  Lemma safe_ret {A} (a : A) : safe lo (ret a).
  Proof. intros i Lo Hi. unfold ret. lia. Qed.

  Lemma safe_bind {A B} (p : parser A) (f : A -> parser B) : safe lo p -> (forall a, safe lo (f a)) -> safe lo (bind p f).
  Proof.
    intros P F i Lo Hi. unfold bind. specialize (P i Lo Hi). destruct (p i) as [a j w e|w| |]; auto.
    assert (J : j <= n) by lia. assert (L : lo <= j) by lia. specialize (F a j L J). destruct (f a j); auto; lia.
  Qed.
  Lemma steps_bind_l {A B} (p : parser A) (f : A -> parser B) : steps lo p -> (forall a, safe lo (f a)) -> steps lo (bind p f).
  Proof.
    intros P F i Lo Hi. unfold bind. specialize (P i Lo Hi). destruct (p i) as [a j w e|w| |]; auto.
    assert (J : j <= n) by lia. assert (L : lo <= j) by lia. specialize (F a j L J). destruct (f a j); auto; lia.
  Qed.
  Lemma steps_bind_r {A B} (p : parser A) (f : A -> parser B) : safe lo p -> (forall a, steps lo (f a)) -> steps lo (bind p f).
  Proof.
    intros P F i Lo Hi. unfold bind. specialize (P i Lo Hi). destruct (p i) as [a j w e|w| |]; auto.
    assert (J : j <= n) by lia. assert (L : lo <= j) by lia. specialize (F a j L J). destruct (f a j); auto; lia.
  Qed.

  Lemma safe_pmap {A B} (f : A -> B) p : safe lo p -> safe lo (pmap f p).
  Proof. intro H. apply safe_bind; [exact H|]. intro a. apply safe_ret. Qed.
  Lemma steps_pmap {A B} (f : A -> B) p : steps lo p -> steps lo (pmap f p).
  Proof. intro H. apply steps_bind_l; [exact H|]. intro a. apply safe_ret. Qed.

  Ltac by_cases := intros P i Lo Hi; specialize (P i Lo Hi);
    match goal with H : match ?p ?i with _ => _ end |- _ => destruct (p i) eqn:?; try (exact H) end.

  Lemma safe_pmap_out {A B} (f : A -> outcome B) p : safe lo p -> safe lo (pmap_out f p).
  Proof. unfold pmap_out. by_cases. destruct (f a); auto. Qed.
  Lemma steps_pmap_out {A B} (f : A -> outcome B) p : steps lo p -> steps lo (pmap_out f p).
  Proof. unfold pmap_out. by_cases. destruct (f a); auto. Qed.
  Lemma safe_try_map {A B E} (f : A -> outcome (result B E)) p : safe lo p -> safe lo (try_map f p).
  Proof. unfold try_map. by_cases. destruct (f a) as [[|]|]; auto. Qed.
  Lemma steps_try_map {A B E} (f : A -> outcome (result B E)) p : steps lo p -> steps lo (try_map f p).
  Proof. unfold try_map. by_cases. destruct (f a) as [[|]|]; auto. Qed.
  Lemma safe_validate {A B} (f : A -> B * list report) p : safe lo p -> safe lo (validate f p).
  Proof. unfold validate. by_cases. destruct (f a); auto. Qed.
  Lemma steps_validate {A B} (f : A -> B * list report) p : steps lo p -> steps lo (validate f p).
  Proof. unfold validate. by_cases. destruct (f a); auto. Qed.
  Lemma safe_sp {A} (p : parser A) : safe lo p -> safe lo (sp source toks len p).
  Proof. unfold sp, map_span. by_cases. Qed.
  Lemma steps_sp {A} (p : parser A) : steps lo p -> steps lo (sp source toks len p).
  Proof. unfold sp, map_span. by_cases. Qed.
  Lemma safe_map_span {A B} (f : A -> span -> B) p : safe lo p -> safe lo (map_span source toks len f p).
  Proof. unfold map_span. by_cases. Qed.
  Lemma steps_map_span {A B} (f : A -> span -> B) p : steps lo p -> steps lo (map_span source toks len f p).
  Proof. unfold map_span. by_cases. Qed.

  Lemma safe_alt {A} (p q : parser A) : safe lo p -> safe lo q -> safe lo (alt p q).
  Proof.
    intros P Q i Lo Hi. unfold alt. specialize (P i Lo Hi). specialize (Q i Lo Hi).
    destruct (p i); auto. destruct (q i); auto.
  Qed.
  Lemma steps_alt {A} (p q : parser A) : steps lo p -> steps lo q -> steps lo (alt p q).
  Proof.
    intros P Q i Lo Hi. unfold alt. specialize (P i Lo Hi). specialize (Q i Lo Hi).
    destruct (p i); auto. destruct (q i); auto.
  Qed.
  Lemma safe_choice {A} (ps : list (parser A)) : Forall (safe lo) ps -> safe lo (choice ps).
  Proof.
    induction 1 as [|p ps P F IH]; [intros i Lo Hi; cbn; exact Logic.I|].
    destruct ps as [|q ps]; [exact P|]. apply safe_alt; assumption.
  Qed.
  Lemma steps_choice {A} (ps : list (parser A)) : Forall (steps lo) ps -> steps lo (choice ps).
  Proof.
    induction 1 as [|p ps P F IH]; [intros i Lo Hi; cbn; exact Logic.I|].
    destruct ps as [|q ps]; [exact P|]. apply steps_alt; assumption.
  Qed.
  Lemma safe_opt {A} (p : parser A) : safe lo p -> safe lo (opt p).
  Proof. unfold opt. by_cases. lia. Qed.

  Lemma many_n_safe {A} (p : parser A) : steps lo p -> forall f i, lo <= i -> i <= n -> n - i < f ->
    match many_n f p i with Got _ j _ _ => i <= j <= n | Loop => False | _ => True end.
  Proof.
    intro P. induction f as [|f IH]; intros i Lo Hi Hf; [lia|]. cbn [many_n]. specialize (P i Lo Hi).
    destruct (p i) as [a j w e|w| |]; auto; try lia.
    assert (J : n - j < f) by lia. assert (L : lo <= j) by lia. specialize (IH j L (proj2 P) J). destruct (many_n f p j); auto; lia.
  Qed.
  Lemma safe_many {A} (p : parser A) : steps lo p -> safe lo (many toks p).
  Proof. intros P i Lo Hi. unfold many. apply (many_n_safe p P); [exact Lo|exact Hi|]. fold n. lia. Qed.

  Lemma many_n_fuel {A} (p : parser A) : steps lo p -> forall f g i, lo <= i -> i <= n -> n - i < f -> n - i < g ->
    many_n f p i = many_n g p i.
  Proof.
    intro P. induction f as [|f IH]; intros g i Lo Hi Hf Hg; [lia|]. destruct g as [|g]; [lia|]. cbn [many_n].
    specialize (P i Lo Hi). destruct (p i) as [a j w e|w| |]; auto.
    rewrite (IH g j); [reflexivity| | | |]; lia.
  Qed.

  Lemma many_unfold {A} (p : parser A) i : steps lo p -> lo <= i -> i <= n ->
    many toks p i =
    match p i with
    | Got a j ws es =>
        match many toks p j with
        | Got l k ws' es' => Got (a :: l) k (ws ++ ws') (es ++ es')
        | Not ws' => Not (ws ++ ws')
        | Crash => Crash
        | Loop => Loop
        end
    | Not ws => Got [] i ws []
    | Crash => Crash
    | Loop => Loop
    end.
  Proof.
    intros P Lo Hi. unfold many at 1. cbn [many_n]. pose proof (P i Lo Hi) as Q.
    destruct (p i) as [a j w e|w| |]; auto. unfold many. fold n.
    rewrite (many_n_fuel p P (n - i) (S (n - j)) j); [reflexivity| | | |]; lia.
  Qed.

  (** [many] does not fail. *)
  Lemma many_n_not {A} (p : parser A) f i ws : many_n f p i <> Not ws.
  Proof.
    revert i ws. induction f as [|f IH]; intros i ws; cbn [many_n]; [discriminate|].
    destruct (p i) as [a j w e|w| |]; try discriminate.
    destruct (many_n f p j) eqn:M; try discriminate. exfalso. eapply IH. exact M.
  Qed.
  Lemma many_not {A} (p : parser A) i ws : many toks p i <> Not ws.
  Proof. apply many_n_not. Qed.

  Lemma steps_select {A} (f : token -> option A) : steps lo (select toks f).
  Proof.
    intros i Lo Hi. unfold select. destruct (nth_error toks i) as [[t r]|] eqn:N; auto.
    destruct (f t); auto. assert (i < List.length toks) by (apply nth_error_Some; congruence). fold n in H. lia.
  Qed.
  Lemma safe_at_end : safe lo (at_end toks).
  Proof. intros i Lo Hi. unfold at_end. destruct (nth_error toks i); auto. Qed.

  Lemma foldl_safe {A B} (p : parser A) (q : parser B) f : safe lo p -> steps lo q -> safe lo (foldl toks p q f).
  Proof.
    intros P Q. apply safe_bind; [exact P|]. intro a. apply safe_bind; [apply safe_many; exact Q|].
    intro l. apply safe_ret.
  Qed.
  Lemma foldl_steps {A B} (p : parser A) (q : parser B) f : steps lo p -> steps lo q -> steps lo (foldl toks p q f).
  Proof.
    intros P Q. apply steps_bind_l; [exact P|]. intro a. apply safe_bind; [apply safe_many; exact Q|].
    intro l. apply safe_ret.
  Qed.

  End Bound.

  Lemma steps_bind_after {A B} lo (p : parser A) (f : A -> parser B) :
    steps lo p -> (forall a, safe (S lo) (f a)) -> steps lo (bind p f).
  Proof.
    intros P F i Lo Hi. unfold bind. specialize (P i Lo Hi). destruct (p i) as [a j w e|w| |]; auto.
    assert (J : j <= n) by lia. assert (L : S lo <= j) by lia. specialize (F a j L J). destruct (f a j); auto; lia.
  Qed.
  Lemma steps_from {A} lo lo' (p : parser A) : lo <= lo' -> steps lo p -> steps lo' p.
  Proof. intros L P i Lo Hi. apply P; lia. Qed.
  Lemma safe_from {A} lo lo' (p : parser A) : lo <= lo' -> safe lo p -> safe lo' p.
  Proof. intros L P i Lo Hi. apply P; lia. Qed.

  (** ** No panics *)

  Definition quiet {A} (p : parser A) : Prop := forall i, p i <> Crash.

  Lemma quiet_ret {A} (a : A) : quiet (ret a).
  Proof. discriminate. Qed.
  Lemma quiet_bind {A B} (p : parser A) (f : A -> parser B) : quiet p -> (forall a, quiet (f a)) -> quiet (bind p f).
  Proof.
    intros P F i. unfold bind. specialize (P i). destruct (p i) as [a j w e|w| |]; try discriminate; [|congruence].
    specialize (F a j). destruct (f a j); congruence.
  Qed.
  Lemma quiet_pmap {A B} (f : A -> B) p : quiet p -> quiet (pmap f p).
  Proof. intro H. apply quiet_bind; [exact H|]. intro a. apply quiet_ret. Qed.
  Lemma quiet_try_map {A B E} (f : A -> outcome (result B E)) p : quiet p -> (forall a, f a <> Panic) -> quiet (try_map f p).
  Proof.
    intros P F i. unfold try_map. specialize (P i). destruct (p i) as [a j w e|w| |]; try discriminate; [|congruence].
    specialize (F a). destruct (f a) as [[|]|]; congruence.
  Qed.
  Lemma quiet_validate {A B} (f : A -> B * list report) p : quiet p -> quiet (validate f p).
  Proof.
    intros P i. unfold validate. specialize (P i). destruct (p i) as [a j w e|w| |]; try congruence.
    destruct (f a). discriminate.
  Qed.
  Lemma quiet_map_span {A B} (f : A -> span -> B) p : quiet p -> quiet (map_span source toks len f p).
  Proof. intros P i. unfold map_span. specialize (P i). destruct (p i); congruence. Qed.
  Lemma quiet_sp {A} (p : parser A) : quiet p -> quiet (sp source toks len p).
  Proof. apply quiet_map_span. Qed.
  Lemma quiet_alt {A} (p q : parser A) : quiet p -> quiet q -> quiet (alt p q).
  Proof.
    intros P Q i. unfold alt. specialize (P i). specialize (Q i). destruct (p i); try congruence.
    destruct (q i); congruence.
  Qed.
  Lemma quiet_choice {A} (ps : list (parser A)) : Forall quiet ps -> quiet (choice ps).
  Proof.
    induction 1 as [|p ps P F IH]; [intro i; cbn; discriminate|].
    destruct ps as [|q ps]; [exact P|]. apply quiet_alt; assumption.
  Qed.
  Lemma quiet_opt {A} (p : parser A) : quiet p -> quiet (opt p).
  Proof. intros P i. unfold opt. specialize (P i). destruct (p i); congruence. Qed.
  Lemma quiet_many {A} (p : parser A) : quiet p -> quiet (many toks p).
  Proof.
    intros P i. unfold many. generalize (S (List.length toks - i)). intro f. revert i.
    induction f as [|f IH]; intro i; cbn [many_n]; [discriminate|]. specialize (P i).
    destruct (p i) as [a j w e|w| |]; try congruence. specialize (IH j). destruct (many_n f p j); congruence.
  Qed.
  Lemma quiet_select {A} (f : token -> option A) : quiet (select toks f).
  Proof.
    intro i. unfold select. destruct (nth_error toks i) as [[t r]|]; [|discriminate]. destruct (f t); discriminate.
  Qed.
  Lemma quiet_at_end : quiet (at_end toks).
  Proof. intro i. unfold at_end. destruct (nth_error toks i); discriminate. Qed.

  (** ** Success *)

  (** The warnings pushed on the way from one position to another. *)
  Context (W : nat -> nat -> list report)
          (W_nil : forall i, W i i = [])
          (W_app : forall i j k, i <= j -> j <= k -> W i k = W i j ++ W j k).

  (** The parser reads [a] from [i] up to [j], with errors [es]; on top of the
      warnings on the way it pushes [t]. *)
  Definition reads {A} (p : parser A) (i j : nat) (a : A) (t es : list report) : Prop :=
    p i = Got a j (W i j ++ t) es /\ i <= j <= n.
  (** The parser fails, and leaves no trace. *)
  Definition fails {A} (p : parser A) (i : nat) : Prop := p i = Not [].

  Lemma reads_ret {A} (a : A) i : i <= n -> reads (ret a) i i a [] [].
  Proof. intro H. split; [|lia]. unfold ret. rewrite W_nil. reflexivity. Qed.

  Lemma reads_bind {A B} (p : parser A) (f : A -> parser B) i j k a b t es1 es2 es :
    reads p i j a [] es1 -> reads (f a) j k b t es2 -> es = es1 ++ es2 -> reads (bind p f) i k b t es.
  Proof.
    intros [P Pn] [F Fn] ->. split; [|lia]. unfold bind. rewrite P, F, app_nil_r, (W_app i j k) by lia.
    rewrite app_assoc. reflexivity.
  Qed.

  Lemma reads_pmap {A B} (f : A -> B) p i j a t es :
    reads p i j a t es -> reads (pmap f p) i j (f a) t es.
  Proof.
    intros [P Pn]. split; [|exact Pn]. unfold pmap, bind, ret. rewrite P, !app_nil_r. reflexivity.
  Qed.

  Lemma reads_pmap_out {A B} (f : A -> outcome B) p i j a b t es :
    reads p i j a t es -> f a = Fine b -> reads (pmap_out f p) i j b t es.
  Proof. intros [P Pn] F. split; [|exact Pn]. unfold pmap_out. rewrite P, F. reflexivity. Qed.

  Lemma reads_try_map {A B E} (f : A -> outcome (result B E)) p i j a b t es :
    reads p i j a t es -> f a = Fine (Ok b) -> reads (try_map f p) i j b t es.
  Proof. intros [P Pn] F. split; [|exact Pn]. unfold try_map. rewrite P, F. reflexivity. Qed.

  Lemma reads_validate {A B} (f : A -> B * list report) p i j a b t es es' es'' :
    reads p i j a t es -> f a = (b, es') -> es'' = es ++ es' -> reads (validate f p) i j b t es''.
  Proof. intros [P Pn] F ->. split; [|exact Pn]. unfold validate. rewrite P, F. reflexivity. Qed.

  Lemma reads_map_span {A B} (f : A -> span -> B) p i j a t es :
    reads p i j a t es -> reads (map_span source toks len f p) i j (f a (span_at source toks len i j)) t es.
  Proof. intros [P Pn]. split; [|exact Pn]. unfold map_span. rewrite P. reflexivity. Qed.

  Lemma reads_sp {A} (p : parser A) i j (x : spanned A) t es :
    reads p i j (item x) t es -> span_of x = span_at source toks len i j -> reads (sp source toks len p) i j x t es.
  Proof.
    intros P X. destruct x as [a s]. cbn in *. subst s. apply reads_map_span. exact P.
  Qed.

  Lemma reads_alt_l {A} (p q : parser A) i j a t es : reads p i j a t es -> reads (alt p q) i j a t es.
  Proof. intros [P Pn]. split; [|exact Pn]. unfold alt. rewrite P. reflexivity. Qed.
  Lemma reads_alt_r {A} (p q : parser A) i j a t es : fails p i -> reads q i j a t es -> reads (alt p q) i j a t es.
  Proof. intros P [Q Qn]. split; [|exact Qn]. unfold alt. rewrite P, Q. reflexivity. Qed.

  Lemma reads_choice_here {A} (p : parser A) ps i j a t es : reads p i j a t es -> reads (choice (p :: ps)) i j a t es.
  Proof. intro P. destruct ps as [|q ps]; [exact P|]. apply reads_alt_l. exact P. Qed.
  Lemma reads_choice_there {A} (p q : parser A) ps i j a t es :
    fails p i -> reads (choice (q :: ps)) i j a t es -> reads (choice (p :: q :: ps)) i j a t es.
  Proof. intros P Q. apply reads_alt_r; assumption. Qed.

  Lemma reads_opt_some {A} (p : parser A) i j a t es : reads p i j a t es -> reads (opt p) i j (Some a) t es.
  Proof. intros [P Pn]. split; [|exact Pn]. unfold opt. rewrite P. reflexivity. Qed.
  Lemma reads_opt_none {A} (p : parser A) i : fails p i -> i <= n -> reads (opt p) i i None [] [].
  Proof. intros P Hi. split; [|lia]. unfold opt. rewrite P, W_nil. reflexivity. Qed.

  Lemma reads_many {A} lo (p : parser A) i j l t es : steps lo p -> lo <= i -> i <= n ->
    star (fun i j a es => reads p i j a [] es) i j l es -> p j = Not t ->
    reads (many toks p) i j l t es.
  Proof.
    intros P Lo Hi H. revert Lo Hi. induction H as [i|i j k a l es es' R _ IH]; intros Lo Hi Stop.
    - split; [|lia]. rewrite (many_unfold lo), Stop, W_nil by assumption. reflexivity.
    - destruct R as [R Rn]. assert (Lj : lo <= j) by lia. destruct (IH Lj (proj2 Rn) Stop) as [Q Qn]. split; [|lia].
      rewrite (many_unfold lo), R, Q by assumption. rewrite app_nil_r, (W_app i j k) by lia.
      rewrite app_assoc. reflexivity.
  Qed.

  (** ** Failure *)

  Lemma fails_bind {A B} (p : parser A) (f : A -> parser B) i : fails p i -> fails (bind p f) i.
  Proof. intro P. unfold fails, bind. rewrite P. reflexivity. Qed.
  Lemma fails_bind_then {A B} (p : parser A) (f : A -> parser B) i j a t es :
    reads p i j a t es -> W i j = [] -> t = [] -> fails (f a) j -> fails (bind p f) i.
  Proof. intros [P _] Wij -> F. unfold fails, bind. rewrite P, F, Wij. reflexivity. Qed.
  Lemma fails_pmap {A B} (f : A -> B) p i : fails p i -> fails (pmap f p) i.
  Proof. apply fails_bind. Qed.
  Lemma fails_pmap_out {A B} (f : A -> outcome B) p i : fails p i -> fails (pmap_out f p) i.
  Proof. intro P. unfold fails, pmap_out. rewrite P. reflexivity. Qed.
  Lemma fails_try_map {A B E} (f : A -> outcome (result B E)) p i : fails p i -> fails (try_map f p) i.
  Proof. intro P. unfold fails, try_map. rewrite P. reflexivity. Qed.
  Lemma fails_validate {A B} (f : A -> B * list report) p i : fails p i -> fails (validate f p) i.
  Proof. intro P. unfold fails, validate. rewrite P. reflexivity. Qed.
  Lemma fails_map_span {A B} (f : A -> span -> B) p i : fails p i -> fails (map_span source toks len f p) i.
  Proof. intro P. unfold fails, map_span. rewrite P. reflexivity. Qed.
  Lemma fails_sp {A} (p : parser A) i : fails p i -> fails (sp source toks len p) i.
  Proof. apply fails_map_span. Qed.
  Lemma fails_alt {A} (p q : parser A) i : fails p i -> fails q i -> fails (alt p q) i.
  Proof. intros P Q. unfold fails, alt. rewrite P, Q. reflexivity. Qed.
  Lemma fails_choice {A} (ps : list (parser A)) i : Forall (fun p => fails p i) ps -> fails (choice ps) i.
  Proof.
    induction 1 as [|p ps P F IH]; [reflexivity|]. destruct ps as [|q ps]; [exact P|]. apply fails_alt; assumption.
  Qed.
End Facts.
