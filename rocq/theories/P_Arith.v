(** * C19: arithmetic expressions *)
From Coq Require Import List NArith ZArith Arith Bool Lia.
From Verif Require Import Base Types Decimal Token Peg Grammar SpecGrammar SpecExpr PegFacts ExprFacts.
Import ListNotations.
Local Open Scope nat_scope.

(** The parser reads the longest expression, with the tree of the grammar
    [sum], [product], [factor], [primary]; it says nothing else. *)
Theorem C19_reads_longest I i j e ws es :
  p_expr I i = Got e j ws es <-> longest (sum I) i j e /\ ws = [] /\ es = [].
Proof.
  split.
  - intro H. pose proof (p_expr_plain I i) as P. rewrite H in P. destruct P as [-> ->].
    apply p_expr_iff in H. destruct H as [H1 H2]. repeat split; auto. 
  - intros ([H1 H2] & -> & ->). apply p_expr_iff. split; auto.
Qed.

(** It fails where no expression starts, and does nothing else. *)
Theorem C19_fails I i ws :
  i <= List.length (in_tokens I) ->
  p_expr I i = Not ws <-> (forall j e, ~ sum I i j e) /\ ws = [].
Proof.
  intro Hi. split.
  - intro H. pose proof (p_expr_plain I i) as P. rewrite H in P. split; [|exact P].
    intros j e S. destruct (p_expr_far _ _ _ _ S) as (e' & m & X & _). congruence.
  - intros [H ->]. apply p_expr_not; assumption.
Qed.

Theorem C19_terminates I i :
  i <= List.length (in_tokens I) -> p_expr I i <> Loop /\ p_expr I i <> Crash.
Proof.
  intro Hi. pose proof (p_expr_steps I i i (le_n i) Hi) as S. pose proof (p_expr_plain I i) as P.
  destruct (p_expr I i); split; try discriminate; contradiction.
Qed.

(** The same tokens have only one tree. *)
Theorem C19_unambiguous I i j e e' : sum I i j e -> sum I i j e' -> e = e'.
Proof. apply sum_unique. Qed.

Lemma shapes I :
  (forall i j e, sum I i j e -> left_assoc e) /\ (forall i j e, product I i j e -> no_sum e) /\
  (forall i j e, factor I i j e -> no_product e) /\ (forall i j e, primary I i j e -> no_sign e).
Proof. apply expr_mutind; intros; try (constructor; assumption); try assumption. Qed.

Theorem C19_shape I i j e ws es : p_expr I i = Got e j ws es -> left_assoc e.
Proof. intro H. apply p_expr_sound in H. eapply shapes. exact H. Qed.

Lemma tokens_at_app I i a b : tokens_at I i (a ++ b) -> tokens_at I i a /\ tokens_at I (i + List.length a) b.
Proof.
  intros (x & y & E & L & T). rewrite app_length in T. split.
  - exists x, y. split; [exact E|]. split; [exact L|].
    assert (Q : firstn (List.length a) (a ++ b) = firstn (List.length a) (firstn (List.length a + List.length b) (map fst y))) by congruence.
    rewrite firstn_firstn, Nat.min_l in Q by lia. rewrite firstn_app, Nat.sub_diag, firstn_all in Q. cbn in Q.
    rewrite app_nil_r in Q. exact Q.
  - exists (x ++ firstn (List.length a) y), (skipn (List.length a) y). split.
    { rewrite <- app_assoc, firstn_skipn. exact E. }
    assert (Len : List.length a <= List.length y).
    { pose proof (f_equal (@List.length _) T) as Q. rewrite app_length, firstn_length, map_length in Q. lia. }
    split; [rewrite app_length, firstn_length; lia|].
    assert (Q : skipn (List.length a) (a ++ b) = skipn (List.length a) (firstn (List.length a + List.length b) (map fst y))) by congruence.
    rewrite skipn_app, Nat.sub_diag, skipn_all in Q. cbn in Q. rewrite skipn_firstn_comm in Q.
    replace (List.length a + List.length b - List.length a) with (List.length b) in Q by lia. rewrite skipn_map in Q. exact Q.
Qed.
Lemma tokens_at_one I i t : tokens_at I i [t] -> tok I i t.
Proof.
  intros (x & y & E & L & T). destruct y as [|[t' r] y]; [discriminate|]. cbn in T. injection T as ->.
  exists r. rewrite E, nth_error_app2, L, Nat.sub_diag by lia. reflexivity.
Qed.

Scheme ns_mut := Induction for no_sign Sort Prop
  with np_mut := Induction for no_product Sort Prop
  with nsum_mut := Induction for no_sum Sort Prop
  with la_mut := Induction for left_assoc Sort Prop.
Combined Scheme shape_mutind from ns_mut, np_mut, nsum_mut, la_mut.

Lemma spelled I :
  (forall e, no_sign e -> forall i, tokens_at I i (written_with e) -> primary I i (i + List.length (written_with e)) e) /\
  (forall e, no_product e -> forall i, tokens_at I i (written_with e) -> factor I i (i + List.length (written_with e)) e) /\
  (forall e, no_sum e -> forall i, tokens_at I i (written_with e) -> product I i (i + List.length (written_with e)) e) /\
  (forall e, left_assoc e -> forall i, tokens_at I i (written_with e) -> sum I i (i + List.length (written_with e)) e).
Proof.
  apply shape_mutind; cbn [written_with].
  - intros d i T. apply tokens_at_one in T. rewrite Nat.add_1_r. constructor. exact T.
  - intros e _ IH i T. apply (tokens_at_app I i [T_Lparen]) in T. destruct T as [T1 T2]. apply tokens_at_app in T2.
    destruct T2 as [T2 T3]. apply tokens_at_one in T1, T3. apply IH in T2. cbn [List.length] in *. rewrite app_length. cbn [List.length].
    replace (i + S (List.length (written_with e) + 1)) with (S (i + 1 + List.length (written_with e))) by lia.
    constructor; [exact T1| |exact T3]. rewrite Nat.add_1_r in T2 at 1. exact T2.
  - intros e _ IH i T. constructor. apply IH. exact T.
  - intros e _ IH i T. apply (tokens_at_app I i [T_Minus]) in T. destruct T as [T1 T2]. apply tokens_at_one in T1.
    apply IH in T2. cbn [List.length] in *. apply factor_minus; [exact T1|].
    replace (i + S (List.length (written_with e))) with (i + 1 + List.length (written_with e)) by lia.
    rewrite Nat.add_1_r in T2 at 1. exact T2.
  - intros e _ IH i T. constructor. apply IH. exact T.
  - intros a b _ IHa _ IHb i T. apply tokens_at_app in T. destruct T as [T1 T2]. apply (tokens_at_app I _ [T_Asterisk]) in T2.
    destruct T2 as [T2 T3]. apply tokens_at_one in T2. apply IHa in T1. apply IHb in T3. cbn [List.length] in *. rewrite app_length. cbn [List.length].
    eapply product_mul; [exact T1|exact T2|].
    replace (i + (List.length (written_with a) + S (List.length (written_with b)))) with (i + List.length (written_with a) + 1 + List.length (written_with b)) by lia.
    rewrite Nat.add_1_r in T3 at 1. exact T3.
  - intros a b _ IHa _ IHb i T. apply tokens_at_app in T. destruct T as [T1 T2]. apply (tokens_at_app I _ [T_Slash]) in T2.
    destruct T2 as [T2 T3]. apply tokens_at_one in T2. apply IHa in T1. apply IHb in T3. cbn [List.length] in *. rewrite app_length. cbn [List.length].
    eapply product_div; [exact T1|exact T2|].
    replace (i + (List.length (written_with a) + S (List.length (written_with b)))) with (i + List.length (written_with a) + 1 + List.length (written_with b)) by lia.
    rewrite Nat.add_1_r in T3 at 1. exact T3.
  - intros e _ IH i T. constructor. apply IH. exact T.
  - intros a b _ IHa _ IHb i T. apply tokens_at_app in T. destruct T as [T1 T2]. apply (tokens_at_app I _ [T_Plus]) in T2.
    destruct T2 as [T2 T3]. apply tokens_at_one in T2. apply IHa in T1. apply IHb in T3. cbn [List.length] in *. rewrite app_length. cbn [List.length].
    eapply sum_add; [exact T1|exact T2|].
    replace (i + (List.length (written_with a) + S (List.length (written_with b)))) with (i + List.length (written_with a) + 1 + List.length (written_with b)) by lia.
    rewrite Nat.add_1_r in T3 at 1. exact T3.
  - intros a b _ IHa _ IHb i T. apply tokens_at_app in T. destruct T as [T1 T2]. apply (tokens_at_app I _ [T_Minus]) in T2.
    destruct T2 as [T2 T3]. apply tokens_at_one in T2. apply IHa in T1. apply IHb in T3. cbn [List.length] in *. rewrite app_length. cbn [List.length].
    eapply sum_sub; [exact T1|exact T2|].
    replace (i + (List.length (written_with a) + S (List.length (written_with b)))) with (i + List.length (written_with a) + 1 + List.length (written_with b)) by lia.
    rewrite Nat.add_1_r in T3 at 1. exact T3.
Qed.

Definition operator (t : token) : Prop := In t [T_Plus; T_Minus; T_Asterisk; T_Slash].

(** Every tree of that shape is read from the tokens it is written with, unless
    the expression goes on. *)
Theorem C19_tree_read_back I i e :
  left_assoc e -> tokens_at I i (written_with e) ->
  (forall t, tok I (i + List.length (written_with e)) t -> ~ operator t) ->
  p_expr I i = Got e (i + List.length (written_with e)) [] [].
Proof.
  intros L T N. apply p_expr_exact; [apply spelled; assumption|..]; intro X; apply N in X; apply X; unfold operator; cbn; auto.
Qed.

Print Assumptions C19_reads_longest.
Print Assumptions C19_fails.
Print Assumptions C19_terminates.
Print Assumptions C19_unambiguous.
Print Assumptions C19_shape.
Print Assumptions C19_tree_read_back.

(** 1 - 2 - 3 * (4 + 5) USD *)
Definition num (n : N) : decimal := mk_dec false n 0.
Definition ex_input (ts : list token) : input := mk_input 0 (map (fun t => (t, (0, 0))) ts) 0.
Definition ex_tree : expr :=
  E_Sub (E_Sub (E_Value (num 1)) (E_Value (num 2)))
        (E_Mul (E_Value (num 3)) (E_Paren (E_Add (E_Value (num 4)) (E_Value (num 5))))).
Example ex_tree_left_assoc : left_assoc ex_tree.
Proof. repeat first [apply left_assoc_sub | apply left_assoc_add | apply no_sum_mul | constructor]. Qed.
Example ex_read_back :
  p_expr (ex_input (written_with ex_tree ++ [T_Currency [85; 83; 68]%N])) 0 = Got ex_tree 11 [] [].
Proof. vm_compute. reflexivity. Qed.
Example ex_longest : longest (sum (ex_input (written_with ex_tree ++ [T_Currency [85; 83; 68]%N]))) 0 11 ex_tree.
Proof. apply (C19_reads_longest _ _ _ _ [] []). vm_compute. reflexivity. Qed.
Example ex_none : p_expr (ex_input [T_Asterisk; T_Number (num 1)]) 0 = Not [].
Proof. reflexivity. Qed.
