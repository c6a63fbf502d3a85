(** * Facts about trimming and rune conversion *)
From Coq Require Import List NArith Arith Bool Lia.
From Verif Require Import Base BaseFacts Text.
Import ListNotations.

Lemma rfind_from_app p off a c ws :
  p c = true -> (forall x, In x ws -> p x = false) ->
  rfind_from p off (a ++ c :: ws) = Some (off + blen a).
Proof.
  intros Hc Hws. revert off; induction a as [|x a IH]; intros off; simpl.
  - assert (N : forall o, rfind_from p o ws = None).
    { clear Hc. induction ws as [|y ws IH]; intros o; simpl; auto.
      rewrite IH by (intros; apply Hws; now right). rewrite Hws by (now left). reflexivity. }
    rewrite N, Hc. f_equal; lia.
  - rewrite IH. f_equal; lia.
Qed.

Lemma rfind_from_none p off s : (forall x, In x s -> p x = false) -> rfind_from p off s = None.
Proof.
  revert off; induction s as [|y s IH]; intros o H; simpl; auto.
  rewrite IH by (intros; apply H; now right). rewrite H by (now left). reflexivity.
Qed.

(** Every string is all-[p]-free or splits at its last [p] char. *)
Lemma last_split (p : char -> bool) (s : str) :
  (forall x, In x s -> p x = false) \/
  exists a c ws, s = a ++ c :: ws /\ p c = true /\ forall x, In x ws -> p x = false.
Proof.
  induction s as [|y s [IH|(a & c & ws & -> & Hc & Hw)]].
  - left; intros x [].
  - destruct (p y) eqn:P.
    + right. exists [], y, s. auto.
    + left. intros x [->|I]; auto.
  - right. exists (y :: a), c, ws. auto.
Qed.

(** ** partition_point *)

Lemma div2_facts n : 1 < n -> 1 <= Nat.div2 n /\ Nat.div2 n < n /\ Nat.div2 n <= n - Nat.div2 n.
Proof.
  intros H.
  pose proof (Nat.div2_odd n) as O.
  assert (Nat.b2n (Nat.odd n) <= 1) by (destruct (Nat.odd n); simpl; lia).
  lia.
Qed.

Lemma pp_loop_range fuel p l size base :
  1 <= size -> base <= pp_loop fuel p l size base <= base + size - 1.
Proof.
  revert size base; induction fuel as [|f IH]; intros size base H; simpl; [lia|].
  destruct (1 <? size) eqn:S; [|apply Nat.ltb_ge in S; lia].
  apply Nat.ltb_lt in S. pose proof (div2_facts size S).
  destruct (p _).
  - specialize (IH (size - Nat.div2 size) (base + Nat.div2 size)). lia.
  - specialize (IH (size - Nat.div2 size) base). lia.
Qed.

Lemma partition_point_le p l : partition_point p l <= length l.
Proof.
  unfold partition_point. destruct l as [|x l]; [simpl; lia|].
  pose proof (pp_loop_range (length (x :: l)) p (x :: l) (length (x :: l)) 0).
  simpl length in *. destruct (p _); lia.
Qed.

Lemma pp_loop_found fuel p l size base k :
  size <= fuel -> 1 <= size ->
  base <= pred k < base + size -> base + size <= length l ->
  (forall i, i < k -> p (nth i l 0) = true) ->
  (forall i, k <= i < length l -> p (nth i l 0) = false) ->
  pp_loop fuel p l size base = pred k.
Proof.
  revert size base; induction fuel as [|f IH]; intros size base F S B L T G; [lia|].
  simpl. destruct (1 <? size) eqn:Q; [|apply Nat.ltb_ge in Q; lia].
  apply Nat.ltb_lt in Q. pose proof (div2_facts size Q) as (D1 & D2 & D3).
  destruct (p (nth (base + Nat.div2 size) l 0)) eqn:P.
  - apply IH; try lia; auto.
    assert (~ k <= base + Nat.div2 size).
    { intros K. rewrite G in P by lia. discriminate. }
    lia.
  - apply IH; try lia; auto.
    assert (~ base + Nat.div2 size < k).
    { intros K. rewrite T in P by lia. discriminate. }
    lia.
Qed.

Lemma partition_point_spec p l k :
  k <= length l ->
  (forall i, i < k -> p (nth i l 0) = true) ->
  (forall i, k <= i < length l -> p (nth i l 0) = false) ->
  partition_point p l = k.
Proof.
  intros K T G. unfold partition_point. destruct l as [|x l]; [simpl in K; lia|].
  rewrite (pp_loop_found _ _ _ _ _ k); try (simpl length in *; lia); auto.
  destruct k as [|k].
  - simpl pred. rewrite G; [reflexivity|simpl; lia].
  - simpl pred. rewrite T by lia. lia.
Qed.

Lemma pp_loop_mono fuel p q l size base :
  (forall i, p i = true -> q i = true) ->
  1 <= size ->
  pp_loop fuel p l size base <= pp_loop fuel q l size base.
Proof.
  intros PQ. revert size base; induction fuel as [|f IH]; intros size base S; simpl; auto.
  destruct (1 <? size) eqn:Q; auto.
  apply Nat.ltb_lt in Q. pose proof (div2_facts size Q) as (D1 & D2 & D3).
  remember (base + Nat.div2 size) as mid.
  destruct (p (nth mid l 0)) eqn:P.
  - rewrite (PQ _ P). apply IH. lia.
  - destruct (q (nth mid l 0)) eqn:P'; [|apply IH; lia].
    destruct (Nat.eq_dec (size - Nat.div2 size) (Nat.div2 size)) as [E|NE].
    + pose proof (pp_loop_range f p l (size - Nat.div2 size) base ltac:(lia)).
      pose proof (pp_loop_range f q l (size - Nat.div2 size) mid ltac:(lia)). lia.
    + pose proof (pp_loop_range f p l (size - Nat.div2 size) base ltac:(lia)).
      pose proof (pp_loop_range f q l (size - Nat.div2 size) mid ltac:(lia)).
      pose proof (Nat.div2_odd size) as O.
      assert (Nat.b2n (Nat.odd size) <= 1) by (destruct (Nat.odd size); simpl; lia).
      lia.
Qed.

(** Whatever the list, a larger predicate gives a larger partition point. *)
Lemma partition_point_mono p q l :
  (forall i, p i = true -> q i = true) -> partition_point p l <= partition_point q l.
Proof.
  intros PQ. unfold partition_point. destruct l as [|x l]; auto.
  pose proof (pp_loop_mono (length (x :: l)) p q (x :: l) (length (x :: l)) 0 PQ ltac:(simpl; lia)) as M.
  remember (pp_loop (length (x :: l)) p (x :: l) (length (x :: l)) 0) as a.
  remember (pp_loop (length (x :: l)) q (x :: l) (length (x :: l)) 0) as b.
  destruct (p (nth a (x :: l) 0)) eqn:P.
  - destruct (Nat.eq_dec a b) as [->|N].
    + rewrite (PQ _ P). lia.
    + destruct (q _); lia.
  - destruct (q _); lia.
Qed.

Lemma firstn_app_exact {A} (a b : list A) : firstn (length a) (a ++ b) = a.
Proof. rewrite firstn_app, firstn_all, Nat.sub_diag. simpl. apply app_nil_r. Qed.

Lemma skipn_app_exact {A} (a b : list A) : skipn (length a) (a ++ b) = b.
Proof. rewrite skipn_app, skipn_all, Nat.sub_diag. reflexivity. Qed.

Lemma blen_firstn_le (s : str) i j : i <= j -> blen (firstn i s) <= blen (firstn j s).
Proof.
  intros H.
  assert (E : firstn i s = firstn i (firstn j s)) by (rewrite firstn_firstn; f_equal; lia).
  rewrite E. rewrite <- (firstn_skipn i (firstn j s)) at 2. rewrite blen_app. lia.
Qed.

Lemma blen_firstn_lt (s : str) i j : i < j -> j <= length s -> blen (firstn i s) < blen (firstn j s).
Proof.
  intros H L.
  assert (LE : blen (firstn (S i) s) <= blen (firstn j s)) by (apply blen_firstn_le; lia).
  assert (N : exists c, firstn (S i) s = firstn i s ++ [c]).
  { clear - L H. revert s L. revert j H. induction i as [|i IH]; intros j H s L.
    - destruct s as [|c s]; simpl in *; [lia|]. now exists c.
    - destruct s as [|c s]; [simpl in *; lia|]. destruct j as [|j]; [lia|].
      destruct (IH j ltac:(lia) s ltac:(simpl in L; lia)) as [d E]. exists d.
      change (firstn (S (S i)) (c :: s)) with (c :: firstn (S i) s). now rewrite E. }
  destruct N as [c N]. rewrite N, blen_app in LE. simpl in LE. pose proof (utf8_len_pos c). lia.
Qed.

(** Number of characters starting before byte [x], when [x] lies in the
    half-open byte range after [pre] minus its last byte. *)
Lemma partition_point_char_offs pre post x :
  (pre = [] -> x = 0) ->
  (forall a c, pre = a ++ [c] -> blen a < x) ->
  x <= blen pre ->
  partition_point (fun i => i <? x) (char_offs 0 (pre ++ post)) = length pre.
Proof.
  intros E G X. apply partition_point_spec.
  - rewrite char_offs_length, app_length. lia.
  - intros i I. rewrite char_offs_nth by (rewrite app_length; lia).
    apply Nat.ltb_lt. rewrite firstn_app.
    replace (i - length pre) with 0 by lia. rewrite firstn_O, app_nil_r, Nat.add_0_l.
    destruct pre as [|c0 pre0] using rev_ind; [simpl in I; lia|]. clear IHpre0.
    specialize (G pre0 c0 eq_refl). rewrite app_length in I; simpl in I.
    rewrite firstn_app. replace (i - length pre0) with 0 by lia. rewrite firstn_O, app_nil_r.
    eapply Nat.le_lt_trans; [|exact G].
    rewrite <- (firstn_skipn i pre0) at 2. rewrite blen_app. lia.
  - intros i [I1 I2]. rewrite char_offs_length in I2. rewrite char_offs_nth by lia.
    apply Nat.ltb_ge.
    assert (B : blen (firstn (length pre) (pre ++ post)) <= blen (firstn i (pre ++ post)))
      by (apply blen_firstn_le; lia).
    rewrite firstn_app_exact in B. lia.
Qed.

Lemma partition_point_boundary pre post :
  partition_point (fun i => i <? blen pre) (char_offs 0 (pre ++ post)) = length pre.
Proof.
  apply partition_point_char_offs; auto.
  - intros ->. reflexivity.
  - intros a c ->. rewrite blen_app. simpl. pose proof (utf8_len_pos c). lia.
Qed.
