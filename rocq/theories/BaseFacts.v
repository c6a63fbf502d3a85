(** * Facts about the standard-library model in [Base] *)
From Coq Require Import List NArith Arith Bool Lia ZifyBool ZifyNat ZifyN Permutation.
From Verif Require Import Base.
Import ListNotations.

Lemma utf8_len_pos c : 1 <= utf8_len c.
Proof. unfold utf8_len; repeat destruct (_ <? _)%N; lia. Qed.

Lemma utf8_len_ascii c : is_ascii c = true <-> utf8_len c = 1.
Proof.
  unfold utf8_len, is_ascii.
  destruct (c <? 128)%N; [tauto|].
  split; [discriminate|]. repeat destruct (_ <? _)%N; discriminate.
Qed.

Lemma blen_app a b : blen (a ++ b) = blen a + blen b.
Proof. induction a; simpl; lia. Qed.

Lemma blen_zero s : blen s = 0 -> s = [].
Proof. destruct s as [|c s]; [reflexivity|]. simpl. pose proof (utf8_len_pos c). lia. Qed.

Lemma blen_ge_length s : length s <= blen s.
Proof. induction s; simpl; [lia|]. pose proof (utf8_len_pos a). lia. Qed.

Lemma split_at_0 s : split_at 0 s = Some ([], s).
Proof. destruct s; reflexivity. Qed.

Lemma split_at_app a b : split_at (blen a) (a ++ b) = Some (a, b).
Proof.
  induction a as [|c a IH]; [apply split_at_0|].
  cbn [blen app].
  pose proof (utf8_len_pos c).
  destruct (utf8_len c + blen a) as [|n] eqn:E; [lia|].
  cbn [split_at]. rewrite <- E.
  replace (utf8_len c <=? utf8_len c + blen a) with true by (symmetry; apply Nat.leb_le; lia).
  replace (utf8_len c + blen a - utf8_len c) with (blen a) by lia.
  now rewrite IH.
Qed.

Lemma split_at_inv n s a b : split_at n s = Some (a, b) -> s = a ++ b /\ n = blen a.
Proof.
  revert n a b; induction s as [|c s IH]; intros n a b H.
  - destruct n; [|discriminate]. now inversion H.
  - destruct n; [now inversion H|].
    cbn [split_at] in H.
    destruct (utf8_len c <=? S n) eqn:E; [|discriminate].
    destruct (split_at (S n - utf8_len c) s) as [[a' b']|] eqn:E2; [|discriminate].
    inversion H; subst. apply IH in E2 as [-> E2].
    split; [reflexivity|]. cbn [blen]. apply Nat.leb_le in E. lia.
Qed.

Lemma str_get_spec s a b m :
  str_get s a b = Some m <->
  exists pre post, s = pre ++ m ++ post /\ a = blen pre /\ b = blen pre + blen m.
Proof.
  unfold str_get; split.
  - destruct (a <=? b) eqn:E; [|discriminate].
    destruct (split_at a s) as [[pre rest]|] eqn:E1; [|discriminate].
    destruct (split_at (b - a) rest) as [[m' post]|] eqn:E2; [|discriminate].
    intros H; inversion H; subst.
    apply split_at_inv in E1 as [-> ->]. apply split_at_inv in E2 as [-> E2].
    exists pre, post. apply Nat.leb_le in E. repeat split; lia.
  - intros (pre & post & -> & -> & ->).
    replace (blen pre <=? blen pre + blen m) with true by (symmetry; apply Nat.leb_le; lia).
    rewrite split_at_app.
    replace (blen pre + blen m - blen pre) with (blen m) by lia.
    now rewrite split_at_app.
Qed.

Lemma app_inj_blen : forall (a b c d : str), a ++ b = c ++ d -> blen a = blen c -> a = c /\ b = d.
Proof.
  induction a as [|x a IH]; intros b [|y c] d H L; simpl in *.
  - now split.
  - pose proof (utf8_len_pos y); lia.
  - pose proof (utf8_len_pos x); lia.
  - inversion H; subst. apply IH in H2 as [-> ->]; [now split|lia].
Qed.

Lemma app_prefix_blen : forall (a b c d : str),
  a ++ b = c ++ d -> blen a <= blen c -> exists e, c = a ++ e /\ b = e ++ d.
Proof.
  induction a as [|x a IH]; intros b c d H L; simpl in *.
  - exists c; auto.
  - destruct c as [|y c]; simpl in *.
    + pose proof (utf8_len_pos x); lia.
    + inversion H; subst. apply IH in H2 as (e & -> & ->); [|lia]. exists e; auto.
Qed.

Lemma char_offs_app b s t :
  char_offs b (s ++ t) = char_offs b s ++ char_offs (b + blen s) t.
Proof.
  revert b; induction s as [|c s IH]; intros b; simpl.
  - now rewrite Nat.add_0_r.
  - rewrite IH. now rewrite Nat.add_assoc.
Qed.

Lemma char_offs_length b s : length (char_offs b s) = length s.
Proof. revert b; induction s; intros; simpl; auto. Qed.

Lemma char_offs_nth b s i d : i < length s -> nth i (char_offs b s) d = b + blen (firstn i s).
Proof.
  revert b i; induction s as [|c s IH]; intros b i H; simpl in *; [lia|].
  destruct i; simpl; [lia|]. rewrite IH by lia. lia.
Qed.

Lemma str_eqb_eq a b : str_eqb a b = true <-> a = b.
Proof.
  revert b; induction a as [|x a IH]; intros [|y b]; simpl; try (split; [discriminate|discriminate]).
  - tauto.
  - rewrite andb_true_iff, N.eqb_eq, IH. split; [intros [-> ->]; auto|intros H; inversion H; auto].
Qed.

Lemma str_eqb_refl a : str_eqb a a = true.
Proof. now apply str_eqb_eq. Qed.

Lemma str_eqb_neq a b : str_eqb a b = false <-> a <> b.
Proof.
  rewrite <- not_true_iff_false, str_eqb_eq. tauto.
Qed.

(** ** Association lists under an equality test that reflects equality of an image *)
Section AssocFacts.
  Context {K V : Type} (keqb : K -> K -> bool).
  Definition eq_equiv : Prop :=
    (forall x, keqb x x = true) /\
    (forall x y, keqb x y = keqb y x) /\
    (forall x y z, keqb x y = true -> keqb y z = true -> keqb x z = true).
  Hypothesis E : eq_equiv.

  Lemma eqv_cong x y z : keqb x y = true -> keqb x z = keqb y z.
  Proof.
    destruct E as (R & S & T). intros H.
    destruct (keqb x z) eqn:A, (keqb y z) eqn:B; auto.
    - rewrite S in H. rewrite (T y x z H A) in B. discriminate.
    - rewrite (T x y z H B) in A. discriminate.
  Qed.

  Lemma lookup_cong x y (m : list (K * V)) : keqb x y = true -> lookup keqb x m = lookup keqb y m.
  Proof.
    intros H; induction m as [|[k v] m IH]; simpl; auto.
    rewrite (eqv_cong x y k H). now rewrite IH.
  Qed.

  Lemma lookup_app x (m n : list (K * V)) :
    lookup keqb x (m ++ n) = match lookup keqb x m with Some v => Some v | None => lookup keqb x n end.
  Proof. induction m as [|[k v] m IH]; simpl; auto. destruct (keqb x k); auto. Qed.

  Lemma lookup_replace x k v (m : list (K * V)) :
    lookup keqb x (replace_val keqb k v m) =
    if keqb x k then match lookup keqb k m with Some _ => Some v | None => None end
    else lookup keqb x m.
  Proof.
    induction m as [|[k' v'] m IH]; simpl.
    - now destruct (keqb x k).
    - destruct (keqb k k') eqn:A; simpl.
      + destruct (keqb x k) eqn:B.
        * rewrite (eqv_cong x k k' B), A. reflexivity.
        * rewrite (proj1 (proj2 E)) in B.
          rewrite (proj1 (proj2 E) x k'), <- (eqv_cong k k' x A), B. reflexivity.
      + destruct (keqb x k') eqn:C.
        * destruct (keqb x k) eqn:B; auto.
          rewrite (eqv_cong x k k' B) in C. congruence.
        * rewrite IH. reflexivity.
  Qed.

  Lemma lookup_insert x k v (m : list (K * V)) :
    lookup keqb x (insert keqb k v m) = if keqb x k then Some v else lookup keqb x m.
  Proof.
    unfold insert. destruct (lookup keqb k m) eqn:L.
    - rewrite lookup_replace, L. reflexivity.
    - rewrite lookup_app. simpl.
      destruct (keqb x k) eqn:B.
      + rewrite (lookup_cong x k m B), L. reflexivity.
      + destruct (lookup keqb x m); reflexivity.
  Qed.

  Lemma lookup_remove x k (m : list (K * V)) :
    lookup keqb x (remove_key keqb k m) = if keqb x k then None else lookup keqb x m.
  Proof.
    induction m as [|[k' v'] m IH]; simpl.
    - now destruct (keqb x k).
    - destruct (keqb k k') eqn:A; simpl.
      + rewrite IH. destruct (keqb x k) eqn:B; auto.
        rewrite (proj1 (proj2 E)) in B.
        rewrite (proj1 (proj2 E) x k'), <- (eqv_cong k k' x A), B. reflexivity.
      + rewrite IH. destruct (keqb x k') eqn:C; auto.
        destruct (keqb x k) eqn:B; auto.
        rewrite (eqv_cong x k k' B) in C. congruence.
  Qed.

  Lemma lookup_In x v (m : list (K * V)) :
    lookup keqb x m = Some v -> exists k, In (k, v) m /\ keqb x k = true.
  Proof.
    induction m as [|[k' v'] m IH]; simpl; [discriminate|].
    destruct (keqb x k') eqn:A.
    - intros H; inversion H; subst. eauto.
    - intros H; apply IH in H as (k & I & B). eauto.
  Qed.

  Lemma lookup_None x (m : list (K * V)) :
    lookup keqb x m = None <-> forall k v, In (k, v) m -> keqb x k = false.
  Proof.
    induction m as [|[k' v'] m IH]; simpl.
    - split; auto. intros _ k v [].
    - destruct (keqb x k') eqn:A.
      + split; [discriminate|]. intros H. rewrite (H k' v') in A; [discriminate|auto].
      + rewrite IH. split; intros H; [|intros; eauto].
        intros k v [I|I]; [inversion I; subst; auto|eauto].
  Qed.

  (** Keys pairwise distinct for [keqb]. *)
  Fixpoint keys_distinct (m : list (K * V)) : Prop :=
    match m with
    | [] => True
    | (k, _) :: m' => lookup keqb k m' = None /\ keys_distinct m'
    end.

  Lemma lookup_remove_length k (m : list (K * V)) v :
    lookup keqb k m = Some v -> length (remove_key keqb k m) < length m.
  Proof.
    induction m as [|[k' v'] m IH]; simpl; [discriminate|].
    destruct (keqb k k') eqn:A; simpl.
    - intros _. clear. induction m as [|[k' v'] m IH]; simpl; [lia|].
      destruct (keqb k k'); simpl; lia.
    - intros H; apply IH in H. lia.
  Qed.

  Lemma keys_distinct_remove k m : keys_distinct m -> keys_distinct (remove_key keqb k m).
  Proof.
    induction m as [|[k' v'] m IH]; simpl; auto.
    intros [A B]. destruct (keqb k k'); auto.
    simpl. split; auto. rewrite lookup_remove, A. now destruct (keqb k' k).
  Qed.

  Lemma keys_distinct_replace k v m : keys_distinct m -> keys_distinct (replace_val keqb k v m).
  Proof.
    induction m as [|[k' v'] m IH]; simpl; auto.
    intros [A B]. destruct (keqb k k') eqn:C; simpl; auto.
    split; auto. rewrite lookup_replace, A.
    rewrite (proj1 (proj2 E)), C. reflexivity.
  Qed.

  Lemma keys_distinct_snoc k v m :
    keys_distinct m -> lookup keqb k m = None -> keys_distinct (m ++ [(k, v)]).
  Proof.
    induction m as [|[k' v'] m IH]; simpl; auto.
    intros [A B]. destruct (keqb k k') eqn:C; [discriminate|].
    intros D. split; auto. rewrite lookup_app, A. simpl.
    rewrite (proj1 (proj2 E)), C. reflexivity.
  Qed.

  Lemma keys_distinct_insert k v m : keys_distinct m -> keys_distinct (insert keqb k v m).
  Proof.
    unfold insert. destruct (lookup keqb k m) eqn:L; intros H.
    - now apply keys_distinct_replace.
    - now apply keys_distinct_snoc.
  Qed.

  Lemma keys_distinct_perm m m' : Permutation m m' -> keys_distinct m -> keys_distinct m'.
  Proof.
    induction 1 as [|[k v] m m' P IH|[k v] [k' v'] m|m m1 m2 P1 IH1 P2 IH2]; simpl; auto.
    - intros [A B]. split; auto. rewrite lookup_None in *. intros k' v' I. apply (A k' v'). eapply Permutation_in; [symmetry; exact P|exact I].
    - intros (A & B & C). destruct (keqb k' k) eqn:X; [discriminate|]. rewrite (proj1 (proj2 E)), X. auto.
  Qed.

  Lemma keys_distinct_lookup k v m : keys_distinct m -> In (k, v) m -> lookup keqb k m = Some v.
  Proof.
    induction m as [|[k' v'] m IH]; simpl; [tauto|].
    intros [A B] [I|I].
    - inversion I; subst. now rewrite (proj1 E).
    - destruct (keqb k k') eqn:C; auto.
      rewrite (lookup_None k' m) in A. specialize (A k v I).
      rewrite (proj1 (proj2 E)) in A. congruence.
  Qed.

  (** With distinct keys, removing a present key removes exactly that entry. *)
  Lemma remove_key_split k v m :
    keys_distinct m -> lookup keqb k m = Some v ->
    exists k' a b, m = a ++ (k', v) :: b /\ remove_key keqb k m = a ++ b /\ keqb k k' = true.
  Proof.
    induction m as [|[k' v'] m IH]; simpl; [discriminate|].
    intros [A B] L. destruct (keqb k k') eqn:C.
    - inversion L; subst. exists k', [], m. repeat split; auto.
      assert (N : lookup keqb k m = None) by (rewrite (lookup_cong k k' m C); auto).
      clear - N. induction m as [|[k2 v2] m IH]; simpl in *; auto.
      destruct (keqb k k2); [discriminate|]. simpl. f_equal. auto.
    - destruct (IH B L) as (k2 & a & b & -> & R & C2).
      exists k2, ((k', v') :: a), b. repeat split; auto. simpl. now rewrite R.
  Qed.

  (** With distinct keys, lookups do not depend on the order of the entries. *)
  Lemma lookup_perm x (m n : list (K * V)) :
    keys_distinct m -> Permutation m n -> lookup keqb x m = lookup keqb x n.
  Proof.
    assert (KD : forall m n, Permutation m n -> keys_distinct m -> keys_distinct n /\
       forall y, lookup keqb y m = lookup keqb y n).
    { intros m0 n0 P; induction P as [|[k v] l l' P IH|[k v] [k' v'] l|l l' l'' P1 IH1 P2 IH2]; simpl.
      - auto.
      - intros [A B]. destruct (IH B) as [C D]. split; [split; auto; now rewrite <- D|].
        intros y; destruct (keqb y k); auto.
      - intros [A [B C]]. destruct (keqb k' k) eqn:Q; [discriminate|].
        rewrite (proj1 (proj2 E)) in Q. rewrite Q. repeat split; auto.
        intros y. destruct (keqb y k) eqn:Y1, (keqb y k') eqn:Y2; auto.
        rewrite (eqv_cong y k k' Y1) in Y2. congruence.
      - intros A. destruct (IH1 A) as [B C]. destruct (IH2 B) as [D F]. split; auto.
        intros y. now rewrite C, F. }
    intros A P. apply (KD m n P A).
  Qed.
End AssocFacts.

Lemma str_eqb_equiv : eq_equiv str_eqb.
Proof.
  split; [apply str_eqb_refl|split].
  - intros x y. destruct (str_eqb x y) eqn:A; symmetry.
    + apply str_eqb_eq in A; subst. apply str_eqb_refl.
    + apply str_eqb_neq. apply str_eqb_neq in A. auto.
  - intros x y z A B. apply str_eqb_eq in A, B; subst. apply str_eqb_refl.
Qed.

Lemma spanned_eqb_equiv {A} (eqb : A -> A -> bool) : eq_equiv eqb -> eq_equiv (spanned_eqb eqb).
Proof.
  intros (R & S & T). unfold spanned_eqb. split; [auto|split; auto].
  intros x y z. apply T.
Qed.

Lemma mem_true {A} (eqb : A -> A -> bool) x l :
  mem eqb x l = true <-> exists y, In y l /\ eqb x y = true.
Proof.
  induction l as [|y l IH]; simpl.
  - split; [discriminate|]. intros (y & [] & _).
  - rewrite orb_true_iff, IH. split.
    + intros [H|(z & I & H)]; eauto.
    + intros (z & [->|I] & H); eauto.
Qed.
