(** * Facts about [Decimal] *)
From Coq Require Import List NArith ZArith QArith Qabs Qfield Arith Bool Lia.
From Verif Require Import Base Types Decimal SpecDecimal.
Import ListNotations.
Local Open Scope Z_scope.

Lemma ten_eq : forall n, ten n = 10 ^ Z.of_nat n.
Proof.
  intro n. unfold ten, pow10. rewrite N2Z.inj_pow. rewrite nat_N_Z. reflexivity.
Qed.

Lemma ten_pos : forall n, 0 < ten n.
Proof. intro n. rewrite ten_eq. apply Z.pow_pos_nonneg; lia. Qed.

Lemma ten_add : forall a b, ten (a + b) = ten a * ten b.
Proof. intros. rewrite !ten_eq, Nat2Z.inj_add, Z.pow_add_r by lia. reflexivity. Qed.

Lemma ten_pow_eq : forall n, ten_pow n = inject_Z (ten n).
Proof. intro. unfold ten_pow. rewrite ten_eq. reflexivity. Qed.

Lemma dec_value_eq : forall d, dec_value d = (inject_Z (dec_signed d) / inject_Z (ten (dec_scale d)))%Q.
Proof. intro d. unfold dec_value. rewrite ten_pow_eq. reflexivity. Qed.

Lemma inject_pos : forall z, 0 < z -> ~ (inject_Z z == 0)%Q.
Proof. intros z H E. unfold Qeq, inject_Z in E. simpl in E. lia. Qed.

Lemma dec_signed_of_signed : forall z k, dec_signed (of_signed z k) = z.
Proof.
  intros. unfold dec_signed, of_signed. simpl. rewrite N2Z.inj_abs_N.
  destruct (Z.ltb_spec z 0); lia.
Qed.

Lemma dec_signed_abs : forall d, Z.abs_N (dec_signed d) = dec_mant d.
Proof. intro d. unfold dec_signed. destruct (dec_neg d); lia. Qed.

(** [p / q = r / s], on integers. *)
Lemma quot_eq : forall p q r s, 0 < q -> 0 < s ->
  ((inject_Z p / inject_Z q == inject_Z r / inject_Z s)%Q <-> p * s = r * q).
Proof.
  intros p q r s Hq Hs.
  assert (Nq : ~ (inject_Z q == 0)%Q) by (apply inject_pos; assumption).
  assert (Ns : ~ (inject_Z s == 0)%Q) by (apply inject_pos; assumption).
  split; intro H.
  - assert (E : (inject_Z p * inject_Z s == inject_Z r * inject_Z q)%Q).
    { setoid_replace (inject_Z p * inject_Z s)%Q
        with ((inject_Z p / inject_Z q) * inject_Z q * inject_Z s)%Q by (field; assumption).
      rewrite H. field. assumption. }
    rewrite <- !inject_Z_mult in E. unfold Qeq, inject_Z in E. simpl in E. lia.
  - assert (E : (inject_Z p * inject_Z s == inject_Z r * inject_Z q)%Q).
    { rewrite <- !inject_Z_mult. rewrite H. reflexivity. }
    setoid_replace (inject_Z p / inject_Z q)%Q
      with ((inject_Z p * inject_Z s) / (inject_Z q * inject_Z s))%Q by (field; split; assumption).
    rewrite E. field. split; assumption.
Qed.

Lemma round_div_exact : forall z d, 0 < d -> round_div (z * d) d = z.
Proof.
  intros z d Hd. unfold round_div.
  rewrite Z.abs_mul, (Z.abs_eq d) by lia.
  replace (2 * (Z.abs z * d) + d) with (d + Z.abs z * (2 * d)) by ring.
  rewrite Z.div_add by lia. rewrite (Z.div_small d) by lia.
  rewrite Z.sgn_mul, (Z.sgn_pos d Hd). rewrite Z.mul_1_r, Z.add_0_l.
  apply Z.mul_comm || idtac. rewrite Z.mul_comm. apply Z.abs_sgn.
Qed.

Lemma round_div_spec : forall n d, 0 < d ->
  2 * Z.abs (round_div n d * d - n) <= d /\
  (2 * Z.abs (round_div n d * d - n) = d -> Z.abs n <= Z.abs (round_div n d) * d).
Proof.
  intros n d Hd. unfold round_div.
  pose proof (Z.div_mod (2 * Z.abs n + d) (2 * d) ltac:(lia)) as E.
  pose proof (Z.mod_pos_bound (2 * Z.abs n + d) (2 * d) ltac:(lia)) as B.
  set (k := (2 * Z.abs n + d) / (2 * d)) in *.
  assert (Hk : 0 <= k) by (apply Z.div_pos; lia).
  destruct (Z.lt_trichotomy n 0) as [H|[H|H]].
  - rewrite (Z.sgn_neg n H). rewrite (Z.abs_neq n) in * by lia.
    replace (-1 * k) with (- k) by ring. rewrite (Z.abs_opp k), (Z.abs_eq k Hk).
    split; [|intro]; nia.
  - subst n. simpl Z.sgn. rewrite Z.mul_0_l. simpl Z.abs. split; [|intro]; nia.
  - rewrite (Z.sgn_pos n H). rewrite (Z.abs_eq n) in * by lia. rewrite Z.mul_1_l, (Z.abs_eq k Hk).
    split; [|intro]; nia.
Qed.

Lemma inject_abs : forall z, Qabs (inject_Z z) = inject_Z (Z.abs z).
Proof. reflexivity. Qed.

Lemma nearest_ratio : forall n d z, 0 < d ->
  2 * Z.abs (z * d - n) <= d ->
  (2 * Z.abs (z * d - n) = d -> Z.abs n <= Z.abs z * d) ->
  nearest (inject_Z n / inject_Z d)%Q z.
Proof.
  intros n d z Hd H1 H2.
  assert (Nd : ~ (inject_Z d == 0)%Q) by (apply inject_pos; assumption).
  assert (Pd : (0 < inject_Z d)%Q) by (unfold Qlt, inject_Z; simpl; lia).
  assert (A : (Qabs (inject_Z z - inject_Z n / inject_Z d) == inject_Z (Z.abs (z * d - n)) / inject_Z d)%Q).
  { setoid_replace (inject_Z z - inject_Z n / inject_Z d)%Q
      with (inject_Z (z * d - n) / inject_Z d)%Q.
    2: { unfold Z.sub. rewrite inject_Z_plus, inject_Z_mult, inject_Z_opp. field. assumption. }
    unfold Qdiv. rewrite Qabs_Qmult, inject_abs, (Qabs_pos (/ inject_Z d)); [reflexivity|].
    apply Qlt_le_weak. apply Qinv_lt_0_compat. assumption. }
  assert (Half : (1 # 2 == inject_Z 1 / inject_Z 2)%Q) by reflexivity.
  split.
  - rewrite A. apply Qle_shift_div_r; [assumption|].
    unfold Qle, Qmult, inject_Z. cbn [Qnum Qden]. lia.
  - intro E. rewrite A, Half in E. apply (proj1 (quot_eq (Z.abs (z * d - n)) d 1 2 ltac:(lia) ltac:(lia))) in E.
    unfold Qdiv. rewrite Qabs_Qmult, !inject_abs, (Qabs_pos (/ inject_Z d)).
    2: { apply Qlt_le_weak. apply Qinv_lt_0_compat. assumption. }
    apply Qle_shift_div_r; [assumption|].
    rewrite <- inject_Z_mult. rewrite <- Zle_Qle. apply H2. lia.
Qed.

Lemma nearest_wd : forall p q z, (p == q)%Q -> nearest p z -> nearest q z.
Proof. intros p q z E [A B]. unfold nearest. rewrite <- !E. split; assumption. Qed.

Lemma nearest_round_div : forall n d, 0 < d -> nearest (inject_Z n / inject_Z d)%Q (round_div n d).
Proof. intros n d Hd. destruct (round_div_spec n d Hd). apply nearest_ratio; assumption. Qed.

(** ** [fit] *)

Lemma fit_result : forall n d k r, fit n d k = Fine r ->
  exists j, (j <= k)%nat /\ r = of_signed (round_div (n * ten j) d) j /\
    (Z.abs_N (round_div (n * ten j) d) < max_mant)%N.
Proof.
  intros n d k r. induction k as [|k IH]; cbn [fit]; fold (ten 0) || idtac.
  - change (Z.of_N (pow10 0)) with (ten 0).
    destruct (N.ltb_spec (Z.abs_N (round_div (n * ten 0) d)) max_mant) as [L|L]; intro H; [|discriminate].
    exists 0%nat. inversion H. repeat split; auto.
  - change (Z.of_N (pow10 (S k))) with (ten (S k)).
    destruct (N.ltb_spec (Z.abs_N (round_div (n * ten (S k)) d)) max_mant) as [L|L]; intro H.
    + exists (S k). inversion H. repeat split; auto.
    + destruct (IH H) as [j [A B]]. exists j. split; [lia|assumption].
Qed.

Lemma fit_exact : forall n d z j k, 0 < d -> n * ten j = z * d -> (Z.abs_N z < max_mant)%N -> (j <= k)%nat ->
  exists i, (j <= i <= k)%nat /\ fit n d k = Fine (of_signed (z * ten (i - j)) i).
Proof.
  intros n d z j k Hd E L. induction k as [|k IH]; intro Hk.
  - assert (j = 0%nat) by lia. subst j. exists 0%nat. split; [lia|]. cbn [fit].
    change (Z.of_N (pow10 0)) with (ten 0). rewrite E, round_div_exact by assumption.
    destruct (N.ltb_spec (Z.abs_N z) max_mant); [|lia].
    change (ten (0 - 0)) with 1. rewrite Z.mul_1_r. reflexivity.
  - cbn [fit]. change (Z.of_N (pow10 (S k))) with (ten (S k)).
    assert (X : n * ten (S k) = z * ten (S k - j) * d).
    { replace (S k) with (j + (S k - j))%nat at 1 by lia. rewrite ten_add.
      rewrite Z.mul_assoc, E. ring. }
    rewrite X, round_div_exact by assumption.
    destruct (N.ltb_spec (Z.abs_N (z * ten (S k - j))) max_mant) as [F|F].
    + exists (S k). split; [lia|reflexivity].
    + destruct (Nat.eq_dec j (S k)) as [->|].
      * rewrite Nat.sub_diag in F. change (ten 0) with 1 in F. rewrite Z.mul_1_r in F. lia.
      * destruct (IH ltac:(lia)) as [i [A B]]. exists i. split; [lia|assumption].
Qed.

Lemma of_signed_valid : forall z k, (Z.abs_N z < max_mant)%N -> (k <= 28)%nat -> dec_valid (of_signed z k).
Proof. intros. split; simpl; assumption. Qed.

Lemma fit_valid : forall n d r, fit n d max_scale = Fine r -> dec_valid r.
Proof.
  intros n d r H. apply fit_result in H. destruct H as [j [A [-> B]]].
  apply of_signed_valid; assumption.
Qed.

Lemma fit_representable : forall n d, 0 < d -> representable (inject_Z n / inject_Z d)%Q ->
  exists r, fit n d max_scale = Fine r /\ (dec_value r == inject_Z n / inject_Z d)%Q.
Proof.
  intros n d Hd [x [[V1 V2] E]]. rewrite dec_value_eq in E.
  apply (proj1 (quot_eq (dec_signed x) (ten (dec_scale x)) n d (ten_pos _) Hd)) in E.
  destruct (fit_exact n d (dec_signed x) (dec_scale x) max_scale Hd) as [i [A B]].
  - lia.
  - rewrite dec_signed_abs. exact V1.
  - exact V2.
  - exists (of_signed (dec_signed x * ten (i - dec_scale x)) i). split; [exact B|].
    rewrite dec_value_eq, dec_signed_of_signed. apply quot_eq; [apply ten_pos|assumption|].
    simpl. replace i with (dec_scale x + (i - dec_scale x))%nat at 2 by lia. rewrite ten_add.
    transitivity (dec_signed x * d * ten (i - dec_scale x)); [ring|]. rewrite E. ring.
Qed.

Lemma representable_wd : forall p q, (p == q)%Q -> representable p -> representable q.
Proof. intros p q E [d [V H]]. exists d. split; [exact V|]. rewrite H. exact E. Qed.

Lemma fit_op_exact : forall n d q, 0 < d -> (inject_Z n / inject_Z d == q)%Q -> representable q ->
  exists r, fit n d max_scale = Fine r /\ (dec_value r == q)%Q.
Proof.
  intros n d q Hd E R. destruct (fit_representable n d Hd) as [r [A B]].
  - eapply representable_wd; [symmetry; exact E|exact R].
  - exists r. split; [exact A|]. rewrite B. exact E.
Qed.

Lemma ten_inject_nonzero : forall n, ~ (inject_Z (ten n) == 0)%Q.
Proof. intro. apply inject_pos, ten_pos. Qed.
Global Hint Resolve ten_inject_nonzero : core.

Lemma dec_value_zero : forall d, (dec_value d == 0)%Q <-> dec_mant d = 0%N.
Proof.
  intro d. rewrite dec_value_eq.
  setoid_replace 0%Q with (inject_Z 0 / inject_Z 1)%Q by reflexivity.
  rewrite quot_eq by (try apply ten_pos; lia).
  rewrite <- (dec_signed_abs d). lia.
Qed.

Lemma rescale_ok : forall a s, dec_valid a -> (s <= 28)%nat ->
  let r := op_rescale exact_ops a s in
  dec_valid r /\ (dec_scale r <= s)%nat /\ rounds_to (dec_value a) s (dec_value r).
Proof.
  intros a s [V1 V2] Hs. cbn [op_rescale exact_ops].
  destruct (le_lt_dec (dec_scale a) s) as [L|L].
  - destruct (fit_exact (dec_signed a) (ten (dec_scale a)) (dec_signed a) (dec_scale a) s) as [i [Hi E]].
    + apply ten_pos.
    + reflexivity.
    + rewrite dec_signed_abs. exact V1.
    + exact L.
    + rewrite E. pose proof (fit_result _ _ _ _ E) as [j [J1 [J2 J3]]].
      inversion J2 as [[J4 J5 J6]]. subst j.
      assert (Val : (dec_value (of_signed (dec_signed a * ten (i - dec_scale a)) i) == dec_value a)%Q).
      { rewrite !dec_value_eq, dec_signed_of_signed. apply quot_eq; try apply ten_pos. simpl.
        replace i with (dec_scale a + (i - dec_scale a))%nat at 2 by lia. rewrite ten_add. ring. }
      split; [|split].
      * split; [|simpl; lia]. cbn [of_signed dec_mant]. rewrite J5. exact J3.
      * simpl. lia.
      * exists (dec_signed a * ten (s - dec_scale a)). rewrite Val. split.
        -- eapply nearest_wd with (p := (inject_Z (dec_signed a * ten (s - dec_scale a)) / inject_Z 1)%Q).
           ++ rewrite dec_value_eq, ten_pow_eq.
              replace s with (dec_scale a + (s - dec_scale a))%nat at 2 by lia. rewrite ten_add, !inject_Z_mult.
              field. auto.
           ++ apply nearest_ratio; [lia| |]; lia.
        -- rewrite dec_value_eq, ten_pow_eq. apply quot_eq; try apply ten_pos.
           replace s with (dec_scale a + (s - dec_scale a))%nat at 1 by lia. rewrite ten_add. ring.
  - set (z := round_div (dec_signed a * ten s) (ten (dec_scale a))).
    assert (F : fit (dec_signed a) (ten (dec_scale a)) s = Fine (of_signed z s)).
    { assert (Lz : (Z.abs_N z < max_mant)%N).
      { destruct (round_div_spec (dec_signed a * ten s) (ten (dec_scale a)) (ten_pos _)) as [B _]. fold z in B.
        assert (X : ten (dec_scale a) = ten s * ten (dec_scale a - s)).
        { rewrite <- ten_add. f_equal. lia. }
        assert (T : 10 <= ten (dec_scale a - s)).
        { replace (dec_scale a - s)%nat with (1 + (dec_scale a - s - 1))%nat by lia. rewrite ten_add.
          pose proof (ten_pos (dec_scale a - s - 1)). change (ten 1) with 10. lia. }
        pose proof (ten_pos s) as Ps.
        assert (V : Z.abs (dec_signed a) < Z.of_N max_mant).
        { unfold max_mant. rewrite <- N2Z.inj_abs_N, dec_signed_abs. apply N2Z.inj_lt. exact V1. }
        assert (W : Z.abs z <= Z.abs (dec_signed a)).
        { destruct (Z.eq_dec (dec_signed a) 0) as [Z0|Z0].
          - rewrite Z0 in *. rewrite Z.mul_0_l, Z.sub_0_r, Z.abs_mul, (Z.abs_eq (ten (dec_scale a))) in B by lia.
            destruct (Z.eq_dec z 0); [lia|]. exfalso. pose proof (ten_pos (dec_scale a)). nia.
          - assert (Z.abs (z * ten (dec_scale a)) <= Z.abs (dec_signed a * ten s) + Z.abs (z * ten (dec_scale a) - dec_signed a * ten s)) as T1 by lia.
            rewrite !Z.abs_mul, (Z.abs_eq (ten s)), (Z.abs_eq (ten (dec_scale a))) in T1 by (pose proof (ten_pos (dec_scale a)); lia).
            set (Y := Z.abs (z * ten (dec_scale a) - dec_signed a * ten s)) in *.
            pose proof (ten_pos (dec_scale a)).
            assert (10 * ten s <= ten (dec_scale a)) by nia.
            assert (M1 : 1 <= Z.abs (dec_signed a)) by lia.
            assert (Z.abs z * ten (dec_scale a) * 10 <= Z.abs (dec_signed a) * ten (dec_scale a) + 5 * ten (dec_scale a)) by nia.
            assert (Z.abs z * 10 <= Z.abs (dec_signed a) + 5) by nia. lia. }
        unfold max_mant in *. rewrite <- (N2Z.id (Z.abs_N z)) . apply N2Z.inj_lt. rewrite N2Z.id, N2Z.inj_abs_N. lia. }
      apply N.ltb_lt in Lz.
      destruct s; cbn [fit]; [change (Z.of_N (pow10 0)) with (ten 0)|change (Z.of_N (pow10 (S s))) with (ten (S s))];
        fold z; rewrite Lz; reflexivity. }
    rewrite F. pose proof (fit_result _ _ _ _ F) as [j [J1 [J2 J3]]].
    inversion J2 as [[J4 J5 J6]]. subst j.
    split; [|split].
    + split; [|simpl; lia]. cbn [of_signed dec_mant]. exact J3.
    + simpl. lia.
    + exists z. split.
      * eapply nearest_wd with (p := (inject_Z (dec_signed a * ten s) / inject_Z (ten (dec_scale a)))%Q).
        -- rewrite dec_value_eq, ten_pow_eq, inject_Z_mult. field. auto.
        -- apply nearest_round_div, ten_pos.
      * rewrite dec_value_eq, ten_pow_eq, dec_signed_of_signed. reflexivity.
Qed.

(** The contract has an instance. *)
Lemma exact_ops_ok : dec_ops_ok exact_ops.
Proof.
  constructor.
  - constructor.
    + intros a b Va Vb _ R. apply fit_op_exact; [apply ten_pos| |exact R].
      rewrite !dec_value_eq, ten_add, inject_Z_plus, !inject_Z_mult. field. auto.
    + intros a b r _ _ H. eapply fit_valid; exact H.
    + intros a b _ _ H. exfalso. apply H. exact Logic.I.
  - constructor.
    + intros a b Va Vb _ R. apply fit_op_exact; [apply ten_pos| |exact R].
      rewrite !dec_value_eq, ten_add. unfold Z.sub. rewrite inject_Z_plus, inject_Z_opp, !inject_Z_mult. field. auto.
    + intros a b r _ _ H. eapply fit_valid; exact H.
    + intros a b _ _ H. exfalso. apply H. exact Logic.I.
  - constructor.
    + intros a b Va Vb _ R. apply fit_op_exact; [apply ten_pos| |exact R].
      rewrite !dec_value_eq, ten_add, !inject_Z_mult. field. auto.
    + intros a b r _ _ H. eapply fit_valid; exact H.
    + intros a b _ _ H. exfalso. apply H. exact Logic.I.
  - constructor.
    + intros a b Va Vb D R. cbn [op_div exact_ops].
      destruct (N.eqb_spec (dec_mant b) 0) as [Z0|Z0].
      { exfalso. apply D. apply dec_value_zero. exact Z0. }
      assert (Nz : dec_signed b <> 0) by (rewrite <- dec_signed_abs in Z0; lia).
      apply fit_op_exact; [pose proof (ten_pos (dec_scale a)); nia| |exact R].
      rewrite !dec_value_eq.
      destruct (Z.lt_trichotomy (dec_signed b) 0) as [H|[H|H]]; [|contradiction|].
      * rewrite (Z.sgn_neg _ H), (Z.abs_neq (dec_signed b)) by lia.
        rewrite !inject_Z_mult, inject_Z_opp. change (inject_Z (-1)) with (- (1))%Q. field.
        split; [auto|split; [auto|]]. intro E. unfold Qeq, inject_Z in E. simpl in E. lia.
      * rewrite (Z.sgn_pos _ H), (Z.abs_eq (dec_signed b)) by lia.
        rewrite !inject_Z_mult. change (inject_Z 1) with 1%Q. field.
        split; [auto|split; [auto|]]. intro E. unfold Qeq, inject_Z in E. simpl in E. lia.
    + intros a b r _ _. cbn [op_div exact_ops]. destruct (dec_mant b =? 0)%N; [discriminate|]. apply fit_valid.
    + intros a b _ _ H. cbn [op_div exact_ops]. destruct (N.eqb_spec (dec_mant b) 0) as [Z0|Z0]; [reflexivity|].
      exfalso. apply H. intro E. apply Z0. apply dec_value_zero. exact E.
  - intros a [V1 V2]. split; [split; assumption|]. rewrite !dec_value_eq. cbn [op_neg exact_ops dec_scale].
    replace (dec_signed (mk_dec (negb (dec_neg a)) (dec_mant a) (dec_scale a))) with (- dec_signed a).
    2: { unfold dec_signed. simpl. destruct (dec_neg a); simpl; lia. }
    rewrite inject_Z_opp. field. auto.
  - intros a s V Hs. apply rescale_ok; assumption.
Qed.
