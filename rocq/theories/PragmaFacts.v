(** * Facts about the pragma pass *)
From Coq Require Import String Ascii.
From Coq Require Import List NArith ZArith Arith Bool Lia ZifyBool ZifyN Permutation.
From Verif Require Import Base BaseFacts Path PathFacts Sources Types SpecTypes TypesFacts Options SpecOptions OptionsFacts Pragma SpecPragma.
Import ListNotations.
Local Open Scope nat_scope.

(** ** Equality tests *)

Lemma span_eqb_eq a b : span_eqb a b = true <-> a = b.
Proof.
  unfold span_eqb. rewrite !andb_true_iff, !Nat.eqb_eq. destruct a, b; simpl. split; [intros [[-> ->] ->]; auto|].
  intros H; inversion H; auto.
Qed.

Lemma pow10_Z n : Z.of_N (pow10 n) = (10 ^ Z.of_nat n)%Z.
Proof. unfold pow10. rewrite N2Z.inj_pow. now rewrite nat_N_Z. Qed.

Lemma dec_eqb_spec a b : dec_eqb a b = true <-> same_number a b.
Proof. unfold dec_eqb, same_number. now rewrite Z.eqb_eq, !pow10_Z. Qed.

Lemma expr_eqb_spec a b : expr_eqb a b = true <-> same_expr a b.
Proof.
  revert b; induction a as [x|a1 IH1 a2 IH2|a1 IH1 a2 IH2|a1 IH1 a2 IH2|a1 IH1 a2 IH2|a IH|a IH];
    intros [y|b1 b2|b1 b2|b1 b2|b1 b2|b|b]; simpl;
    try (split; [discriminate|intros H; inversion H]; fail).
  - rewrite dec_eqb_spec. split; [now constructor|now inversion 1].
  - rewrite andb_true_iff, IH1, IH2. split; [intros [? ?]; now constructor|now inversion 1].
  - rewrite andb_true_iff, IH1, IH2. split; [intros [? ?]; now constructor|now inversion 1].
  - rewrite andb_true_iff, IH1, IH2. split; [intros [? ?]; now constructor|now inversion 1].
  - rewrite andb_true_iff, IH1, IH2. split; [intros [? ?]; now constructor|now inversion 1].
  - rewrite IH. split; [now constructor|now inversion 1].
  - rewrite IH. split; [now constructor|now inversion 1].
Qed.

Lemma ev_eqb_spec a b : ev_eqb a b = true <-> same_expr_value a b.
Proof. unfold ev_eqb, same_expr_value. now rewrite andb_true_iff, dec_eqb_spec, expr_eqb_spec. Qed.

Lemma date_eqb_eq a b : date_eqb a b = true <-> a = b.
Proof.
  unfold date_eqb, date_compare. destruct a as [y m d], b as [y' m' d']; simpl.
  destruct (N.compare_spec y y') as [E|E|E]; [|split; [discriminate|intros H; inversion H; lia]..].
  destruct (N.compare_spec m m') as [F|F|F]; [|split; [discriminate|intros H; inversion H; lia]..].
  destruct (N.compare_spec d d') as [G|G|G]; [|split; [discriminate|intros H; inversion H; lia]..].
  subst. tauto.
Qed.

Lemma meta_value_eqb_spec a b : meta_value_eqb a b = true <-> same_meta_value a b.
Proof.
  destruct a as [v|[[n s1] [c s2]]], b as [w|[[n' s3] [c' s4]]]; simpl;
    try (split; [discriminate|intros H; inversion H]; fail).
  - assert (REFL : forall v w, (forall x, v <> SV_Expr x) -> (v = w <-> same_meta_value (MV_Simple v) (MV_Simple w))).
    { intros v0 w0 N. split; [intros <-; now constructor|]. intros H; inversion H; subst; auto. now destruct (N x). }
    destruct v, w; simpl; try (split; [discriminate|intros H; inversion H]; fail);
      try (rewrite <- REFL by discriminate).
    + rewrite str_eqb_eq. split; congruence.
    + rewrite str_eqb_eq. split; congruence.
    + unfold account_eqb. rewrite andb_true_iff, account_type_eqb_eq, str_eqb_eq.
      destruct a, a0; simpl. split; [intros [-> ->]; auto|intros H; inversion H; auto].
    + rewrite str_eqb_eq. split; congruence.
    + rewrite str_eqb_eq. split; congruence.
    + rewrite date_eqb_eq. split; congruence.
    + rewrite eqb_true_iff. split; congruence.
    + tauto.
    + rewrite ev_eqb_spec. split; [now constructor|]. intros H; inversion H as [| |? N]; subst; auto. now destruct (N e0).
  - unfold amount_eqb, spanned_eqb; simpl. rewrite andb_true_iff, ev_eqb_spec, str_eqb_eq. split.
    + intros [A ->]. now constructor.
    + intros H; inversion H; subst; auto.
Qed.

Lemma list_eqb_spec {A} (eqb : A -> A -> bool) (R : A -> A -> Prop) a b :
  (forall x y, eqb x y = true <-> R x y) -> list_eqb eqb a b = true <-> Forall2 R a b.
Proof.
  intros H. revert b; induction a as [|x a IH]; intros [|y b]; simpl.
  - split; auto.
  - split; [discriminate|intros Q; inversion Q].
  - split; [discriminate|intros Q; inversion Q].
  - rewrite andb_true_iff, H, IH. split; [intros [? ?]; constructor; auto|]. intros Q; inversion Q; auto.
Qed.

Lemma Forall2_rev_iff {A B} (R : A -> B -> Prop) a b : Forall2 R (rev a) (rev b) <-> Forall2 R a b.
Proof.
  assert (H : forall a b, Forall2 R a b -> Forall2 R (rev a) (rev b)).
  { induction 1; simpl; auto. apply Forall2_app; auto. }
  split; auto. intros Q. apply H in Q. now rewrite !rev_involutive in Q.
Qed.

Lemma map_eqb_spec {K V} (keqb : K -> K -> bool) (veqb : V -> V -> bool) a b :
  eq_equiv keqb -> keys_distinct keqb a -> keys_distinct keqb b ->
  map_eqb keqb veqb a b = true <->
  forall k, match lookup keqb k a, lookup keqb k b with
            | None, None => True
            | Some v, Some w => veqb v w = true
            | _, _ => False
            end.
Proof.
  intros E. unfold map_eqb. rewrite andb_true_iff, Nat.eqb_eq.
  revert b; induction a as [|[k v] a IH]; intros b DA DB.
  - simpl. split.
    + intros [L _] k. destruct b; [auto|discriminate].
    + intros H. split; auto. destruct b as [|[k v] b]; auto. specialize (H k). simpl in H. now rewrite (proj1 E) in H.
  - simpl in DA. destruct DA as [NK DA]. simpl forallb. rewrite andb_true_iff. split.
    + intros (L & A & F) x. simpl.
      destruct (lookup keqb k b) as [w|] eqn:LB; [|discriminate].
      destruct (remove_key_split keqb E k w b DB LB) as (k' & b1 & b2 & -> & RM & EK).
      assert (IH' := proj1 (IH (remove_key keqb k (b1 ++ (k', w) :: b2)) DA (keys_distinct_remove keqb E k _ DB))).
      assert (forall x, match lookup keqb x a with Some v => match lookup keqb x (remove_key keqb k (b1 ++ (k', w) :: b2)) with Some w => veqb v w = true | None => False end
         | None => match lookup keqb x (remove_key keqb k (b1 ++ (k', w) :: b2)) with Some _ => False | None => True end end) as G.
      { apply IH'. split.
        - rewrite RM. rewrite app_length in *. simpl in L. lia.
        - apply forallb_forall. intros [x' v'] I. rewrite forallb_forall in F. specialize (F _ I). simpl in F.
          rewrite lookup_remove by auto. destruct (keqb x' k) eqn:XK; auto.
          exfalso. assert (Q := proj1 (lookup_None keqb k a) NK x' v' I).
          rewrite (proj1 (proj2 E)) in XK. congruence. }
      specialize (G x). rewrite lookup_remove in G by auto.
      destruct (keqb x k) eqn:XK.
      * rewrite (lookup_cong keqb E x k) by auto. now rewrite LB.
      * exact G.
    + intros H. assert (HK := H k). simpl in HK. rewrite (proj1 E) in HK.
      destruct (lookup keqb k b) as [w|] eqn:LB; [|tauto].
      destruct (remove_key_split keqb E k w b DB LB) as (k' & b1 & b2 & -> & RM & EK).
      assert (Q := proj2 (IH (remove_key keqb k (b1 ++ (k', w) :: b2)) DA (keys_distinct_remove keqb E k _ DB))).
      destruct Q as [L F].
      { intros x. specialize (H x). simpl in H. rewrite lookup_remove by auto.
        destruct (keqb x k) eqn:XK; auto.
        assert (lookup keqb x a = None) as -> by (rewrite (lookup_cong keqb E x k) by auto; auto). auto. }
      split; [|split].
      * rewrite RM in L. rewrite app_length in *. simpl in *. lia.
      * auto.
      * apply forallb_forall. intros [x v'] I. rewrite forallb_forall in F. specialize (F _ I). simpl in F.
        rewrite lookup_remove in F by auto. now destruct (keqb x k).
Qed.

(** ** The tables of pushes *)

Lemma ss_equiv : eq_equiv spanned_str_eqb.
Proof. apply spanned_eqb_equiv, str_eqb_equiv. Qed.
Lemma ss_true (a b : spanned (list N)) : spanned_str_eqb a b = true <-> item a = item b.
Proof. apply str_eqb_eq. Qed.
Lemma ss_false (a b : spanned (list N)) : spanned_str_eqb a b = false <-> item a <> item b.
Proof. apply str_eqb_neq. Qed.

Lemma tag_stack_snoc t seen e : tag_stack t (seen ++ [e]) = tag_effect t (tag_stack t seen) e.
Proof. unfold tag_stack. now rewrite fold_left_app. Qed.
Lemma meta_stack_snoc t seen e : meta_stack t (seen ++ [e]) = meta_effect t (meta_stack t seen) e.
Proof. unfold meta_stack. now rewrite fold_left_app. Qed.

(** What the tables contain, in terms of the stacks. *)
Definition tags_agree (m : tag_map) (stack : list N -> list (spanned (list N))) : Prop :=
  keys_distinct spanned_str_eqb m /\
  (forall k others, In (k, others) m ->
     stack (item k) = rev (k :: others) /\ Forall (fun x => item x = item k) others) /\
  (forall k, lookup spanned_str_eqb k m = None -> stack (item k) = []).

Definition metas_agree (m : meta_map) (stack : list N -> list (span * spanned meta_value)) : Prop :=
  keys_distinct spanned_str_eqb m /\
  (forall k values, In (k, values) m ->
     stack (item k) = rev values /\ exists v rest, values = (span_of k, v) :: rest) /\
  (forall k, lookup spanned_str_eqb k m = None -> stack (item k) = []).

Lemma In_replace {K V} (keqb : K -> K -> bool) (E : eq_equiv keqb) k v (m : list (K * V)) x w :
  keys_distinct keqb m -> In (x, w) (replace_val keqb k v m) ->
  (keqb k x = true /\ w = v /\ exists w0, In (x, w0) m) \/ (keqb k x = false /\ In (x, w) m).
Proof.
  induction m as [|[k' v'] m IH]; simpl; [tauto|]. intros [N D].
  destruct (keqb k k') eqn:Q; simpl; intros [I|I].
  - inversion I; subst. left. eauto.
  - right. split; auto. assert (X := proj1 (lookup_None keqb k' m) N x w I).
    rewrite (eqv_cong keqb E k k') by auto. exact X.
  - inversion I; subst. right. auto.
  - destruct (IH D I) as [(A & B & w0 & C)|[A B]]; [left; eauto|right; auto].
Qed.

Lemma In_remove {K V} (keqb : K -> K -> bool) k (m : list (K * V)) x w :
  In (x, w) (remove_key keqb k m) <-> keqb k x = false /\ In (x, w) m.
Proof.
  induction m as [|[k' v'] m IH]; simpl; [tauto|].
  destruct (keqb k k') eqn:Q; simpl.
  - rewrite IH. split; [intros [A B]; auto|]. intros [A [B|B]]; [inversion B; subst; congruence|auto].
  - rewrite IH. split; [intros [A|[A B]]; [inversion A; subst; auto|auto]|]. intros [A [B|B]]; auto.
Qed.

Lemma rev_snoc_cons {A} (x : A) l y : rev (x :: l ++ [y]) = y :: rev (x :: l).
Proof. simpl. now rewrite rev_app_distr. Qed.

Lemma push_tag_agree t m stack :
  tags_agree m stack ->
  tags_agree (push_tag t m) (fun x => if str_eqb (item t) x then t :: stack x else stack x).
Proof.
  intros (D & I & N). unfold push_tag.
  destruct (lookup spanned_str_eqb t m) as [others|] eqn:L.
  - split; [apply keys_distinct_replace; auto using ss_equiv|]. split.
    + intros k os H. apply (In_replace _ ss_equiv) in H; auto.
      destruct H as [(A & -> & w0 & H)|[A H]].
      * apply ss_true in A. rewrite A, str_eqb_refl.
        assert (w0 = others) as ->.
        { assert (Q := keys_distinct_lookup spanned_str_eqb ss_equiv _ _ _ D H).
          rewrite (lookup_cong _ ss_equiv t k) in L by now apply ss_true. congruence. }
        destruct (I _ _ H) as [S1 S2]. rewrite S1, rev_snoc_cons. split; auto.
        apply Forall_app. split; auto.
      * apply ss_false in A. destruct (str_eqb (item t) (item k)) eqn:Q; [apply str_eqb_eq in Q; tauto|]. auto.
    + intros k. rewrite lookup_replace by apply ss_equiv.
      destruct (spanned_str_eqb k t) eqn:Q; [now rewrite L|]. intros H.
      apply ss_false in Q. destruct (str_eqb (item t) (item k)) eqn:R; [apply str_eqb_eq in R; congruence|]. auto.
  - unfold insert. rewrite L. split; [now apply keys_distinct_snoc; auto using ss_equiv|]. split.
    + intros k os H. apply in_app_iff in H as [H|[H|[]]].
      * assert (Q := proj1 (lookup_None _ t m) L k os H). apply ss_false in Q.
        destruct (str_eqb (item t) (item k)) eqn:R; [apply str_eqb_eq in R; congruence|]. auto.
      * inversion H; subst. rewrite str_eqb_refl, N by auto. auto.
    + intros k. rewrite lookup_app. destruct (lookup spanned_str_eqb k m) eqn:Q; [discriminate|]. simpl.
      destruct (spanned_str_eqb k t) eqn:R; [discriminate|]. intros _. apply ss_false in R.
      destruct (str_eqb (item t) (item k)) eqn:R2; [apply str_eqb_eq in R2; congruence|]. auto.
Qed.

Lemma removelast_snoc {A} (l : list A) x : removelast (l ++ [x]) = l.
Proof. rewrite removelast_app by discriminate. simpl. apply app_nil_r. Qed.

Lemma pop_tag_agree t m stack :
  tags_agree m stack ->
  match pop_tag t m with
  | Some m' => stack (item t) <> [] /\ tags_agree m' (fun x => if str_eqb (item t) x then tl (stack x) else stack x)
  | None => stack (item t) = []
  end.
Proof.
  intros (D & I & N). unfold pop_tag.
  destruct (lookup spanned_str_eqb t m) as [others|] eqn:L; [|now apply N].
  destruct (lookup_In _ _ _ _ L) as (k0 & I0 & E0). apply ss_true in E0.
  destruct (I _ _ I0) as [S0 F0]. rewrite <- E0 in S0.
  destruct others as [|o others].
  - split; [rewrite S0; discriminate|]. split; [apply keys_distinct_remove; auto using ss_equiv|]. split.
    + intros k os H. apply In_remove in H as [A H]. apply ss_false in A.
      destruct (str_eqb (item t) (item k)) eqn:Q; [apply str_eqb_eq in Q; tauto|]. auto.
    + intros k. rewrite lookup_remove by apply ss_equiv. destruct (spanned_str_eqb k t) eqn:Q.
      * apply ss_true in Q. intros _. rewrite Q, str_eqb_refl, S0. reflexivity.
      * apply ss_false in Q. intros H. destruct (str_eqb (item t) (item k)) eqn:R; [apply str_eqb_eq in R; congruence|]. auto.
  - split; [rewrite S0; simpl; intros X; now apply app_eq_nil in X as [X _]; apply app_eq_nil in X as [_ X]|].
    split; [apply keys_distinct_replace; auto using ss_equiv|]. split.
    + intros k os H. apply (In_replace _ ss_equiv) in H; auto.
      destruct H as [(A & -> & w0 & H)|[A H]].
      * apply ss_true in A. rewrite A, str_eqb_refl.
        assert (w0 = o :: others) as ->.
        { assert (Q := keys_distinct_lookup spanned_str_eqb ss_equiv _ _ _ D H).
          rewrite (lookup_cong _ ss_equiv t k) in L by now apply ss_true. congruence. }
        destruct (I _ _ H) as [S1 S2].
        destruct (@exists_last _ (o :: others)) as (l & z & Z); [discriminate|].
        rewrite Z in *. rewrite removelast_snoc. rewrite S1, rev_snoc_cons. split; auto.
        now apply Forall_app in S2.
      * apply ss_false in A. destruct (str_eqb (item t) (item k)) eqn:Q; [apply str_eqb_eq in Q; tauto|]. auto.
    + intros k. rewrite lookup_replace by apply ss_equiv.
      destruct (spanned_str_eqb k t) eqn:Q; [now rewrite L|]. intros H.
      apply ss_false in Q. destruct (str_eqb (item t) (item k)) eqn:R; [apply str_eqb_eq in R; congruence|]. auto.
Qed.

Lemma push_meta_agree kv m stack :
  metas_agree m stack ->
  metas_agree (push_meta kv m)
    (fun x => if str_eqb (item (mkv_key kv)) x then (span_of (mkv_key kv), mkv_value kv) :: stack x else stack x).
Proof.
  intros (D & I & N). unfold push_meta. destruct kv as [t v0]; simpl.
  destruct (lookup spanned_str_eqb t m) as [values|] eqn:L.
  - split; [apply keys_distinct_replace; auto using ss_equiv|]. split.
    + intros k os H. apply (In_replace _ ss_equiv) in H; auto.
      destruct H as [(A & -> & w0 & H)|[A H]].
      * apply ss_true in A. rewrite A, str_eqb_refl.
        assert (w0 = values) as ->.
        { assert (Q := keys_distinct_lookup spanned_str_eqb ss_equiv _ _ _ D H).
          rewrite (lookup_cong _ ss_equiv t k) in L by now apply ss_true. congruence. }
        destruct (I _ _ H) as (S1 & v & rest & S2). rewrite S1. rewrite rev_app_distr. split; auto.
        exists v, (rest ++ [(span_of t, v0)]). now rewrite S2.
      * apply ss_false in A. destruct (str_eqb (item t) (item k)) eqn:Q; [apply str_eqb_eq in Q; tauto|]. auto.
    + intros k. rewrite lookup_replace by apply ss_equiv.
      destruct (spanned_str_eqb k t) eqn:Q; [now rewrite L|]. intros H.
      apply ss_false in Q. destruct (str_eqb (item t) (item k)) eqn:R; [apply str_eqb_eq in R; congruence|]. auto.
  - unfold insert. rewrite L. split; [now apply keys_distinct_snoc; auto using ss_equiv|]. split.
    + intros k os H. apply in_app_iff in H as [H|[H|[]]].
      * assert (Q := proj1 (lookup_None _ t m) L k os H). apply ss_false in Q.
        destruct (str_eqb (item t) (item k)) eqn:R; [apply str_eqb_eq in R; congruence|]. auto.
      * inversion H; subst. rewrite str_eqb_refl, N by auto. simpl. split; eauto.
    + intros k. rewrite lookup_app. destruct (lookup spanned_str_eqb k m) eqn:Q; [discriminate|]. simpl.
      destruct (spanned_str_eqb k t) eqn:R; [discriminate|]. intros _. apply ss_false in R.
      destruct (str_eqb (item t) (item k)) eqn:R2; [apply str_eqb_eq in R2; congruence|]. auto.
Qed.

Lemma pop_meta_agree t m stack :
  metas_agree m stack ->
  match pop_meta t m with
  | Some m' => stack (item t) <> [] /\ metas_agree m' (fun x => if str_eqb (item t) x then tl (stack x) else stack x)
  | None => stack (item t) = []
  end.
Proof.
  intros (D & I & N). unfold pop_meta.
  destruct (lookup spanned_str_eqb t m) as [values|] eqn:L; [|now apply N].
  destruct (lookup_In _ _ _ _ L) as (k0 & I0 & E0). apply ss_true in E0.
  destruct (I _ _ I0) as (S0 & v0 & r0 & F0). rewrite <- E0 in S0.
  destruct (@exists_last _ values) as (l & z & Z); [rewrite F0; discriminate|].
  rewrite Z in *. rewrite removelast_snoc. rewrite rev_app_distr in S0. simpl in S0.
  destruct l as [|y l].
  - split; [rewrite S0; discriminate|]. split; [apply keys_distinct_remove; auto using ss_equiv|]. split.
    + intros k os H. apply In_remove in H as [A H]. apply ss_false in A.
      destruct (str_eqb (item t) (item k)) eqn:Q; [apply str_eqb_eq in Q; tauto|]. auto.
    + intros k. rewrite lookup_remove by apply ss_equiv. destruct (spanned_str_eqb k t) eqn:Q.
      * apply ss_true in Q. intros _. rewrite Q, str_eqb_refl, S0. reflexivity.
      * apply ss_false in Q. intros H. destruct (str_eqb (item t) (item k)) eqn:R; [apply str_eqb_eq in R; congruence|]. auto.
  - split; [rewrite S0; discriminate|].
    split; [apply keys_distinct_replace; auto using ss_equiv|]. split.
    + intros k os H. apply (In_replace _ ss_equiv) in H; auto.
      destruct H as [(A & -> & w0 & H)|[A H]].
      * apply ss_true in A. rewrite A, str_eqb_refl.
        assert (w0 = (y :: l) ++ [z]) as ->.
        { assert (Q := keys_distinct_lookup spanned_str_eqb ss_equiv _ _ _ D H).
          rewrite (lookup_cong _ ss_equiv t k) in L by now apply ss_true. congruence. }
        destruct (I _ _ H) as (S1 & v & r & S2). rewrite S1, rev_app_distr. split; auto.
        simpl in S2. inversion S2; subst. eauto.
      * apply ss_false in A. destruct (str_eqb (item t) (item k)) eqn:Q; [apply str_eqb_eq in Q; tauto|]. auto.
    + intros k. rewrite lookup_replace by apply ss_equiv.
      destruct (spanned_str_eqb k t) eqn:Q; [now rewrite L|]. intros H.
      apply ss_false in Q. destruct (str_eqb (item t) (item k)) eqn:R; [apply str_eqb_eq in R; congruence|]. auto.
Qed.

Lemma tags_agree_ext m f g : (forall x, f x = g x) -> tags_agree m f -> tags_agree m g.
Proof.
  intros H (A & B & C). split; auto. split.
  - intros k o I. rewrite <- H. now apply B.
  - intros k L. rewrite <- H. now apply C.
Qed.
Lemma metas_agree_ext m f g : (forall x, f x = g x) -> metas_agree m f -> metas_agree m g.
Proof.
  intros H (A & B & C). split; auto. split.
  - intros k o I. rewrite <- H. now apply B.
  - intros k L. rewrite <- H. now apply C.
Qed.

(** ** Comparing contexts *)

Lemma tags_eqb_spec m n f g : tags_agree m f -> tags_agree n g ->
  tags_eqb m n = true <-> forall t, List.length (f t) = List.length (g t).
Proof.
  intros (D & I & NO) (D' & I' & NO').
  assert (LB : forall a b : list (spanned (list N)), forall t, Forall (fun x => item x = t) a -> Forall (fun x => item x = t) b ->
     (list_eqb spanned_str_eqb a b = true <-> List.length a = List.length b)).
  { intros a b t FA. revert b; induction FA as [|x a X FA IH]; intros b FB; destruct FB as [|y b Y FB]; simpl; try (split; [discriminate|discriminate]).
    - tauto.
    - rewrite andb_true_iff, ss_true, IH by auto. split; [intros [_ ->]; auto|]. intros H. split; [congruence|lia]. }
  unfold tags_eqb. rewrite map_eqb_spec by auto using ss_equiv. split.
  - intros H t. specialize (H (mk_spanned t (mk_span 0 0 0))).
    destruct (lookup spanned_str_eqb _ m) as [a|] eqn:A, (lookup spanned_str_eqb _ n) as [b|] eqn:B; try tauto.
    + apply lookup_In in A as (ka & A & Ka), B as (kb & B & Kb). apply ss_true in Ka, Kb. simpl in Ka, Kb.
      destruct (I _ _ A) as [S F], (I' _ _ B) as [S' F']. rewrite <- Ka in S, F. rewrite <- Kb in S', F'.
      rewrite S, S'. rewrite !rev_length. simpl. f_equal. apply (LB a b t); auto.
    + apply NO in A. apply NO' in B. simpl in A, B. now rewrite A, B.
  - intros H k.
    destruct (lookup spanned_str_eqb k m) as [a|] eqn:A, (lookup spanned_str_eqb k n) as [b|] eqn:B; auto.
    + apply lookup_In in A as (ka & A & Ka), B as (kb & B & Kb). apply ss_true in Ka, Kb.
      destruct (I _ _ A) as [S F], (I' _ _ B) as [S' F']. rewrite <- Ka in S, F. rewrite <- Kb in S', F'.
      apply (LB a b (item k)); auto. specialize (H (item k)). rewrite S, S', !rev_length in H. simpl in H. lia.
    + apply lookup_In in A as (ka & A & Ka). apply ss_true in Ka. destruct (I _ _ A) as [S F].
      specialize (H (item k)). rewrite (NO' _ B) in H. rewrite Ka, S, rev_length in H. discriminate.
    + apply lookup_In in B as (kb & B & Kb). apply ss_true in Kb. destruct (I' _ _ B) as [S F].
      specialize (H (item k)). rewrite (NO _ A) in H. rewrite Kb, S, rev_length in H. discriminate.
Qed.

Lemma metas_eqb_spec m n f g : metas_agree m f -> metas_agree n g ->
  metas_eqb m n = true <->
  forall k, Forall2 (fun x y => fst x = fst y /\ same_meta_value (item (snd x)) (item (snd y))) (f k) (g k).
Proof.
  intros (D & I & NO) (D' & I' & NO').
  assert (LB : forall a b, list_eqb (fun a b => span_eqb (fst a) (fst b) && spanned_eqb meta_value_eqb (snd a) (snd b)) a b = true <->
     Forall2 (fun x y : span * spanned meta_value => fst x = fst y /\ same_meta_value (item (snd x)) (item (snd y))) a b).
  { intros a b. apply list_eqb_spec. intros x y. rewrite andb_true_iff, span_eqb_eq. unfold spanned_eqb. now rewrite meta_value_eqb_spec. }
  unfold metas_eqb. rewrite map_eqb_spec by auto using ss_equiv. split.
  - intros H t. specialize (H (mk_spanned t (mk_span 0 0 0))).
    destruct (lookup spanned_str_eqb _ m) as [a|] eqn:A, (lookup spanned_str_eqb _ n) as [b|] eqn:B; try tauto.
    + apply lookup_In in A as (ka & A & Ka), B as (kb & B & Kb). apply ss_true in Ka, Kb. simpl in Ka, Kb.
      destruct (I _ _ A) as [S F], (I' _ _ B) as [S' F']. rewrite <- Ka in S. rewrite <- Kb in S'.
      rewrite S, S'. now rewrite Forall2_rev_iff, <- LB.
    + apply NO in A. apply NO' in B. simpl in A, B. rewrite A, B. constructor.
  - intros H k.
    destruct (lookup spanned_str_eqb k m) as [a|] eqn:A, (lookup spanned_str_eqb k n) as [b|] eqn:B; auto.
    + apply lookup_In in A as (ka & A & Ka), B as (kb & B & Kb). apply ss_true in Ka, Kb.
      destruct (I _ _ A) as [S F], (I' _ _ B) as [S' F']. apply LB. rewrite <- Forall2_rev_iff, <- S, <- S', <- Ka, <- Kb. apply H.
    + apply lookup_In in A as (ka & A & Ka). apply ss_true in Ka. destruct (I _ _ A) as (S & v & r & F).
      specialize (H (item k)). rewrite (NO' _ B) in H. rewrite Ka, S, F in H. inversion H as [X|].
      simpl in X. destruct (rev r); discriminate.
    + apply lookup_In in B as (kb & B & Kb). apply ss_true in Kb. destruct (I' _ _ B) as (S & v & r & F).
      specialize (H (item k)). rewrite (NO _ A) in H. rewrite Kb, S, F in H. inversion H as [X|].
      simpl in X. destruct (rev r); discriminate.
Qed.

(** ** Augmenting a directive *)

Lemma augment_tags_eq m : forall md,
  keys_distinct spanned_str_eqb m ->
  (forall k others, In (k, others) m -> Forall (fun x => item x = item k) others) ->
  augment_tags md m =
  mk_metadata (md_key_values md)
    (md_tags md ++ map (fun e => last (snd e) (fst e))
       (filter (fun e => negb (mem spanned_str_eqb (fst e) (md_tags md))) m))
    (md_links md).
Proof.
  unfold augment_tags. induction m as [|[k others] m IH]; intros md D F; simpl.
  - rewrite app_nil_r. now destruct md.
  - destruct D as [N D]. destruct (mem spanned_str_eqb k (md_tags md)) eqn:M; simpl.
    + rewrite IH; auto. intros; eapply F; simpl; eauto.
    + rewrite IH; auto; [|intros; eapply F; simpl; eauto]. simpl. rewrite <- app_assoc. simpl. do 4 f_equal.
      apply filter_ext_in. intros [k' o'] I. f_equal. simpl.
      assert (IT : item (last others k) = item k).
      { assert (FO : Forall (fun x => item x = item k) others) by (apply (F k others); simpl; auto).
        clear -FO. destruct (@exists_last _ (k :: others)) as (l & z & Z); [discriminate|].
        destruct others as [|o others]; [reflexivity|].
        assert (In (last (o :: others) k) (o :: others)).
        { destruct (@exists_last _ (o :: others)) as (l' & z' & Z'); [discriminate|]. rewrite Z', last_last. apply in_app_iff; simpl; auto. }
        rewrite Forall_forall in FO. auto. }
      assert (NE : spanned_str_eqb k' k = false).
      { assert (Q := proj1 (lookup_None _ k m) N k' o' I). apply ss_false in Q. apply ss_false. congruence. }
      clear -NE IT. induction (md_tags md) as [|x l IHl]; simpl.
      * apply ss_false in NE. destruct (spanned_str_eqb k' (last others k)) eqn:Q; auto. apply ss_true in Q. congruence.
      * now rewrite IHl.
Qed.

Lemma mem_item (k : spanned (list N)) l : mem spanned_str_eqb k l = true <-> In (item k) (map item l).
Proof.
  rewrite mem_true, in_map_iff. split.
  - intros (y & I & E). apply ss_true in E. eauto.
  - intros (y & E & I). exists y. split; auto. now apply ss_true.
Qed.

Lemma lookup_item {V} (k : spanned (list N)) (l : list (spanned (list N) * V)) :
  lookup spanned_str_eqb k l = None <-> ~ In (item k) (map (fun e => item (fst e)) l).
Proof.
  rewrite lookup_None, in_map_iff. split.
  - intros H ([k' v] & E & I). apply H in I. apply ss_false in I. simpl in E. congruence.
  - intros H k' v I. apply ss_false. intros E. apply H. exists (k', v). auto.
Qed.

Lemma last_hd {A} (l : list A) d : hd_error (rev (d :: l)) = Some (last l d).
Proof.
  destruct l as [|x l]; [reflexivity|].
  destruct (@exists_last _ (x :: l)) as (l' & z & Z); [discriminate|]. rewrite Z.
  rewrite last_last. simpl. rewrite rev_app_distr. reflexivity.
Qed.

Lemma augment_key_values_eq m : forall md,
  keys_distinct spanned_str_eqb m ->
  (forall k values, In (k, values) m -> values <> []) ->
  augment_key_values md m =
  Fine (mk_metadata
    (md_key_values md ++
     map (fun e => match rev (snd e) with
                   | (sp, v) :: _ => (mk_spanned (item (fst e)) sp, v)
                   | [] => (fst e, mk_spanned (MV_Simple SV_Null) (mk_span 0 0 0))
                   end)
       (filter (fun e => match lookup spanned_str_eqb (fst e) (md_key_values md) with Some _ => false | None => true end) m))
    (md_tags md) (md_links md)).
Proof.
  unfold augment_key_values. induction m as [|[k values] m IH]; intros md D F.
  - simpl. rewrite app_nil_r. now destruct md.
  - simpl in D. destruct D as [N D]. cbn [fold_left filter fst snd].
    set (F0 := fold_left _ m). 
    assert (A : augment_key_value md (k, values) = augment_key_value md (k, values)) by reflexivity.
    unfold augment_key_value at 2 in A. rewrite A. clear A. subst F0.
    destruct (lookup spanned_str_eqb k (md_key_values md)) as [v|] eqn:L.
    + rewrite IH; auto. intros; eapply F; simpl; eauto.
    + destruct (rev values) as [|[sp v] r] eqn:R.
      { exfalso. apply (F k values); simpl; auto. rewrite <- (rev_involutive values), R. reflexivity. }
      rewrite IH; auto; [|intros; eapply F; simpl; eauto]. cbn [md_key_values md_tags md_links].
      assert (IN : insert spanned_str_eqb (mk_spanned (item k) sp) v (md_key_values md) = md_key_values md ++ [(mk_spanned (item k) sp, v)]).
      { unfold insert. rewrite (lookup_cong _ ss_equiv _ k) by now apply ss_true. now rewrite L. }
      rewrite IN. cbn [map fst snd]. rewrite R, <- app_assoc. simpl. do 5 f_equal.
      apply filter_ext_in. intros [k' o'] I. simpl. rewrite lookup_app.
      destruct (lookup spanned_str_eqb k' (md_key_values md)); auto. simpl.
      assert (Q := proj1 (lookup_None _ k m) N k' o' I). apply ss_false in Q.
      destruct (spanned_str_eqb k' (mk_spanned (item k) sp)) eqn:X; auto. apply ss_true in X. simpl in X. congruence.
Qed.

Lemma keys_distinct_NoDup {V} (m : list (spanned (list N) * V)) :
  keys_distinct spanned_str_eqb m <-> NoDup (map (fun e => item (fst e)) m).
Proof.
  induction m as [|[k v] m IH]; simpl.
  - split; auto. constructor.
  - rewrite lookup_item, IH. split; [intros [A B]; constructor; auto|]. intros H; inversion H; auto.
Qed.

Lemma NoDup_filter_map {A B} (f : A -> B) (p : A -> bool) l : NoDup (map f l) -> NoDup (map f (filter p l)).
Proof.
  induction l as [|x l IH]; simpl; auto. intros H; inversion H; subst.
  destruct (p x); auto. simpl. constructor; auto.
  intros I. apply H2. apply in_map_iff in I as (y & E & I). apply filter_In in I as [I _]. apply in_map_iff. eauto.
Qed.

Lemma NoDup_app_intro {A} (l1 l2 : list A) : NoDup l1 -> NoDup l2 -> (forall x, In x l1 -> ~ In x l2) -> NoDup (l1 ++ l2).
Proof.
  induction l1 as [|x l1 IH]; simpl; auto. intros H H2 H3. inversion H; subst. constructor.
  - rewrite in_app_iff. intros [I|I]; auto. apply (H3 x); auto.
  - apply IH; auto.
Qed.

Lemma do_directive_spec seen s d :
  tags_agree (pp_tags s) (fun t => tag_stack t seen) ->
  metas_agree (pp_meta s) (fun k => meta_stack k seen) ->
  exists d', do_directive s d = Fine d' /\ augmented seen d d'.
Proof.
  intros (TD & TI & TN) (MD & MI & MN). unfold do_directive.
  rewrite augment_tags_eq; auto; [|intros k o I; now apply TI].
  rewrite augment_key_values_eq; auto; [|intros k v I; destruct (MI _ _ I) as (_ & x & r & ->); discriminate].
  eexists. split; [reflexivity|].
  assert (IT : forall k others, In (k, others) (pp_tags s) -> item (last others k) = item k).
  { intros k others I. destruct (TI _ _ I) as [_ F]. destruct others as [|o others]; [reflexivity|].
    assert (In (last (o :: others) k) (o :: others)).
    { destruct (@exists_last _ (o :: others)) as (l' & z' & Z'); [discriminate|]. rewrite Z', last_last. apply in_app_iff; simpl; auto. }
    rewrite Forall_forall in F. auto. }
  constructor; simpl; auto.
  - intros t. rewrite in_app_iff, in_map_iff. split.
    + intros [H|([k others] & E & I)]; auto. right. apply filter_In in I as [I M]. simpl in E, M.
      assert (IE := IT _ _ I). rewrite E in IE. split.
      * intros X. rewrite IE in X. apply mem_item in X. now rewrite X in M.
      * rewrite IE. rewrite (proj1 (TI _ _ I)). rewrite last_hd. congruence.
    + intros [H|[H1 H2]]; auto. right.
      destruct (lookup spanned_str_eqb t (pp_tags s)) as [others|] eqn:L.
      * apply lookup_In in L as (k & I & E). apply ss_true in E. exists (k, others). simpl.
        assert (Q := proj1 (TI _ _ I)). rewrite <- E in Q. rewrite Q, last_hd in H2. split; [congruence|].
        apply filter_In. split; auto. simpl. destruct (mem spanned_str_eqb k (md_tags (item (dir_metadata d)))) eqn:M; auto.
        apply mem_item in M. rewrite <- E in M. tauto.
      * rewrite (TN _ L) in H2. discriminate.
  - intros k v. rewrite in_app_iff, in_map_iff. split.
    + intros [H|([k' values] & E & I)]; auto. right. apply filter_In in I as [I M]. simpl in E, M.
      destruct (MI _ _ I) as (S1 & x & r & S2).
      destruct (rev values) as [|[sp v'] r'] eqn:R; [rewrite S2 in R; simpl in R; now apply app_eq_nil in R as [_ R]|].
      inversion E; subst k v'. simpl. split.
      * destruct (lookup spanned_str_eqb k' (md_key_values (item (dir_metadata d)))) eqn:Q; [discriminate|]. now apply lookup_item in Q.
      * rewrite S1. reflexivity.
    + intros [H|[H1 H2]]; auto. right.
      destruct (lookup spanned_str_eqb k (pp_meta s)) as [values|] eqn:L.
      * apply lookup_In in L as (k' & I & E). apply ss_true in E. exists (k', values). simpl.
        destruct (MI _ _ I) as (S1 & x & r & S2). rewrite <- E in S1. rewrite S1 in H2.
        destruct (rev values) as [|[sp v'] r']; [discriminate|]. simpl in H2. injection H2 as -> ->.
        rewrite <- E. split; [now destruct k|]. apply filter_In. split; auto. simpl.
        rewrite E in H1. apply lookup_item in H1. now rewrite H1.
      * rewrite (MN _ L) in H2. discriminate.
  - intros ND. rewrite map_app. apply NoDup_app_intro; auto.
    + rewrite map_map. rewrite (map_ext_in _ (fun e => item (fst e))).
      * apply NoDup_filter_map. now apply keys_distinct_NoDup.
      * intros [k o] I. apply filter_In in I as [I _]. simpl. auto.
    + intros x I1 I2. rewrite map_map in I2. apply in_map_iff in I2 as ([k o] & E & I2). apply filter_In in I2 as [I2 M].
      simpl in *. rewrite IT in E by auto. subst x. apply mem_item in I1. now rewrite I1 in M.
  - intros ND. rewrite map_app. apply NoDup_app_intro; auto.
    + rewrite map_map. rewrite (map_ext_in _ (fun e => item (fst e))).
      * apply NoDup_filter_map. now apply keys_distinct_NoDup.
      * intros [k o] I. simpl. destruct (rev o) as [|[? ?] ?]; reflexivity.
    + intros x I1 I2. rewrite map_map in I2. apply in_map_iff in I2 as ([k o] & E & I2). apply filter_In in I2 as [I2 M].
      simpl in *. assert (x = item k) as -> by (destruct (rev o) as [|[? ?] ?]; auto).
      destruct (lookup spanned_str_eqb k (md_key_values (item (dir_metadata d)))) eqn:Q; [discriminate|].
      apply lookup_item in Q. tauto.
Qed.
