(** * Facts about the bucket sort *)
From Coq Require Import List NArith Arith Bool Lia Permutation Sorted.
From Verif Require Import Base BaseFacts Types SortM SpecSort.
Import ListNotations.
Local Open Scope nat_scope.

(** The laws of a Rust [Ord] whose equality is Leibniz equality. *)
Definition cmp_laws {K} (cmp : K -> K -> comparison) : Prop :=
  (forall x y, cmp x y = Eq <-> x = y) /\
  (forall x y, cmp y x = CompOpp (cmp x y)) /\
  (forall x y z, cmp x y = Lt -> cmp y z = Lt -> cmp x z = Lt).

Section Facts.
  Context {K V : Type} (cmp : K -> K -> comparison) (keyfn : V -> K).
  Hypothesis C : cmp_laws cmp.

  Let eqb (x y : K) : bool := match cmp x y with Eq => true | _ => false end.

  Lemma eqb_true x y : eqb x y = true <-> x = y.
  Proof. unfold eqb. destruct C as (E & _). rewrite <- E. destruct (cmp x y); split; congruence. Qed.

  Lemma cmp_refl x : cmp x x = Eq.
  Proof. now apply C. Qed.

  (** Strictly ascending keys, all above [lo] when given. *)
  Definition ascending (b : list (K * list V)) : Prop := StronglySorted (fun x y => cmp (fst x) (fst y) = Lt) b.

  Definition homogeneous (b : list (K * list V)) : Prop :=
    forall k vs, In (k, vs) b -> vs <> [] /\ forall x, In x vs -> keyfn x = k.

  Definition bucket (k : K) (b : list (K * list V)) : list V :=
    match bt_get cmp k b with Some vs => vs | None => [] end.

  Lemma bt_insert_in k (vs : list V) b k' vs' :
    In (k', vs') (bt_insert cmp k vs b) -> (k' = k /\ vs' = vs) \/ (In (k', vs') b).
  Proof.
    induction b as [|[k0 v0] b IH]; simpl.
    - intros [H|[]]. injection H as <- <-. auto.
    - destruct (cmp k k0) eqn:E; simpl.
      + intros [H|H]; [|auto]. injection H as <- <-. apply C in E as ->. auto.
      + intros [H|H]; [injection H as <- <-; auto|auto].
      + intros [H|H]; [auto|]. apply IH in H. tauto.
  Qed.

  Lemma bt_insert_ascending k (vs : list V) b : ascending b -> ascending (bt_insert cmp k vs b).
  Proof.
    unfold ascending. induction b as [|[k0 v0] b IH]; simpl; intros A.
    - constructor; constructor.
    - inversion A as [|? ? A1 A2]; subst. destruct (cmp k k0) eqn:E.
      + constructor; auto.
      + constructor; auto. constructor; auto. revert A2. apply Forall_impl. intros [k1 v1]; simpl.
        intros; eapply C; eauto.
      + constructor; auto. apply Forall_forall. intros [k1 v1] I. apply bt_insert_in in I as [[-> ->]|I]; simpl.
        * destruct C as (_ & O & _). rewrite O, E. reflexivity.
        * rewrite Forall_forall in A2. now apply A2 in I.
  Qed.

  Lemma bt_get_insert k (vs : list V) b k' : ascending b ->
    bt_get cmp k' (bt_insert cmp k vs b) = if eqb k' k then Some vs else bt_get cmp k' b.
  Proof.
    unfold ascending, eqb. destruct C as (E & O & T).
    induction b as [|[k0 v0] b IH]; simpl; intros A.
    - destruct (cmp k' k); auto.
    - inversion A as [|? ? A1 A2]; subst. destruct (cmp k k0) eqn:E0; simpl.
      + apply E in E0 as ->. destruct (cmp k' k0); auto.
      + destruct (cmp k' k) eqn:E1; auto.
        * rewrite (T k' k k0 E1 E0). reflexivity.
      + rewrite IH; auto. destruct (cmp k' k0) eqn:E1; auto.
        * destruct (cmp k' k) eqn:E2; auto. apply E in E1 as ->. apply E in E2 as ->. rewrite (proj2 (E k k) eq_refl) in E0; discriminate.
        * destruct (cmp k' k) eqn:E2; auto. apply E in E2 as ->. congruence.
  Qed.

  Lemma push_item_spec b x : ascending b -> homogeneous b ->
    exists b', push_item cmp keyfn b x = Fine b' /\ ascending b' /\ homogeneous b' /\
      forall k, bucket k b' = bucket k b ++ (if eqb (keyfn x) k then [x] else []).
  Proof.
    intros A H. unfold push_item.
    assert (R : eqb (keyfn x) (keyfn x) = true) by now apply eqb_true.
    assert (G : forall b1, ascending b1 -> (forall k vs, In (k, vs) b1 -> vs = [] \/ exists vs', In (k, vs') b /\ vs = vs') ->
      True) by auto.
    clear G.
    assert (KEY : forall k, eqb k (keyfn x) = eqb (keyfn x) k).
    { intros k. unfold eqb. destruct C as (_ & O & _). rewrite (O (keyfn x) k). destruct (cmp (keyfn x) k); auto. }
    destruct (bt_get cmp (keyfn x) b) as [bk|] eqn:G.
    - eexists. split; [reflexivity|]. split; [now apply bt_insert_ascending|]. split.
      + intros k vs I. apply bt_insert_in in I as [[-> ->]|I]; [|auto].
        split; [destruct bk; discriminate|]. intros y Iy. apply in_app_iff in Iy as [Iy|[<-|[]]]; auto.
        assert (exists k0, In (k0, bk) b /\ cmp (keyfn x) k0 = Eq) as (k0 & I0 & E0).
        { clear - G. induction b as [|[k0 v0] b IH]; simpl in *; [discriminate|].
          destruct (cmp (keyfn x) k0) eqn:E; [|discriminate|].
          - injection G as ->. eauto.
          - destruct (IH G) as (k1 & I1 & E1). eauto. }
        apply C in E0 as <-. now apply (H _ _ I0).
      + intros k. unfold bucket. rewrite bt_get_insert, KEY by auto.
        destruct (eqb (keyfn x) k) eqn:E.
        * apply eqb_true in E as <-. now rewrite G.
        * now rewrite app_nil_r.
    - rewrite bt_get_insert by auto. rewrite R. eexists. split; [reflexivity|].
      split; [now apply bt_insert_ascending, bt_insert_ascending|].
      assert (SAME : bt_insert cmp (keyfn x) ([] ++ [x]) (bt_insert cmp (keyfn x) [] b) = bt_insert cmp (keyfn x) [x] b).
      { clear - C. induction b as [|[k0 v0] b IH]; simpl.
        - now rewrite cmp_refl.
        - destruct (cmp (keyfn x) k0) eqn:E; simpl; rewrite ?cmp_refl, ?E; auto. simpl in IH. now rewrite IH. }
      rewrite SAME. split.
      + intros k vs I. apply bt_insert_in in I as [[-> ->]|I]; [|auto].
        split; [discriminate|]. now intros y [<-|[]].
      + intros k. unfold bucket. rewrite bt_get_insert, KEY by auto.
        destruct (eqb (keyfn x) k) eqn:E.
        * apply eqb_true in E as <-. now rewrite G.
        * now rewrite app_nil_r.
  Qed.

  Lemma push_items_spec l b : ascending b -> homogeneous b ->
    exists b', push_items cmp keyfn b l = Fine b' /\ ascending b' /\ homogeneous b' /\
      forall k, bucket k b' = bucket k b ++ filter (fun x => eqb (keyfn x) k) l.
  Proof.
    revert b; induction l as [|x l IH]; intros b A H; simpl.
    - exists b. split; auto. split; auto. split; auto. intros k. now rewrite app_nil_r.
    - destruct (push_item_spec b x A H) as (b1 & -> & A1 & H1 & E1).
      destruct (IH b1 A1 H1) as (b2 & -> & A2 & H2 & E2).
      exists b2. split; auto. split; auto. split; auto. intros k. rewrite E2, E1, <- app_assoc. f_equal.
      destruct (eqb (keyfn x) k); reflexivity.
  Qed.

  (** Draining the iterator. *)
  Definition remaining (s : sort) : list V :=
    match head_bucket s with Some vs => vs | None => [] end ++ concat (map snd (@tail_buckets K V s)).

  Lemma sort_collect_spec fuel s :
    (forall k vs, In (k, vs) (tail_buckets s) -> vs <> []) -> List.length (remaining s) < fuel ->
    sort_collect fuel s = Some (remaining s).
  Proof.
    revert s; induction fuel as [|f IH]; intros [h b] NE L; [simpl in L; lia|].
    cbn [sort_collect]. unfold sort_next, remaining in *. cbn [head_bucket tail_buckets] in *.
    destruct h as [[|x vs]|].
    - destruct b as [|[k vs] b]; simpl; auto.
      assert (vs <> []) as N0 by (apply (NE k); simpl; auto). destruct vs as [|x vs]; [congruence|].
      simpl in *. rewrite IH; simpl; [reflexivity| |].
      + intros; eapply NE; eauto.
      + simpl in *; lia.
    - simpl. rewrite IH; simpl; [reflexivity| |].
      + auto.
      + simpl in *; lia.
    - destruct b as [|[k vs] b]; simpl; auto.
      assert (vs <> []) as N0 by (apply (NE k); simpl; auto). destruct vs as [|x vs]; [congruence|].
      simpl in *. rewrite IH; simpl; [reflexivity| |].
      + intros; eapply NE; eauto.
      + simpl in *; lia.
  Qed.

  Lemma filter_concat_bucket k b : ascending b -> homogeneous b ->
    filter (fun x => eqb (keyfn x) k) (concat (map snd b)) = bucket k b.
  Proof.
    assert (NONE : forall b0, homogeneous b0 -> (forall k0 vs, In (k0, vs) b0 -> k0 <> k) ->
      filter (fun x => eqb (keyfn x) k) (concat (map snd b0)) = []).
    { induction b0 as [|[k0 v0] b0 IH]; simpl; intros H D; auto.
      rewrite filter_app, IH; [|intros ? ? I; apply (H _ _ (or_intror I))|intros ? ? I; eapply D; right; eauto].
      rewrite app_nil_r. assert (D0 : k0 <> k) by (eapply D; left; reflexivity).
      assert (H0 : forall x, In x v0 -> keyfn x = k0) by (apply H; left; reflexivity).
      clear - H0 D0 C. induction v0 as [|x v0 IHv]; simpl; auto.
      destruct (eqb (keyfn x) k) eqn:E; [|apply IHv; intros; apply H0; simpl; auto].
      apply eqb_true in E. rewrite (H0 x) in E; [congruence|simpl; auto]. }
    unfold bucket, ascending. induction b as [|[k0 v0] b IH]; simpl; intros A H; auto.
    inversion A as [|? ? A1 A2]; subst. rewrite Forall_forall in A2.
    assert (H' : homogeneous b) by (intros ? ? I; apply (H _ _ (or_intror I))).
    assert (H0 : forall x, In x v0 -> keyfn x = k0) by (apply H; left; reflexivity).
    rewrite filter_app. destruct (cmp k k0) eqn:E.
    - apply C in E as ->. rewrite NONE; auto.
      + rewrite app_nil_r. clear - H0 C. induction v0 as [|x v0 IHv]; simpl; auto.
        rewrite (proj2 (eqb_true _ _)) by (apply H0; simpl; auto). f_equal. apply IHv. intros; apply H0; simpl; auto.
      + intros k1 vs I ->. apply A2 in I. simpl in I. rewrite cmp_refl in I. discriminate.
    - rewrite NONE; auto.
      + rewrite app_nil_r. clear - H0 E C. induction v0 as [|x v0 IHv]; simpl; auto.
        destruct (eqb (keyfn x) k) eqn:E1; [|apply IHv; intros; apply H0; simpl; auto].
        apply eqb_true in E1. rewrite (H0 x) in E1 by (simpl; auto). subst. rewrite cmp_refl in E. discriminate.
      + intros k1 vs I ->. apply A2 in I. simpl in I. destruct C as (_ & O & _).
        rewrite O, E in I. discriminate.
    - rewrite IH; auto.
      replace (filter (fun x => eqb (keyfn x) k) v0) with (@nil V); auto.
      symmetry. clear - H0 E C. induction v0 as [|x v0 IHv]; simpl; auto.
      destruct (eqb (keyfn x) k) eqn:E1; [|apply IHv; intros; apply H0; simpl; auto].
      apply eqb_true in E1. rewrite (H0 x) in E1 by (simpl; auto). subst. rewrite cmp_refl in E. discriminate.
  Qed.

  Lemma concat_sorted b : ascending b -> homogeneous b ->
    StronglySorted (fun x y => cmp (keyfn x) (keyfn y) <> Gt) (concat (map snd b)).
  Proof.
    unfold ascending. induction b as [|[k0 v0] b IH]; simpl; intros A H; [constructor|].
    inversion A as [|? ? A1 A2]; subst. rewrite Forall_forall in A2.
    assert (H' : homogeneous b) by (intros ? ? I; apply (H _ _ (or_intror I))).
    assert (H0 : forall x, In x v0 -> keyfn x = k0) by (apply H; left; reflexivity).
    specialize (IH A1 H').
    assert (UP : forall x y, In x v0 -> In y (concat (map snd b)) -> cmp (keyfn x) (keyfn y) <> Gt).
    { intros x y Ix Iy. apply in_concat in Iy as (vs & Iv & Iy). apply in_map_iff in Iv as ([k1 v1] & <- & I1).
      rewrite (H0 x Ix). rewrite (proj2 (H' _ _ I1) y Iy). apply A2 in I1. simpl in I1. congruence. }
    clear H A A2. induction v0 as [|x v0 IHv]; simpl; auto.
    constructor.
    - apply IHv; intros; [apply H0|apply UP]; simpl; auto.
    - apply Forall_app. split; apply Forall_forall; intros y Iy.
      + rewrite (H0 x), (H0 y), cmp_refl by (simpl; auto). discriminate.
      + apply UP; simpl; auto.
  Qed.

  Lemma filter_perm (l m : list V) :
    (forall k, filter (fun x => eqb (keyfn x) k) l = filter (fun x => eqb (keyfn x) k) m) -> Permutation l m.
  Proof.
    revert m; induction l as [|x l IH]; intros m H.
    - destruct m as [|y m]; auto. specialize (H (keyfn y)). simpl in H.
      rewrite (proj2 (eqb_true _ _) eq_refl) in H. discriminate.
    - assert (I : exists a b, m = a ++ x :: b /\ filter (fun y => eqb (keyfn y) (keyfn x)) a = []).
      { specialize (H (keyfn x)). simpl in H. rewrite (proj2 (eqb_true _ _) eq_refl) in H.
        clear IH. induction m as [|y m IHm]; simpl in H; [discriminate|].
        destruct (eqb (keyfn y) (keyfn x)) eqn:E.
        - injection H as <- _. exists [], m. auto.
        - destruct (IHm H) as (a & b & -> & F). exists (y :: a), b. split; auto. simpl. now rewrite E. }
      destruct I as (a & b & -> & F). apply Permutation_cons_app. apply IH. intros k.
      specialize (H k). simpl in H. rewrite filter_app in *. simpl in H.
      destruct (eqb (keyfn x) k) eqn:E; auto.
      apply eqb_true in E as <-. rewrite F in *. now injection H.
  Qed.

  Lemma sort_list_spec l :
    exists out, sort_list cmp keyfn l = Fine (Some out) /\
      StronglySorted (fun x y => cmp (keyfn x) (keyfn y) <> Gt) out /\
      (forall k, filter (fun x => eqb (keyfn x) k) out = filter (fun x => eqb (keyfn x) k) l) /\
      Permutation out l.
  Proof.
    unfold sort_list, sort_new.
    destruct (push_items_spec l []) as (b & -> & A & H & E); [constructor|intros k vs []|].
    exists (concat (map snd b)).
    assert (F : forall k, filter (fun x => eqb (keyfn x) k) (concat (map snd b)) = filter (fun x => eqb (keyfn x) k) l).
    { intros k. rewrite filter_concat_bucket by auto. rewrite E. reflexivity. }
    assert (P : Permutation (concat (map snd b)) l) by now apply filter_perm.
    split; [|split; [now apply concat_sorted|split; auto]].
    rewrite sort_collect_spec.
    - reflexivity.
    - intros k vs I. now apply (H k vs).
    - unfold remaining; simpl. rewrite (Permutation_length P). lia.
  Qed.
End Facts.

(** ** Naturality: sorting tagged items is sorting the items *)
Section Natural.
  Context {K V W : Type} (cmp : K -> K -> comparison) (keyfn : V -> K) (f : W -> V).
  Let mapb (b : list (K * list W)) : list (K * list V) := map (fun p => (fst p, map f (snd p))) b.

  Lemma bt_get_map k b : bt_get cmp k (mapb b) = option_map (map f) (bt_get cmp k b).
  Proof. induction b as [|[k0 v0] b IH]; simpl; auto. destruct (cmp k k0); auto. Qed.
  Lemma bt_insert_map k vs b : bt_insert cmp k (map f vs) (mapb b) = mapb (bt_insert cmp k vs b).
  Proof. induction b as [|[k0 v0] b IH]; simpl; auto. destruct (cmp k k0); simpl; auto. now rewrite IH. Qed.

  Lemma push_item_map b x :
    push_item cmp keyfn (mapb b) (f x) =
    match push_item cmp (fun w => keyfn (f w)) b x with Fine b' => Fine (mapb b') | Panic => Panic end.
  Proof.
    unfold push_item. rewrite bt_get_map. destruct (bt_get cmp (keyfn (f x)) b) as [vs|]; simpl.
    - change [f x] with (map f [x]). now rewrite <- map_app, bt_insert_map.
    - change (@nil V) with (map f []) at 1. rewrite bt_insert_map, bt_get_map.
      destruct (bt_get cmp _ (bt_insert cmp _ [] b)) as [vs|] eqn:G; simpl; auto.
      change [f x] with (map f [x]). rewrite <- map_app. 
      change (@nil V) with (map f []). now rewrite !bt_insert_map.
  Qed.

  Lemma push_items_map b l :
    push_items cmp keyfn (mapb b) (map f l) =
    match push_items cmp (fun w => keyfn (f w)) b l with Fine b' => Fine (mapb b') | Panic => Panic end.
  Proof.
    revert b; induction l as [|x l IH]; intros b; simpl; auto.
    rewrite push_item_map. destruct (push_item cmp _ b x); auto.
  Qed.

  Lemma sort_collect_map fuel h b :
    sort_collect fuel (mk_sort (option_map (map f) h) (mapb b)) = option_map (map f) (sort_collect fuel (mk_sort h b)).
  Proof.
    revert h b; induction fuel as [|n IH]; intros h b; simpl; auto.
    unfold sort_next; cbn [head_bucket tail_buckets].
    destruct h as [[|x vs]|]; simpl.
    - destruct b as [|[k [|x vs]] b]; simpl; auto.
      specialize (IH (Some vs) b). simpl in IH. rewrite IH. clear IH. destruct (sort_collect n _); auto.
    - specialize (IH (Some vs) b). simpl in IH. rewrite IH. clear IH. destruct (sort_collect n _); auto.
    - destruct b as [|[k [|x vs]] b]; simpl; auto.
      specialize (IH (Some vs) b). simpl in IH. rewrite IH. clear IH. destruct (sort_collect n _); auto.
  Qed.

  Lemma sort_list_map l :
    sort_list cmp keyfn (map f l) =
    match sort_list cmp (fun w => keyfn (f w)) l with
    | Fine o => Fine (option_map (map f) o)
    | Panic => Panic
    end.
  Proof.
    unfold sort_list, sort_new. pose proof (push_items_map [] l) as H. simpl in H. rewrite H.
    destruct (push_items cmp _ [] l) as [b|]; auto.
    pose proof (sort_collect_map (S (List.length l)) None b) as Q. simpl option_map in Q at 1.
    rewrite map_length. cbv iota. now rewrite <- Q.
  Qed.
End Natural.

(** ** The index formulation of stability *)

Lemma combine_seq_nth {A} (l : list A) b i p x :
  nth_error (combine (seq b (List.length l)) l) i = Some (p, x) -> p = b + i /\ nth_error l i = Some x.
Proof.
  revert b i; induction l as [|y l IH]; intros b [|i]; simpl; try discriminate.
  - intros H; injection H as <- <-. split; auto.
  - intros H. apply IH in H as [-> ->]. split; auto; lia.
Qed.

Lemma map_snd_combine {A} (l : list A) b : map snd (combine (seq b (List.length l)) l) = l.
Proof. revert b; induction l; intros; simpl; f_equal; auto. Qed.
Lemma map_fst_combine {A} (l : list A) b : map fst (combine (seq b (List.length l)) l) = seq b (List.length l).
Proof. revert b; induction l; intros; simpl; f_equal; auto. Qed.

Lemma StronglySorted_nth {A} (R : A -> A -> Prop) l i j x y :
  StronglySorted R l -> i < j -> nth_error l i = Some x -> nth_error l j = Some y -> R x y.
Proof.
  intros SS; revert i j; induction SS as [|z l SS IH F]; intros [|i] [|j] L Hi Hj; simpl in *; try discriminate; try lia.
  - injection Hi as <-. rewrite Forall_forall in F. apply F. eapply nth_error_In; eauto.
  - apply (IH i j); auto. lia.
Qed.

Lemma filter_order {A} (p : A -> bool) (m : A -> nat) l i j x y :
  StronglySorted (fun a b => m a < m b) (filter p l) ->
  i < j -> nth_error l i = Some x -> nth_error l j = Some y -> p x = true -> p y = true -> m x < m y.
Proof.
  revert i j; induction l as [|z l IH]; intros i j SS L Hi Hj Px Py; [destruct i; discriminate|].
  destruct i as [|i], j as [|j]; simpl in *; try lia.
  - injection Hi as <-. rewrite Px in SS. inversion SS as [|? ? S1 F]; subst. rewrite Forall_forall in F. apply F.
    apply filter_In. split; auto. eapply nth_error_In; eauto.
  - destruct (p z); [inversion SS; subst|]; apply (IH i j); auto; lia.
Qed.

Lemma filter_StronglySorted {A} (R : A -> A -> Prop) p l : StronglySorted R l -> StronglySorted R (filter p l).
Proof.
  induction 1 as [|x l SS IH F]; simpl; [constructor|]. destruct (p x); auto. constructor; auto.
  apply Forall_forall. intros y I. apply filter_In in I as [I _]. rewrite Forall_forall in F. auto.
Qed.

Lemma combine_seq_sorted {A} (l : list A) b :
  StronglySorted (fun a c => fst a < fst c) (combine (seq b (List.length l)) l).
Proof.
  revert b; induction l as [|x l IH]; intros b; simpl; constructor; auto.
  apply Forall_forall. intros [p y] I. apply in_combine_l in I. apply in_seq in I. simpl. lia.
Qed.

Theorem sort_list_indexed {K V} (cmp : K -> K -> comparison) (keyfn : V -> K) l :
  cmp_laws cmp ->
  exists out pi, sort_list cmp keyfn l = Fine (Some out) /\
    Permutation pi (seq 0 (List.length l)) /\
    map (nth_error l) pi = map Some out /\
    forall i j p q x y, i < j ->
      nth_error pi i = Some p -> nth_error pi j = Some q ->
      nth_error out i = Some x -> nth_error out j = Some y ->
      cmp (keyfn x) (keyfn y) <> Gt /\ (cmp (keyfn x) (keyfn y) = Eq -> p < q).
Proof.
  intros C. set (tagged := combine (seq 0 (List.length l)) l).
  destruct (sort_list_spec cmp (fun w : nat * V => keyfn (snd w)) C tagged) as (out' & E & SS & F & P).
  exists (map snd out'), (map fst out').
  split; [|split; [|split]].
  - rewrite <- (map_snd_combine l 0) at 1. rewrite sort_list_map. fold tagged. now rewrite E.
  - rewrite <- (map_fst_combine l 0). now apply Permutation_map.
  - rewrite !map_map. apply map_ext_in. intros [p x] I. simpl.
    apply (Permutation_in _ P) in I. apply In_nth_error in I as (i & I).
    apply combine_seq_nth in I as [-> I]. exact I.
  - intros i j p q x y L Hp Hq Hx Hy.
    rewrite nth_error_map in Hp, Hq, Hx, Hy.
    destruct (nth_error out' i) as [[p' x']|] eqn:Ei; [|discriminate]. simpl in Hp, Hx. injection Hp as ->. injection Hx as ->.
    destruct (nth_error out' j) as [[q' y']|] eqn:Ej; [|discriminate]. simpl in Hq, Hy. injection Hq as ->. injection Hy as ->.
    split.
    + exact (StronglySorted_nth _ _ _ _ _ _ SS L Ei Ej).
    + intros EQ. apply C in EQ.
      refine (filter_order _ fst out' i j (p, x) (q, y) _ L Ei Ej _ _).
      * rewrite (F (keyfn x)). apply filter_StronglySorted, combine_seq_sorted.
      * simpl. now rewrite cmp_refl.
      * simpl. rewrite <- EQ. now rewrite cmp_refl.
Qed.

(** ** The directive key *)

Lemma date_compare_laws : cmp_laws date_compare.
Proof.
  split; [|split].
  - intros [y m d] [y' m' d']. unfold date_compare; simpl.
    destruct (N.compare_spec y y'); [subst|split; [discriminate|intros E; injection E; lia]..].
    destruct (N.compare_spec m m'); [subst|split; [discriminate|intros E; injection E; lia]..].
    rewrite N.compare_eq_iff. split; [intros ->|intros E; injection E]; auto.
  - intros [y m d] [y' m' d']. unfold date_compare; simpl.
    rewrite (N.compare_antisym y y'). destruct (y ?= y')%N; simpl; auto.
    rewrite (N.compare_antisym m m'). destruct (m ?= m')%N; simpl; auto.
    apply N.compare_antisym.
  - intros [y m d] [y' m' d'] [y2 m2 d2]. unfold date_compare; simpl.
    destruct (N.compare_spec y y'), (N.compare_spec y' y2); subst; try discriminate;
    repeat match goal with |- context[(?a ?= ?b)%N] => destruct (N.compare_spec a b); subst; try discriminate; try lia; auto end.
Qed.

Lemma key_compare_laws : cmp_laws key_compare.
Proof.
  destruct date_compare_laws as (E & O & T). split; [|split].
  - intros [a r] [b q]. unfold key_compare; simpl. destruct (date_compare a b) eqn:D.
    + apply E in D as ->. rewrite N.compare_eq_iff. split; [intros ->|intros Q; injection Q]; auto.
    + split; [discriminate|]. intros Q; injection Q as -> _. rewrite (proj2 (E b b) eq_refl) in D; discriminate.
    + split; [discriminate|]. intros Q; injection Q as -> _. rewrite (proj2 (E b b) eq_refl) in D; discriminate.
  - intros [a r] [b q]. unfold key_compare; simpl. rewrite (O a b). destruct (date_compare a b); simpl; auto.
    apply N.compare_antisym.
  - intros [a r] [b q] [c s]. unfold key_compare; simpl.
    destruct (date_compare a b) eqn:D1; [apply E in D1 as ->| |discriminate].
    + destruct (date_compare b c); auto. intros H1 H2. rewrite N.compare_lt_iff in *. lia.
    + destruct (date_compare b c) eqn:D2; [apply E in D2 as ->| |discriminate].
      * now rewrite D1.
      * now rewrite (T _ _ _ D1 D2).
Qed.

Lemma date_lt_before a b : date_compare a b = Lt <-> before a b.
Proof.
  destruct a as [y m d], b as [y' m' d']. unfold date_compare, before; simpl.
  destruct (N.compare_spec y y'); [subst|split; auto|split; [discriminate|lia]].
  destruct (N.compare_spec m m'); [subst|split; auto|split; [discriminate|lia]].
  rewrite N.compare_lt_iff. split; [auto|lia].
Qed.

Lemma must_precede_key (x y : spanned directive) :
  key_compare (directive_key x) (directive_key y) = Lt <-> must_precede (item x) (item y).
Proof.
  unfold key_compare, directive_key, must_precede; simpl.
  destruct (date_compare _ _) eqn:D.
  - apply date_compare_laws in D. rewrite <- D.
    assert (NB : forall d, ~ before d d) by (unfold before; intros; lia).
    assert (R : forall d, (variant_rank (dir_variant d) = 0%N <-> is_open d) /\ (variant_rank (dir_variant d) = 1%N <-> is_balance d)).
    { intros d. unfold is_open, is_balance. split; split; intros Q;
        destruct (dir_variant d); try discriminate; eauto;
        repeat match goal with H : exists _, _ |- _ => destruct H end; discriminate || reflexivity. }
    destruct (R (item x)) as (X0 & X1), (R (item y)) as (Y0 & Y1).
    rewrite N.compare_lt_iff. rewrite <- X0, <- X1, <- Y0, <- Y1.
    specialize (NB (item (dir_date (item x)))).
    assert (variant_rank (dir_variant (item x)) <= 2)%N by (destruct (dir_variant (item x)); simpl; lia).
    assert (variant_rank (dir_variant (item y)) <= 2)%N by (destruct (dir_variant (item y)); simpl; lia).
    split; [intros L; right; split; auto; lia|intros [?|[_ ?]]; [tauto|lia]].
  - split; auto. intros _. left. now apply date_lt_before.
  - split; [discriminate|]. intros [B|[B _]].
    + apply date_lt_before in B. congruence.
    + rewrite B in D. rewrite (proj2 (proj1 date_compare_laws _ _) eq_refl) in D. discriminate.
Qed.
