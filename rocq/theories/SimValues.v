(** * Two inputs which are read in step: the values put together *)
From Coq Require Import String Ascii.
From Coq Require Import List NArith ZArith Arith Bool Lia Permutation.
From Verif Require Import Base BaseFacts Types Cost Grammar SpecDisplay P_Display AlikeRead Sim.
Import ListNotations.
Local Open Scope nat_scope.

(** ** Cost specifications *)
Definition alike_builder (a b : cost_builder) : Prop := alike_cost (cb_spec a) (cb_spec b) /\ cb_errors a = cb_errors b.
Lemma alike_comp a b x y : alike_builder a b -> same_item x y -> alike_builder (add_comp a x) (add_comp b y).
Proof.
  intros A Q. unfold same_item in Q. unfold add_comp. rewrite Q. generalize (span_of x), (span_of y). intros s s'. clear Q x.
  assert (Pu : forall v a b, alike_builder a b -> alike_builder (set_per_unit (mk_spanned v s) a) (set_per_unit (mk_spanned v s') b)).
  { clear. intros v [[p t c d l m] es] [[p' t' c' d' l' m'] es'] ((A1 & A2 & A3 & A4 & A5 & A6) & A7). cbn in *. subst.
    destruct p, p'; cbn in *; try contradiction; repeat split; cbn; auto. }
  assert (To : forall v a b, alike_builder a b -> alike_builder (set_total (mk_spanned v s) a) (set_total (mk_spanned v s') b)).
  { clear. intros v [[p t c d l m] es] [[p' t' c' d' l' m'] es'] ((A1 & A2 & A3 & A4 & A5 & A6) & A7). cbn in *. subst.
    destruct t, t'; cbn in *; try contradiction; repeat split; cbn; auto. }
  assert (Cu : forall v a b, alike_builder a b -> alike_builder (set_currency v s a) (set_currency v s' b)).
  { clear. intros v [[p t c d l m] es] [[p' t' c' d' l' m'] es'] ((A1 & A2 & A3 & A4 & A5 & A6) & A7). cbn in *. subst.
    destruct c, c'; cbn in *; try contradiction; repeat split; cbn; auto. }
  assert (Ce : forall v a b, alike_builder a b -> alike_builder (set_compound_expr v s a) (set_compound_expr v s' b)) by (intros [x|x|x x0] ? ? H; cbn; auto).
  destruct (item y) as [[c|e|e c]|d|l|]; auto.
  - destruct a as [[p t c0 d0 l0 m] es], b as [[p' t' c' d' l' m'] es'], A as [(A1 & A2 & A3 & A4 & A5 & A6) A7]. cbn in *. subst.
    destruct d0, d'; cbn in *; try contradiction; repeat split; cbn; auto.
  - destruct a as [[p t c0 d0 l0 m] es], b as [[p' t' c' d' l' m'] es'], A as [(A1 & A2 & A3 & A4 & A5 & A6) A7]. cbn in *. subst.
    destruct l0, l'; cbn in *; try contradiction; repeat split; cbn; auto.
  - destruct a as [[p t c0 d0 l0 m] es], b as [[p' t' c' d' l' m'] es'], A as [(A1 & A2 & A3 & A4 & A5 & A6) A7]. cbn in *. subst.
    destruct m'; cbn in *; repeat split; cbn; auto.
Qed.
Definition alike_comps (x y : option (spanned cost_comp * list (spanned cost_comp))) : Prop :=
  match x, y with
  | Some (h, t), Some (h', t') => same_item h h' /\ Forall2 same_item t t'
  | None, None => True
  | _, _ => False
  end.
Lemma alike_cost_of x y : alike_comps x y ->
  match cost_of x, cost_of y with Ok a, Ok b => alike_cost a b | Err _, Err _ => True | _, _ => False end.
Proof.
  intro H. unfold cost_of.
  assert (A : alike_builder match x with Some (h, t) => fold_left add_comp (h :: t) default_builder | None => default_builder end
                            match y with Some (h, t) => fold_left add_comp (h :: t) default_builder | None => default_builder end).
  { assert (D : alike_builder default_builder default_builder) by (repeat split; exact Logic.I).
    destruct x as [[h t]|], y as [[h' t']|]; cbn in H; try contradiction; [|exact D]. destruct H as [H T]. 
    assert (F : Forall2 same_item (h :: t) (h' :: t')) by (constructor; assumption). clear H T. revert D. generalize default_builder at 1 3. generalize default_builder.
    induction F as [|a b l l' S F IH]; intros u v D; [exact D|]. cbn [fold_left]. apply IH. apply alike_comp; assumption. }
  destruct A as [A B]. unfold build. rewrite B. match goal with |- context [cb_errors ?z] => destruct (cb_errors z) end; [exact A|exact Logic.I].
Qed.

(** ** Sets *)
Lemma mem_items x x' l l' : same_item x x' -> Forall2 same_item l l' -> mem spanned_str_eqb x l = mem spanned_str_eqb x' l'.
Proof.
  intros S F. induction F as [|a b l l' Sa F IH]; [reflexivity|]. cbn. rewrite IH. unfold spanned_str_eqb, spanned_eqb. unfold same_item in S, Sa. rewrite S, Sa. reflexivity.
Qed.
Definition alike_set (s s' : list (spanned str) * list report) : Prop := Forall2 same_item (fst s) (fst s') /\ same_said (snd s) (snd s').
Lemma alike_insert_once dup s s' x x' : alike_set s s' -> same_item x x' -> alike_set (insert_once dup s x) (insert_once dup s' x').
Proof.
  destruct s as [l es], s' as [l' es']. intros [A B] S. cbn in A, B. unfold insert_once. rewrite (mem_items x x' l l' S A). destruct (mem _ _ _); split; cbn; auto.
  - unfold same_said in *. rewrite !map_app, B. cbn. rewrite S. reflexivity.
  - apply Forall2_app; auto.
Qed.
Lemma alike_insert_all dup l l' : Forall2 same_item l l' -> forall s s', alike_set s s' -> alike_set (fold_left (insert_once dup) l s) (fold_left (insert_once dup) l' s').
Proof. induction 1; intros; cbn; auto. apply IHForall2. apply alike_insert_once; assumption. Qed.

(** ** Merging *)
Definition merge_str (dup : str -> problem) (s : list str * list problem) (x : str) : list str * list problem :=
  if mem str_eqb x (fst s) then (fst s, snd s ++ [dup x]) else (fst s ++ [x], snd s).
Definition strs (s : list (spanned str) * list report) : list str * list problem := (map item (fst s), map rp_problem (snd s)).
Lemma find_mem x l : match find_same x l with Some y => mem str_eqb (item x) (map item l) = true | None => mem str_eqb (item x) (map item l) = false end.
Proof.
  unfold find_same. induction l as [|y l IH]; [reflexivity|]. cbn [find map mem]. unfold spanned_str_eqb, spanned_eqb. destruct (str_eqb (item x) (item y)); [reflexivity|exact IH].
Qed.
Lemma merge_once_str dup s x : strs (merge_once dup s x) = merge_str dup (strs s) (item x).
Proof.
  destruct s as [l es]. unfold merge_once, merge_str, strs. cbn [fst snd]. pose proof (find_mem x l) as H. destruct (find_same x l); cbn [fst snd]; rewrite H, map_app; reflexivity.
Qed.
Lemma merge_all_str dup l : forall s, strs (fold_left (merge_once dup) l s) = fold_left (merge_str dup) (map item l) (strs s).
Proof. induction l as [|x l IH]; intro s; [reflexivity|]. cbn [fold_left map]. rewrite IH, merge_once_str. reflexivity. Qed.
Definition perm2 (s s' : list str * list problem) : Prop := Permutation (fst s) (fst s') /\ Permutation (snd s) (snd s').
Lemma mem_str_in x l : mem str_eqb x l = true <-> In x l.
Proof.
  induction l as [|y l IH]; cbn; [split; [discriminate|intros []]|]. rewrite orb_true_iff, IH, str_eqb_eq. split; intros [H|H]; auto.
Qed.
Lemma mem_perm x l l' : Permutation l l' -> mem str_eqb x l = mem str_eqb x l'.
Proof.
  intro P. apply eq_true_iff_eq. rewrite !mem_str_in. split; apply Permutation_in; [exact P|symmetry; exact P].
Qed.
Lemma merge_str_perm dup s s' x : perm2 s s' -> perm2 (merge_str dup s x) (merge_str dup s' x).
Proof.
  intros [A B]. unfold merge_str. rewrite (mem_perm x _ _ A). destruct (mem _ _ _); split; cbn; auto using Permutation_app_tail.
Qed.
Lemma merge_all_perm dup l : forall s s', perm2 s s' -> perm2 (fold_left (merge_str dup) l s) (fold_left (merge_str dup) l s').
Proof. induction l as [|x l IH]; intros s s' H; [exact H|]. cbn. apply IH. apply merge_str_perm. exact H. Qed.
Lemma perm_two {A} (l : list A) x y : Permutation ((l ++ [x]) ++ [y]) ((l ++ [y]) ++ [x]).
Proof. rewrite <- !app_assoc. apply Permutation_app_head. constructor. Qed.
Lemma mem_last x y l : mem str_eqb x (l ++ [y]) = mem str_eqb x l || str_eqb x y.
Proof. induction l as [|z l IH]; cbn; [now rewrite orb_false_r|]. rewrite IH, orb_assoc. reflexivity. Qed.
Lemma merge_two dup s x y : perm2 (merge_str dup (merge_str dup s x) y) (merge_str dup (merge_str dup s y) x).
Proof.
  destruct s as [l es]. unfold merge_str. cbn [fst snd].
  destruct (list_eq_dec N.eq_dec x y) as [->|Ne]; [split; apply Permutation_refl|].
  assert (Xy : str_eqb x y = false) by (destruct (str_eqb x y) eqn:H; [apply str_eqb_eq in H; contradiction|reflexivity]).
  assert (Yx : str_eqb y x = false) by (destruct (str_eqb y x) eqn:H; [apply str_eqb_eq in H; symmetry in H; contradiction|reflexivity]).
  destruct (mem str_eqb x l) eqn:Mx, (mem str_eqb y l) eqn:My; cbn [fst snd]; rewrite ?mem_last, ?Mx, ?My, ?Xy, ?Yx; cbn [orb fst snd]; split; cbn;
    try apply Permutation_refl; apply perm_two.
Qed.
Lemma merge_perm dup l l' : Permutation l l' -> forall s s', perm2 s s' -> perm2 (fold_left (merge_str dup) l s) (fold_left (merge_str dup) l' s').
Proof.
  induction 1 as [|x l l' P IH|x y l|l1 l2 l3 P1 IH1 P2 IH2]; intros s s' H.
  - exact H.
  - cbn. apply IH. apply merge_str_perm. exact H.
  - cbn. apply merge_all_perm. pose proof (merge_two dup s y x) as [A B]. 
    pose proof (merge_str_perm dup _ _ y (merge_str_perm dup _ _ x H)) as [A' B'].
    split; [exact (Permutation_trans A A')|exact (Permutation_trans B B')].
  - destruct (IH1 s s ltac:(split; apply Permutation_refl)) as [A B]. destruct (IH2 s s' H) as [A' B']. split; [exact (Permutation_trans A A')|exact (Permutation_trans B B')].
Qed.
Lemma items_elements {A} (l l' : list (spanned A)) : Permutation (map item l) (map item l') -> same_elements same_item l l'.
Proof.
  intro P. symmetry in P. apply Permutation_map_inv in P. destruct P as (m & Q & P). exists m. split; [exact P|].
  clear P. revert l' Q. induction m as [|x m IH]; intros [|y l'] Q; try discriminate; constructor; cbn in Q; injection Q as Q0 Q; [symmetry; exact Q0|auto].
Qed.
Lemma forall2_elements {A} (R : A -> A -> Prop) l l' : Forall2 R l l' -> same_elements R l l'.
Proof. intro F. exists l. split; [apply Permutation_refl|exact F]. Qed.
Lemma same_items {A} (l l' : list (spanned A)) : Forall2 same_item l l' -> map item l = map item l'.
Proof. induction 1; cbn; congruence. Qed.

Lemma merged_sets E dup (Go : forall l, Permutation l (g_order E l)) l l' m m' : Forall2 same_item l l' -> Forall2 same_item m m' ->
  let r := fold_left (merge_once dup) (g_order E l) (m, []) in
  let r' := fold_left (merge_once dup) (g_order E l') (m', []) in
  same_elements same_item (fst r) (fst r') /\ same_saids (snd r) (snd r').
Proof.
  intros F G r r'. assert (H : perm2 (strs r) (strs r')).
  { unfold r, r'. rewrite !merge_all_str. apply merge_perm.
    - rewrite <- (Permutation_map item (Go l)), <- (Permutation_map item (Go l')), (same_items _ _ F). apply Permutation_refl.
    - unfold strs. cbn. rewrite (same_items _ _ G). split; apply Permutation_refl. }
  destruct H as [A B]. split; [apply items_elements; exact A|exact B].
Qed.

(** ** Metadata *)
Definition alike_entry (x y : spanned str * spanned meta_value) : Prop := same_item (fst x) (fst y) /\ alike_meta_value (item (snd x)) (item (snd y)).
Definition step_metadata (a b : metadata) : Prop :=
  Forall2 alike_entry (md_key_values a) (md_key_values b) /\ Forall2 same_item (md_tags a) (md_tags b) /\ Forall2 same_item (md_links a) (md_links b).
Definition alike_metadatum (a b : metadatum) : Prop :=
  match a, b with
  | MD_KeyValue x, MD_KeyValue y => alike_key_value (item x) (item y)
  | MD_Tag x, MD_Tag y | MD_Link x, MD_Link y => same_item x y
  | _, _ => False
  end.
Lemma step_alike a b : step_metadata a b -> alike_metadata a b.
Proof. intros (A & B & C). split; [|split]; apply forall2_elements; assumption. Qed.
Lemma lookup_entries k k' l l' : same_item k k' -> Forall2 alike_entry l l' -> (lookup spanned_str_eqb k l = None <-> lookup spanned_str_eqb k' l' = None).
Proof.
  intros S F. induction F as [|[a v] [b w] l l' [Sa Sv] F IH]; [tauto|]. cbn [lookup].
  assert (H : spanned_str_eqb k a = spanned_str_eqb k' b) by (unfold spanned_str_eqb, spanned_eqb; cbn in Sa; unfold same_item in S, Sa; rewrite S, Sa; reflexivity).
  rewrite H. destruct (spanned_str_eqb k' b); [split; discriminate|exact IH].
Qed.
Lemma alike_collate s s' x y : step_metadata (fst s) (fst s') -> same_said (snd s) (snd s') -> alike_metadatum x y ->
  step_metadata (fst (collate s x)) (fst (collate s' y)) /\ same_said (snd (collate s x)) (snd (collate s' y)).
Proof.
  destruct s as [[kvs ts ls] es], s' as [[kvs' ts' ls'] es']. intros (A & B & C) W M. cbn in A, B, C, W.
  destruct x as [x|x|x], y as [y|y|y]; cbn in M; try contradiction; unfold collate.
  - destruct M as [K V]. pose proof (lookup_entries (mkv_key (item x)) (mkv_key (item y)) _ _ K A) as H. unfold insert.
    destruct (lookup _ (mkv_key (item x)) kvs), (lookup _ (mkv_key (item y)) kvs'); cbn; try (exfalso; destruct H as [H H']; now (discriminate (H eq_refl) || discriminate (H' eq_refl))).
    + split; [repeat split; assumption|]. unfold same_said in *. rewrite !map_app, W. cbn. rewrite K. reflexivity.
    + split; [|exact W]. split; [|split; assumption]. cbn. apply Forall2_app; [exact A|]. constructor; [split; assumption|constructor].
  - pose proof (alike_insert_once DuplicateTag (ts, es) (ts', es') x y (conj B W) M) as [H1 H2].
    destruct (insert_once DuplicateTag (ts, es) x), (insert_once DuplicateTag (ts', es') y). cbn in *. repeat split; assumption.
  - pose proof (alike_insert_once DuplicateLink (ls, es) (ls', es') x y (conj C W) M) as [H1 H2].
    destruct (insert_once DuplicateLink (ls, es) x), (insert_once DuplicateLink (ls', es') y). cbn in *. repeat split; assumption.
Qed.
Lemma alike_collate_all l l' : Forall2 alike_metadatum l l' -> forall s s', step_metadata (fst s) (fst s') -> same_said (snd s) (snd s') ->
  step_metadata (fst (fold_left collate l s)) (fst (fold_left collate l' s')) /\ same_said (snd (fold_left collate l s)) (snd (fold_left collate l' s')).
Proof.
  induction 1 as [|x y l l' M F IH]; intros s s' A W; [auto|]. cbn [fold_left]. destruct (alike_collate s s' x y A W M). apply IH; assumption.
Qed.

Definition alike_tags_links (x y : list (spanned str) * list (spanned str)) : Prop := Forall2 same_item (fst x) (fst y) /\ Forall2 same_item (snd x) (snd y).
Lemma alike_merged E (Go : forall l, Permutation l (g_order E l)) md md' tl tl' : step_metadata (item md) (item md') -> alike_tags_links tl tl' ->
  alike_metadata (item (fst (merged E md tl))) (item (fst (merged E md' tl'))) /\ same_saids (snd (merged E md tl)) (snd (merged E md' tl')).
Proof.
  intros (A & B & C) [T K]. unfold merged.
  pose proof (merged_sets E DuplicateTag Go _ _ _ _ T B) as [T1 T2]. pose proof (merged_sets E DuplicateLink Go _ _ _ _ K C) as [K1 K2].
  destruct (fold_left (merge_once DuplicateTag) (g_order E (fst tl)) _) as [t1 e1], (fold_left (merge_once DuplicateTag) (g_order E (fst tl')) _) as [t1' e1'].
  destruct (fold_left (merge_once DuplicateLink) (g_order E (snd tl)) _) as [k1 f1], (fold_left (merge_once DuplicateLink) (g_order E (snd tl')) _) as [k1' f1'].
  cbn in *. split; [|apply same_saids_app; assumption]. split; [apply forall2_elements; exact A|auto].
Qed.
