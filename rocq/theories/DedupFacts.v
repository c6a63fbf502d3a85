(** * Facts about repetitions *)
From Coq Require Import List NArith Arith Bool Lia Permutation.
From Verif Require Import Base BaseFacts Types TypesFacts Token Grammar SpecGrammar.
Import ListNotations.
Local Open Scope nat_scope.

Definition problem_eq_dec (a b : problem) : {a = b} + {a <> b}.
Proof. repeat (decide equality). Defined.

Section Dedup.
  Context {A : Type} (label : A -> problem).

  Lemma dedup_total : forall l seen, exists kept again, dedup label seen l kept again.
  Proof.
    induction l as [|x l IH]; intro seen; [exists [], []; constructor|].
    destruct (in_dec problem_eq_dec (label x) seen) as [H|H].
    - destruct (IH seen) as (k & a & D). exists k, (x :: a). constructor; assumption.
    - destruct (IH (label x :: seen)) as (k & a & D). exists (x :: k), a. constructor; assumption.
  Qed.

  Lemma dedup_fun : forall seen l k a, dedup label seen l k a -> forall k' a', dedup label seen l k' a' -> k = k' /\ a = a'.
  Proof.
    induction 1 as [seen|seen x l k a H _ IH|seen x l k a H _ IH]; intros k' a' D; inversion D as [|? ? ? ? ? H' D'|? ? ? ? ? H' D']; subst; auto; try contradiction.
    - destruct (IH _ _ D') as [-> ->]. auto.
    - destruct (IH _ _ D') as [-> ->]. auto.
  Qed.

  (** Only what has been seen matters. *)
  Lemma dedup_seen : forall seen l k a, dedup label seen l k a -> forall seen',
    (forall p, In p seen <-> In p seen') -> dedup label seen' l k a.
  Proof.
    induction 1 as [seen|seen x l k a H _ IH|seen x l k a H _ IH]; intros seen' E; constructor.
    - rewrite <- E. exact H.
    - apply IH. intro p. cbn. rewrite E. reflexivity.
    - rewrite <- E. exact H.
    - apply IH. exact E.
  Qed.

  (** Each label which was not seen before is kept once. *)
  Lemma dedup_kept : forall seen l k a, dedup label seen l k a ->
    NoDup (map label k) /\ (forall x, In x k -> In x l /\ ~ In (label x) seen) /\
    (forall x, In x l -> In (label x) seen \/ In (label x) (map label k)).
  Proof.
    induction 1 as [seen|seen x l k a H D IH|seen x l k a H D IH]; cbn [map].
    - split; [constructor|]. split; intros x [].
    - destruct IH as (N & B & C). split; [|split].
      + constructor; [|exact N]. intro X. apply in_map_iff in X. destruct X as (y & E & Y).
        apply B in Y. destruct Y as [_ Y]. apply Y. left. congruence.
      + intros y [<-|Y]; [split; [left; reflexivity|exact H]|]. apply B in Y. destruct Y as [Y1 Y2].
        split; [right; exact Y1|]. intro Z. apply Y2. right. exact Z.
      + intros y [<-|Y]; [right; left; reflexivity|]. apply C in Y. destruct Y as [[Y|Y]|Y].
        * right. left. exact Y.
        * left. exact Y.
        * right. right. exact Y.
    - destruct IH as (N & B & C). split; [exact N|]. split.
      + intros y Y. apply B in Y. destruct Y. split; [right|]; assumption.
      + intros y [<-|Y]; [left; exact H|]. apply C. exact Y.
  Qed.

  Lemma dedup_count : forall seen l k a, dedup label seen l k a -> List.length l = List.length k + List.length a.
  Proof. induction 1; cbn [List.length]; lia. Qed.

  (** Nothing is repeated. *)
  Lemma dedup_none : forall l seen, NoDup (map label l) -> (forall x, In x l -> ~ In (label x) seen) ->
    dedup label seen l l [].
  Proof.
    induction l as [|x l IH]; intros seen N D; [constructor|]. cbn in N. inversion N; subst. constructor.
    - apply D. left. reflexivity.
    - apply IH; [assumption|]. intros y Y [E|Z].
      + apply H1. rewrite E. apply in_map. exact Y.
      + apply (D y); [right; exact Y|exact Z].
  Qed.
  Lemma dedup_none_iff : forall seen l k a, dedup label seen l k a ->
    (a = [] <-> NoDup (map label l) /\ forall x, In x l -> ~ In (label x) seen).
  Proof.
    intros seen l k a D. split.
    - intros ->. remember [] as a eqn:Ea. induction D as [seen|seen x l k a H D IH|seen x l k a H D IH]; [split; [constructor|]; intros x []| |discriminate].
      destruct (IH Ea) as [N F]. split.
      + cbn. constructor; [|exact N]. intro X. apply in_map_iff in X. destruct X as (y & E & Y).
        apply (F y Y). left. congruence.
      + intros y [<-|Y]; [exact H|]. intro Z. apply (F y Y). right. exact Z.
    - intros [N F]. pose proof (dedup_none l seen N F) as D'. eapply dedup_fun in D; [|exact D']. destruct D as [_ <-]. reflexivity.
  Qed.
End Dedup.

(** ** The sets *)

Section Once.
  Context (dup : list N -> problem) (dup_inj : forall s t, dup s = dup t -> s = t).
  Let lab := fun x : spanned (list N) => dup (item x).

  Lemma mem_label x l : mem spanned_str_eqb x l = true <-> In (lab x) (map lab l).
  Proof.
    induction l as [|y l IH]; cbn; [split; [discriminate|intros []]|].
    rewrite orb_true_iff, IH. unfold spanned_str_eqb, spanned_eqb. rewrite str_eqb_eq.
    unfold lab. split; (intros [H|H]; [left|right; exact H]).
    - congruence.
    - apply dup_inj in H. congruence.
  Qed.

  Lemma insert_once_fold : forall l seen acc es kept again,
    dedup lab seen l kept again -> (forall p, In p seen <-> In p (map lab acc)) ->
    fold_left (insert_once dup) l (acc, es) = (acc ++ kept, es ++ map (repeated lab span_of) again).
  Proof.
    intros l seen acc es kept again D. revert acc es.
    induction D as [seen|seen x l k a H D IH|seen x l k a H D IH]; intros acc es Q; cbn [fold_left map].
    - rewrite !app_nil_r. reflexivity.
    - unfold insert_once at 2. destruct (mem spanned_str_eqb x acc) eqn:M.
      + apply mem_label in M. exfalso. apply H. apply Q. exact M.
      + rewrite IH.
        * rewrite <- app_assoc. reflexivity.
        * intro p. rewrite map_app, in_app_iff. cbn. rewrite Q. tauto.
    - unfold insert_once at 2. destruct (mem spanned_str_eqb x acc) eqn:M.
      + rewrite IH by exact Q. rewrite <- app_assoc. reflexivity.
      + exfalso. apply Q in H. apply mem_label in H. congruence.
  Qed.

  Lemma find_same_some x l y : find_same x l = Some y -> In y l /\ item y = item x.
  Proof.
    unfold find_same. intro H. apply find_some in H. destruct H as [H1 H2]. split; [exact H1|].
    unfold spanned_str_eqb, spanned_eqb in H2. apply str_eqb_eq in H2. congruence.
  Qed.
  Lemma find_same_none x l : find_same x l = None <-> ~ In (lab x) (map lab l).
  Proof.
    rewrite <- mem_label. unfold find_same. induction l as [|y l IH]; cbn [find mem]; [split; [discriminate|reflexivity]|].
    destruct (spanned_str_eqb x y); cbn [orb]; [|exact IH]. split; [discriminate|]. intro H. exfalso. apply H. reflexivity.
  Qed.

  (** The relation between an item and the error for it. *)
  Let at_old old := fun (x : spanned (list N)) (e : report) =>
    exists y, In y old /\ item y = item x /\ e = mk_report (dup (item x)) (span_of y) [].

  Lemma merge_fold : forall l old acc es, NoDup (map item l) ->
    (forall x, In x l -> forall y, In y acc -> item y <> item x) ->
    exists fresh again es',
      dedup lab (map lab old) l fresh again /\ Forall2 (at_old old) again es' /\
      fold_left (merge_once dup) l (old ++ acc, es) = (old ++ acc ++ fresh, es ++ es').
  Proof.
    induction l as [|x l IH]; intros old acc es N F; cbn [map] in N.
    - exists [], [], []. split; [constructor|]. split; [constructor|]. cbn. rewrite !app_nil_r. reflexivity.
    - inversion N as [|? ? Nx Nl]; subst. cbn [fold_left]. unfold merge_once at 2.
      destruct (find_same x (old ++ acc)) as [y|] eqn:Y.
      + apply find_same_some in Y. destruct Y as [Y1 Y2]. apply in_app_or in Y1. destruct Y1 as [Y1|Y1].
        2:{ exfalso. apply (F x (or_introl eq_refl) y Y1 Y2). }
        destruct (IH old acc (es ++ [mk_report (dup (item x)) (span_of y) []]) Nl) as (k & a & e & D & Q & M).
        { intros z Z. apply F. right. exact Z. }
        exists k, (x :: a), (mk_report (dup (item x)) (span_of y) [] :: e). split; [|split].
        * apply dedup_old; [|exact D]. apply in_map_iff. exists y. unfold lab. rewrite Y2. auto.
        * constructor; [|exact Q]. exists y. auto.
        * rewrite M, <- app_assoc. reflexivity.
      + apply find_same_none in Y. rewrite map_app, in_app_iff in Y.
        rewrite <- app_assoc. destruct (IH old (acc ++ [x]) es Nl) as (k & a & e & D & Q & M).
        { intros z Z y Hy. apply in_app_or in Hy. destruct Hy as [Hy|[<-|[]]].
          - apply F; [right; exact Z|exact Hy].
          - intro X. apply Nx. rewrite X. apply in_map. exact Z. }
        exists (x :: k), a, e. split; [|split].
        * apply dedup_new; [tauto|]. clear - D Nx Nl dup_inj.
          assert (G : forall seen, (forall p, In p seen <-> In p (map lab old) \/ p = lab x) -> dedup lab seen l k a).
          { revert Nx Nl. induction D as [seen0|seen0 z l k a H D IH|seen0 z l k a H D IH]; intros Nx Nl seen Q; constructor.
            - rewrite Q. intros [X|X]; [contradiction|]. apply Nx. left. apply dup_inj in X. exact X.
            - cbn in Nl. inversion Nl; subst. apply dedup_seen with (seen := lab z :: (lab x :: seen0)).
              + assert (dedup lab (lab x :: lab z :: seen0) l k a).
                { apply IH; [intro X; apply Nx; right; exact X|assumption|]. intro p. cbn. intuition. }
                eapply dedup_seen; [exact H0|]. intro p. cbn. tauto.
              + intro p. cbn. rewrite Q. intuition.
            - rewrite Q. left. exact H.
            - cbn in Nl. inversion Nl; subst. apply IH; [intro X; apply Nx; right; exact X|assumption|exact Q]. }
          apply G. intro p. cbn. intuition.
        * exact Q.
        * rewrite M. rewrite <- app_assoc. reflexivity.
  Qed.

  Lemma merges_fold l old : NoDup (map item l) ->
    exists result es, fold_left (merge_once dup) l (old, []) = (result, es) /\ merges dup old l result es.
  Proof.
    intro N. destruct (merge_fold l old [] [] N) as (k & a & e & D & Q & M); [intros x _ y []|].
    rewrite app_nil_r in M. cbn in M. exists (old ++ k), e. split; [exact M|]. econstructor; eauto.
  Qed.

  Lemma merges_fun old l r es r' es' : NoDup (map item old) ->
    merges dup old l r es -> merges dup old l r' es' -> r = r' /\ es = es'.
  Proof.
    intros N [k a D -> F] [k' a' D' -> F']. destruct (dedup_fun _ _ _ _ _ D _ _ D') as [-> ->]. split; [reflexivity|].
    revert es' F'. clear - F N. induction F as [|x e a es (y & Y1 & Y2 & ->) _ IH]; intros es' F'; inversion F'; subst; [reflexivity|].
    f_equal; [|apply IH; assumption]. destruct H1 as (z & Z1 & Z2 & ->). f_equal.
    assert (y = z); [|congruence].
    clear - N Y1 Y2 Z1 Z2. induction old as [|o old IH]; [destruct Y1|]. cbn in N. inversion N as [|? ? No Nr]; subst.
    destruct Y1 as [->|Y1], Z1 as [->|Z1]; auto; exfalso; apply No; apply in_map_iff.
    - exists z. split; [congruence|exact Z1].
    - exists y. split; [congruence|exact Y1].
  Qed.

  Lemma merges_complete l old r es : NoDup (map item l) -> NoDup (map item old) -> merges dup old l r es ->
    fold_left (merge_once dup) l (old, []) = (r, es).
  Proof.
    intros Nl No M. destruct (merges_fold l old Nl) as (r' & es' & F & M').
    destruct (merges_fun _ _ _ _ _ _ No M M') as [-> ->]. exact F.
  Qed.
End Once.

(** ** Metadata *)

Definition labels_of (md : metadata) : list problem :=
  map (fun kv => DuplicateKey (item (fst kv))) (md_key_values md) ++
  map (fun t => DuplicateTag (item t)) (md_tags md) ++ map (fun l => DuplicateLink (item l)) (md_links md).

Lemma lookup_in {V} (k : spanned (list N)) (m : list (spanned (list N) * V)) :
  (exists v, lookup spanned_str_eqb k m = Some v) <-> In (DuplicateKey (item k)) (map (fun kv => DuplicateKey (item (fst kv))) m).
Proof.
  induction m as [|[k' v] m IH]; cbn.
  - split; [intros [v H]; discriminate|intros []].
  - unfold spanned_str_eqb, spanned_eqb in *. destruct (str_eqb (item k) (item k')) eqn:E.
    + apply str_eqb_eq in E. split; [left; congruence|eauto].
    + rewrite IH. split; [auto|]. intros [H|H]; [|exact H]. exfalso. injection H as H.
      rewrite H in E. rewrite (proj2 (str_eqb_eq _ _) eq_refl) in E. discriminate.
Qed.

Definition add_kept (md : metadata) (kept : list metadatum) : metadata :=
  mk_metadata (md_key_values md ++ key_values_in kept) (md_tags md ++ tags_in kept) (md_links md ++ links_in kept).

Lemma in_labels_of md m :
  In (metadatum_label m) (labels_of md) <->
  match m with
  | MD_KeyValue kv => exists v, lookup spanned_str_eqb (mkv_key (item kv)) (md_key_values md) = Some v
  | MD_Tag t => mem spanned_str_eqb t (md_tags md) = true
  | MD_Link l => mem spanned_str_eqb l (md_links md) = true
  end.
Proof.
  unfold labels_of. rewrite !in_app_iff. destruct m as [kv|t|l]; cbn [metadatum_label].
  - rewrite lookup_in. split; [|auto]. intros [H|[H|H]]; [exact H| |]; apply in_map_iff in H; destruct H as (x & H & _); discriminate.
  - rewrite (mem_label DuplicateTag) by congruence. split; [|auto].
    intros [H|[H|H]]; [|exact H|]; apply in_map_iff in H; destruct H as (x & H & _); discriminate.
  - rewrite (mem_label DuplicateLink) by congruence. split; [|auto].
    intros [H|[H|H]]; [| |exact H]; apply in_map_iff in H; destruct H as (x & H & _); discriminate.
Qed.

Lemma labels_of_add md m p : In p (labels_of (add_kept md [m])) <-> p = metadatum_label m \/ In p (labels_of md).
Proof.
  unfold labels_of, add_kept. cbn [md_key_values md_tags md_links]. rewrite !map_app, !in_app_iff.
  destruct m as [kv|t|l]; cbn; intuition.
Qed.

Lemma add_kept_nil md : add_kept md [] = md.
Proof. destruct md. unfold add_kept. cbn. rewrite !app_nil_r. reflexivity. Qed.
Lemma add_kept_cons md x l : add_kept (add_kept md [x]) l = add_kept md (x :: l).
Proof.
  unfold add_kept. cbn [md_key_values md_tags md_links key_values_in tags_in links_in flat_map].
  rewrite !app_nil_r, <- !app_assoc. reflexivity.
Qed.

Lemma collate_step md es m :
  collate (md, es) m =
  if in_dec problem_eq_dec (metadatum_label m) (labels_of md) then (md, es ++ [repeated metadatum_label metadatum_place m])
  else (add_kept md [m], es).
Proof.
  destruct (in_dec problem_eq_dec (metadatum_label m) (labels_of md)) as [H|H]; rewrite in_labels_of in H;
    destruct md as [kvs tags links]; destruct m as [kv|t|l]; cbn in *.
  - destruct H as [v ->]. reflexivity.
  - rewrite H. reflexivity.
  - rewrite H. reflexivity.
  - unfold add_kept. cbn. rewrite !app_nil_r. unfold insert.
    destruct (lookup spanned_str_eqb (mkv_key (item kv)) kvs) eqn:L; [exfalso; eauto|]. reflexivity.
  - unfold add_kept. cbn. rewrite !app_nil_r.
    destruct (mem spanned_str_eqb t tags); [exfalso; auto|]. reflexivity.
  - unfold add_kept. cbn. rewrite !app_nil_r.
    destruct (mem spanned_str_eqb l links); [exfalso; auto|]. reflexivity.
Qed.

Lemma collate_fold : forall l seen md es kept again,
  dedup metadatum_label seen l kept again -> (forall p, In p seen <-> In p (labels_of md)) ->
  fold_left collate l (md, es) = (add_kept md kept, es ++ map (repeated metadatum_label metadatum_place) again).
Proof.
  intros l seen md es kept again D. revert md es.
  induction D as [seen|seen x l k a H D IH|seen x l k a H D IH]; intros md es Q; cbn [fold_left map].
  - rewrite add_kept_nil, app_nil_r. reflexivity.
  - rewrite collate_step. destruct (in_dec problem_eq_dec (metadatum_label x) (labels_of md)) as [X|X].
    + exfalso. apply H. apply Q. exact X.
    + rewrite IH.
      * rewrite add_kept_cons. reflexivity.
      * intro p. cbn [In]. rewrite labels_of_add, Q. intuition.
  - rewrite collate_step. destruct (in_dec problem_eq_dec (metadatum_label x) (labels_of md)) as [X|X].
    + rewrite IH by exact Q. rewrite <- app_assoc. reflexivity.
    + exfalso. apply X. apply Q. exact H.
Qed.

Lemma collects_fold l md es : collects l md es -> fold_left collate l (empty_metadata, []) = (md, es).
Proof. intros [k a D]. rewrite (collate_fold l [] empty_metadata [] k a D); [reflexivity|]. intro p. cbn. tauto. Qed.

Lemma fold_collects l : exists md es, fold_left collate l (empty_metadata, []) = (md, es) /\ collects l md es.
Proof.
  destruct (dedup_total metadatum_label l []) as (k & a & D). do 2 eexists. split; [|constructor; exact D].
  rewrite (collate_fold l [] empty_metadata [] k a D); [reflexivity|]. intro p. cbn. tauto.
Qed.

(** The sets in metadata are sets. *)
Lemma tags_in_spec l t : In t (tags_in l) <-> In (MD_Tag t) l.
Proof.
  unfold tags_in. rewrite in_flat_map. split.
  - intros ([kv|x|x] & H & X); cbn in X; try contradiction. destruct X as [->|[]]. exact H.
  - intro H. exists (MD_Tag t). split; [exact H|left; reflexivity].
Qed.
Lemma links_in_spec l t : In t (links_in l) <-> In (MD_Link t) l.
Proof.
  unfold links_in. rewrite in_flat_map. split.
  - intros ([kv|x|x] & H & X); cbn in X; try contradiction. destruct X as [->|[]]. exact H.
  - intro H. exists (MD_Link t). split; [exact H|left; reflexivity].
Qed.
Lemma tags_in_nodup l : NoDup (map metadatum_label l) -> NoDup (map item (tags_in l)).
Proof.
  induction l as [|[kv|t|k] l IH]; cbn; intro N; [constructor|..]; inversion N; subst; auto.
  constructor; [|auto]. intro X. apply H1. apply in_map_iff in X. destruct X as (y & E & Y).
  apply tags_in_spec in Y. apply in_map_iff. exists (MD_Tag y). cbn. split; [congruence|exact Y].
Qed.
Lemma links_in_nodup l : NoDup (map metadatum_label l) -> NoDup (map item (links_in l)).
Proof.
  induction l as [|[kv|t|k] l IH]; cbn; intro N; [constructor|..]; inversion N; subst; auto.
  constructor; [|auto]. intro X. apply H1. apply in_map_iff in X. destruct X as (y & E & Y).
  apply links_in_spec in Y. apply in_map_iff. exists (MD_Link y). cbn. split; [congruence|exact Y].
Qed.
Lemma collects_nodup l md es : collects l md es -> NoDup (map item (md_tags md)) /\ NoDup (map item (md_links md)).
Proof.
  intros [k a D]. cbn. destruct (dedup_kept _ _ _ _ _ D) as (N & _). split; [apply tags_in_nodup|apply links_in_nodup]; exact N.
Qed.

(** ** Tags and links of the first line *)

Definition of_sum (x : spanned (list N) + spanned (list N)) : metadatum :=
  match x with inl t => MD_Tag t | inr l => MD_Link l end.

Definition tags_links_step := fun '(tags, links, es) (x : spanned (list N) + spanned (list N)) =>
  match x with
  | inl t => let (tags', es') := insert_once DuplicateTag (tags, es) t in (tags', links, es')
  | inr k => let (links', es') := insert_once DuplicateLink (links, es) k in (tags, links', es')
  end.

Lemma tags_links_fold : forall l seen tags links es kept again,
  dedup metadatum_label seen (map of_sum l) kept again ->
  (forall p, In p seen <-> In p (labels_of (mk_metadata [] tags links))) ->
  fold_left tags_links_step l (tags, links, es) =
  (tags ++ tags_in kept, links ++ links_in kept, es ++ map (repeated metadatum_label metadatum_place) again).
Proof.
  induction l as [|x l IH]; intros seen tags links es kept again D Q; cbn [map] in D; inversion D as [|? ? ? kept0 ? H1 H3|? ? ? ? again0 H1 H3]; subst; cbn [fold_left].
  - cbn. rewrite !app_nil_r. reflexivity.
  - rewrite Q in H1. rewrite in_labels_of in H1. destruct x as [t|t]; cbn in H1; cbn [tags_links_step of_sum insert_once].
    + destruct (mem spanned_str_eqb t tags); [exfalso; auto|].
      rewrite (IH (metadatum_label (MD_Tag t) :: seen) _ _ _ kept0 again); [|exact H3|].
      * cbn. rewrite <- app_assoc. reflexivity.
      * intro p. pose proof (labels_of_add (mk_metadata [] tags links) (MD_Tag t) p) as X.
        unfold add_kept in X. cbn [md_key_values md_tags md_links key_values_in tags_in links_in flat_map app] in X.
        rewrite app_nil_r in X. rewrite X. cbn [In]. rewrite Q. intuition.
    + destruct (mem spanned_str_eqb t links); [exfalso; auto|].
      rewrite (IH (metadatum_label (MD_Link t) :: seen) _ _ _ kept0 again); [|exact H3|].
      * cbn. rewrite <- app_assoc. reflexivity.
      * intro p. pose proof (labels_of_add (mk_metadata [] tags links) (MD_Link t) p) as X.
        unfold add_kept in X. cbn [md_key_values md_tags md_links key_values_in tags_in links_in flat_map app] in X.
        rewrite app_nil_r in X. rewrite X. cbn [In]. rewrite Q. intuition.
  - rewrite Q in H1. rewrite in_labels_of in H1. destruct x as [t|t]; cbn in H1; cbn [tags_links_step of_sum insert_once map]; rewrite H1.
    + rewrite (IH seen _ _ _ kept again0 H3 Q). rewrite <- app_assoc. reflexivity.
    + rewrite (IH seen _ _ _ kept again0 H3 Q). rewrite <- app_assoc. reflexivity.
Qed.
