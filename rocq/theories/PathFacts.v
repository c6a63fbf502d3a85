(** * Proofs about paths *)
From Coq Require Import String Ascii.
From Coq Require Import List NArith Arith Bool Lia.
From Verif Require Import Base BaseFacts Path SpecPath.
Import ListNotations.

Lemma component_eqb_eq a b : component_eqb a b = true <-> a = b.
Proof.
  destruct a, b; simpl; try (split; [discriminate|discriminate]); try tauto.
  rewrite str_eqb_eq. split; [intros ->; auto|intros H; inversion H; auto].
Qed.

Lemma components_eqb_eq a b : components_eqb a b = true <-> a = b.
Proof.
  revert b; induction a as [|x a IH]; intros [|y b]; simpl; try (split; [discriminate|discriminate]).
  - tauto.
  - rewrite andb_true_iff, component_eqb_eq, IH. split; [intros [-> ->]; auto|intros H; inversion H; auto].
Qed.

Lemma path_eqb_eq p q : path_eqb p q = true <-> components p = components q.
Proof. apply components_eqb_eq. Qed.

Lemma path_eqb_equiv : eq_equiv path_eqb.
Proof.
  split; [|split].
  - intros x. now apply path_eqb_eq.
  - intros x y. destruct (path_eqb x y) eqn:A; symmetry.
    + apply path_eqb_eq. apply path_eqb_eq in A. auto.
    + apply not_true_iff_false. rewrite path_eqb_eq. apply not_true_iff_false in A.
      rewrite path_eqb_eq in A. auto.
  - intros x y z. rewrite !path_eqb_eq. congruence.
Qed.

Lemma split_on_nonempty sep s : split_on sep s <> [].
Proof. destruct s as [|c s]; simpl; [discriminate|]. destruct (c =? sep)%N; [discriminate|]. destruct (split_on sep s); discriminate. Qed.

Lemma split_on_app sep a b : split_on sep (a ++ sep :: b) = split_on sep a ++ split_on sep b.
Proof.
  induction a as [|c a IH]; simpl.
  - now rewrite N.eqb_refl.
  - destruct (c =? sep)%N; [now rewrite IH|].
    rewrite IH. destruct (split_on sep a) as [|w ws] eqn:E; [now apply split_on_nonempty in E|]. reflexivity.
Qed.

(** Pieces contain no separator. *)
Lemma split_on_pieces sep s w : In w (split_on sep s) -> ~ In sep w.
Proof.
  revert w; induction s as [|c s IH]; intros w; simpl.
  - intros [<-|[]]. auto.
  - destruct (c =? sep)%N eqn:E.
    + intros [<-|I]; auto.
    + destruct (split_on sep s) as [|v vs]; simpl.
      * intros [<-|[]] [->|[]]. now rewrite N.eqb_refl in E.
      * intros [<-|I].
        -- intros [->|J]; [now rewrite N.eqb_refl in E|]. apply (IH v); simpl; auto.
        -- apply IH. now right.
Qed.

Lemma split_on_piece sep w : ~ In sep w -> split_on sep w = [w].
Proof.
  induction w as [|c w IH]; simpl; auto. intros H.
  destruct (c =? sep)%N eqn:E; [apply N.eqb_eq in E; tauto|]. rewrite IH by tauto. reflexivity.
Qed.

Lemma split_on_unsplit ws : ws <> [] -> (forall w, In w ws -> ~ In slash w) -> split_on slash (unsplit ws) = ws.
Proof.
  induction ws as [|w ws IH]; [congruence|]. intros _ H.
  destruct ws as [|v ws].
  - simpl. apply split_on_piece. apply H. now left.
  - change (unsplit (w :: v :: ws)) with (w ++ slash :: unsplit (v :: ws)).
    rewrite split_on_app, split_on_piece by (apply H; now left).
    rewrite IH; [reflexivity|discriminate|]. intros x I. apply H. now right.
Qed.

Lemma unsplit_split s : unsplit (split_on slash s) = s.
Proof.
  induction s as [|c s IH]; simpl; auto.
  destruct (c =? slash)%N eqn:E.
  - apply N.eqb_eq in E. subst c.
    destruct (split_on slash s) as [|w ws] eqn:S; [now apply split_on_nonempty in S|].
    simpl. f_equal. exact IH.
  - destruct (split_on slash s) as [|w ws] eqn:S; [now apply split_on_nonempty in S|].
    destruct ws; simpl in *; now rewrite IH.
Qed.

Definition bodies (ws : list str) : list component := flat_map body_component ws.

Lemma bodies_app a b : bodies (a ++ b) = bodies a ++ bodies b.
Proof. apply flat_map_app. Qed.

Lemma drop_vanishing_bodies ws : bodies (rev (drop_vanishing ws)) = bodies (rev ws).
Proof.
  induction ws as [|w ws IH]; simpl; auto.
  destruct (body_component w) eqn:E; auto.
  rewrite IH, bodies_app. simpl. rewrite E. simpl. now rewrite app_nil_r.
Qed.

Lemma drop_vanishing_head ws w r : drop_vanishing ws = w :: r -> exists c, body_component w = [c] /\ c <> RootDir /\ c <> CurDir.
Proof.
  induction ws as [|v ws IH]; simpl; [discriminate|].
  destruct (body_component v) eqn:E; [exact IH|].
  intros H. inversion H; subst. unfold body_component in *.
  destruct (str_eqb w []); [discriminate|]. destruct (str_eqb w [dot]); [discriminate|].
  destruct (str_eqb w [dot; dot]); eexists; repeat split; discriminate.
Qed.

Lemma drop_vanishing_incl ws w : In w (drop_vanishing ws) -> In w ws.
Proof.
  induction ws as [|v ws IH]; simpl; auto.
  destruct (body_component v); auto.
Qed.

Lemma drop_vanishing_nil ws : drop_vanishing ws = [] -> bodies (rev ws) = [].
Proof. intros H. rewrite <- drop_vanishing_bodies, H. reflexivity. Qed.

Lemma components_eq p : components p = leading p ++ bodies (split_on slash p).
Proof. reflexivity. Qed.

(** A path with a body made of given pieces. *)
Lemma components_abs ws : (forall w, In w ws -> ~ In slash w) -> ws <> [] ->
  components (slash :: unsplit ws) = RootDir :: bodies ws.
Proof.
  intros H N. rewrite components_eq. unfold leading. simpl.
  now rewrite split_on_unsplit.
Qed.

Lemma body_of_nil : body_component [] = []. Proof. reflexivity. Qed.
Lemma body_of_dot : body_component [dot] = []. Proof. reflexivity. Qed.

Lemma components_cur ws : (forall w, In w ws -> ~ In slash w) -> ws <> [] ->
  components (dot :: slash :: unsplit ws) = CurDir :: bodies ws.
Proof.
  intros H N. rewrite components_eq. unfold leading. simpl.
  rewrite split_on_unsplit by assumption. reflexivity.
Qed.

Lemma leading_cases p :
  (exists rest, split_on slash p = [] :: rest /\ rest <> [] /\ leading p = [RootDir] /\ p = slash :: unsplit rest) \/
  (exists rest, split_on slash p = [dot] :: rest /\ leading p = [CurDir]) \/
  (leading p = [] /\ is_absolute p = false /\ forall w rest, split_on slash p = w :: rest -> w <> [dot]).
Proof.
  unfold leading. destruct (is_absolute p) eqn:A.
  - left. destruct p as [|c p]; [discriminate|]. simpl in A. apply N.eqb_eq in A. subst c.
    simpl. exists (split_on slash p). repeat split; auto; [apply split_on_nonempty|now rewrite unsplit_split].
  - right. destruct (split_on slash p) as [|w ws] eqn:E; [now apply split_on_nonempty in E|].
    destruct (str_eqb w [dot]) eqn:D.
    + apply str_eqb_eq in D; subst. left. eauto.
    + right. repeat split; auto. intros w' r H. inversion H; subst. now apply str_eqb_neq.
Qed.

Lemma relative_first_piece p w rest : is_absolute p = false -> split_on slash p = w :: rest -> w = [] -> p = [] .
Proof.
  intros A E ->. destruct p as [|c p]; auto. simpl in *. rewrite A in E.
  destruct (split_on slash p); discriminate.
Qed.

Lemma parent_spec p :
  match parent p with
  | Some d => directory_of (components p) (components d)
  | None => components p = [] \/ components p = [RootDir]
  end.
Proof.
  rewrite (components_eq p).
  assert (PC : forall w, In w (split_on slash p) -> ~ In slash w) by (intros; eapply split_on_pieces; eauto).
  destruct (leading_cases p) as [(rest & E & Nr & L & _)|[(rest & E & L)|(L & A & F)]];
    unfold parent; rewrite L; try rewrite E in *; cbv beta iota zeta.
  - destruct (drop_vanishing (rev rest)) as [|w ws] eqn:D.
    + simpl. right. apply drop_vanishing_nil in D. rewrite rev_involutive in D. now rewrite D.
    + pose proof (drop_vanishing_head _ _ _ D) as (c & Hc & NR & NC).
      assert (B : bodies rest = bodies (rev ws) ++ [c]).
      { rewrite <- (rev_involutive rest), <- drop_vanishing_bodies, D. simpl. rewrite bodies_app. simpl. now rewrite Hc. }
      assert (I : forall x, In x (drop_vanishing ws) -> ~ In slash x).
      { intros x Ix. apply PC. right. apply in_rev. apply drop_vanishing_incl.
        rewrite D. right. now apply drop_vanishing_incl. }
      destruct (rev (drop_vanishing ws)) as [|v vs] eqn:R; exists c.
      * simpl. split; auto. change (bodies ([] :: rest)) with (bodies rest). rewrite B.
        rewrite <- drop_vanishing_bodies, R. reflexivity.
      * split; auto.
        change ([] ++ slash :: unsplit (v :: vs)) with (slash :: unsplit (v :: vs)).
        rewrite components_abs; [|intros x Ix; apply I; apply in_rev; rewrite R; exact Ix|discriminate].
        change (bodies ([] :: rest)) with (bodies rest). rewrite B, <- (drop_vanishing_bodies ws), R. reflexivity.
  - destruct (drop_vanishing (rev rest)) as [|w ws] eqn:D.
    + simpl str_eqb. exists CurDir. apply drop_vanishing_nil in D. rewrite rev_involutive in D.
      split; [discriminate|]. change (bodies ([dot] :: rest)) with (bodies rest). rewrite D. reflexivity.
    + pose proof (drop_vanishing_head _ _ _ D) as (c & Hc & NR & NC).
      assert (B : bodies rest = bodies (rev ws) ++ [c]).
      { rewrite <- (rev_involutive rest), <- drop_vanishing_bodies, D. simpl. rewrite bodies_app. simpl. now rewrite Hc. }
      assert (I : forall x, In x (drop_vanishing ws) -> ~ In slash x).
      { intros x Ix. apply PC. right. apply in_rev. apply drop_vanishing_incl.
        rewrite D. right. now apply drop_vanishing_incl. }
      destruct (rev (drop_vanishing ws)) as [|v vs] eqn:R; exists c.
      * simpl. split; auto. change (bodies ([dot] :: rest)) with (bodies rest). rewrite B.
        rewrite <- drop_vanishing_bodies, R. reflexivity.
      * split; auto.
        change ([dot] ++ slash :: unsplit (v :: vs)) with (dot :: slash :: unsplit (v :: vs)).
        rewrite components_cur; [|intros x Ix; apply I; apply in_rev; rewrite R; exact Ix|discriminate].
        change (bodies ([dot] :: rest)) with (bodies rest). rewrite B, <- (drop_vanishing_bodies ws), R. reflexivity.
  - destruct (drop_vanishing (rev (split_on slash p))) as [|w ws] eqn:D.
    + left. apply drop_vanishing_nil in D. rewrite rev_involutive in D. now rewrite D.
    + pose proof (drop_vanishing_head _ _ _ D) as (c & Hc & NR & NC).
      assert (B : bodies (split_on slash p) = bodies (rev ws) ++ [c]).
      { rewrite <- (rev_involutive (split_on slash p)), <- drop_vanishing_bodies, D. simpl. rewrite bodies_app. simpl. now rewrite Hc. }
      assert (Pre : exists tl, split_on slash p = rev (drop_vanishing ws) ++ tl).
      { assert (S1 : forall l, exists t, rev l = rev (drop_vanishing l) ++ t).
        { induction l as [|a l [t IH]]; simpl; [now exists []|].
          destruct (body_component a); simpl.
          - exists (t ++ [a]). rewrite IH, app_assoc. reflexivity.
          - exists []. now rewrite app_nil_r. }
        destruct (S1 (rev (split_on slash p))) as [t1 H1]. rewrite rev_involutive, D in H1. simpl in H1.
        destruct (S1 ws) as [t2 H2]. rewrite H2 in H1. rewrite H1. rewrite <- !app_assoc. eauto. }
      destruct Pre as [tl Pre].
      exists c. simpl. split; auto. rewrite B, <- (drop_vanishing_bodies ws).
      destruct (rev (drop_vanishing ws)) as [|v vs] eqn:R.
      * reflexivity.
      * rewrite components_eq. rewrite split_on_unsplit; [|discriminate|].
        2:{ intros x Ix. apply PC. rewrite Pre. apply in_app_iff. now left. }
        f_equal. unfold leading.
        assert (NA : is_absolute (unsplit (v :: vs)) = false).
        { assert (v <> []).
          { intros ->. assert (p = []) by (eapply relative_first_piece; [eassumption|rewrite Pre; reflexivity|reflexivity]).
            subst p. simpl in D. discriminate. }
          assert (Hv : ~ In slash v) by (apply PC; rewrite Pre; now left).
          destruct v as [|x v]; [congruence|].
          assert (Q : (x =? slash)%N = false) by (apply N.eqb_neq; intros ->; apply Hv; now left).
          destruct vs; simpl; exact Q. }
        rewrite NA, split_on_unsplit; [|discriminate|intros x Ix; apply PC; rewrite Pre; apply in_app_iff; now left].
        assert (V : v <> [dot]) by (eapply F; rewrite Pre; reflexivity).
        apply str_eqb_neq in V. now rewrite V.
Qed.

(** ** join *)

Lemma is_absolute_app d q : d <> [] -> is_absolute (d ++ q) = is_absolute d.
Proof. destruct d; [congruence|reflexivity]. Qed.

Lemma leading_app d q : d <> [] -> leading (d ++ slash :: q) = leading d.
Proof.
  intros N. unfold leading. rewrite is_absolute_app by assumption.
  destruct (is_absolute d); auto. rewrite split_on_app.
  destruct (split_on slash d) eqn:E; [now apply split_on_nonempty in E|]. reflexivity.
Qed.

Lemma components_app d q : d <> [] ->
  components (d ++ slash :: q) = components d ++ bodies (split_on slash q).
Proof.
  intros N. rewrite !components_eq, leading_app by assumption.
  rewrite split_on_app, bodies_app, app_assoc. reflexivity.
Qed.

Lemma body_no_cur w c : In c (body_component w) -> c <> CurDir /\ c <> RootDir.
Proof.
  unfold body_component. destruct (str_eqb w []); [tauto|]. destruct (str_eqb w [dot]); [tauto|].
  destruct (str_eqb w [dot; dot]); intros [<-|[]]; split; discriminate.
Qed.

Lemma bodies_no_cur ws c : In c (bodies ws) -> c <> CurDir /\ c <> RootDir.
Proof. unfold bodies. rewrite in_flat_map. intros (w & _ & I). eapply body_no_cur; eauto. Qed.

Lemma relative_bodies q : is_absolute q = false ->
  bodies (split_on slash q) = match components q with CurDir :: q' => q' | _ => components q end.
Proof.
  intros A. rewrite components_eq. unfold leading. rewrite A.
  destruct (split_on slash q) as [|w ws] eqn:E; [reflexivity|].
  destruct (str_eqb w [dot]); [reflexivity|]. change ([] ++ bodies (w :: ws)) with (bodies (w :: ws)).
  destruct (bodies (w :: ws)) as [|c l] eqn:B; [reflexivity|].
  destruct c; try reflexivity. exfalso. destruct (bodies_no_cur (w :: ws) CurDir) as [H _]; [rewrite B; now left|congruence].
Qed.

Lemma is_absolute_components q : is_absolute q = true <-> exists cs, components q = RootDir :: cs.
Proof.
  rewrite components_eq. unfold leading. split.
  - intros ->. simpl. eauto.
  - destruct (is_absolute q); auto. intros [cs H].
    destruct (split_on slash q) as [|w ws]; [discriminate|].
    destruct (str_eqb w [dot]); [discriminate|]. change ([] ++ bodies (w :: ws)) with (bodies (w :: ws)) in H.
    destruct (bodies_no_cur (w :: ws) RootDir) as [_ N]; [rewrite H; now left|congruence].
Qed.

Lemma join_spec d q : d <> [] -> is_absolute q = false ->
  components (join d q) = under (components d) (components q).
Proof.
  intros N A. unfold join, under. rewrite A, <- relative_bodies by assumption.
  destruct (rev d) as [|c r] eqn:R.
  - apply (f_equal (@rev _)) in R. rewrite rev_involutive in R. simpl in R. congruence.
  - destruct (c =? slash)%N eqn:E.
    + apply N.eqb_eq in E. subst c.
      apply (f_equal (@rev _)) in R. rewrite rev_involutive in R. simpl in R. subst d.
      rewrite <- app_assoc. simpl app.
      destruct (rev r) as [|x d'] eqn:Q.
      * reflexivity.
      * rewrite !components_app by discriminate.
        change (split_on slash []) with [@nil char]. simpl bodies.
        now rewrite app_nil_r.
    + now apply components_app.
Qed.

Lemma components_nil d : components d = [] -> leading d = [].
Proof. rewrite components_eq. intros H. now apply app_eq_nil in H. Qed.

(** ** resolve_included_path *)

Lemma resolve_inline q : resolve_included_path None q = q.
Proof. reflexivity. Qed.

Lemma resolve_absolute p q : is_absolute q = true -> resolve_included_path (Some p) q = q.
Proof.
  intros A. unfold resolve_included_path. destruct (path_dir p); auto.
  unfold join. now rewrite A.
Qed.

Lemma parent_empty p d : parent p = Some d -> components d = [] -> d = [].
Proof.
  intros P C. pose proof (components_nil d C) as L.
  assert (NA : is_absolute d = false).
  { unfold leading in L. destruct (is_absolute d); [discriminate|reflexivity]. }
  unfold parent in P.
  destruct (leading_cases p) as [(rest & E & Nr & Lp & _)|[(rest & E & Lp)|(Lp & A & F)]];
    rewrite Lp in P; rewrite ?E in P.
  - destruct (drop_vanishing (rev rest)) as [|w ws]; [discriminate|].
    destruct (rev (drop_vanishing ws)); inversion P; subst; discriminate.
  - destruct (drop_vanishing (rev rest)) as [|w ws]; [now inversion P|].
    destruct (rev (drop_vanishing ws)) as [|v vs]; inversion P; subst; [discriminate|].
    exfalso. clear - L. unfold leading in L. simpl in L. discriminate.
  - destruct (drop_vanishing (rev (split_on slash p))) as [|w ws] eqn:D; [discriminate|].
    inversion P; subst. 
    destruct (drop_vanishing ws) as [|v vs] eqn:V; [reflexivity|].
    exfalso. pose proof (drop_vanishing_head _ _ _ V) as (c & Hc & _).
    assert (S : split_on slash (unsplit (rev (v :: vs))) = rev (v :: vs)).
    { apply split_on_unsplit.
      - intros Q. apply (f_equal (@rev _)) in Q. rewrite rev_involutive in Q. discriminate.
      - intros x Ix. apply (split_on_pieces slash p). apply in_rev. apply drop_vanishing_incl.
        rewrite D. right. apply drop_vanishing_incl. rewrite V. now apply in_rev. }
    rewrite components_eq, S in C. apply app_eq_nil in C as [_ C].
    simpl in C. rewrite bodies_app in C. apply app_eq_nil in C as [_ C]. simpl in C. rewrite Hc in C. discriminate.
Qed.

Lemma resolve_relative p q d :
  is_absolute q = false -> d <> [] -> directory_of (components p) d ->
  components (resolve_included_path (Some p) q) = under d (components q).
Proof.
  intros A N (last & NL & E). unfold resolve_included_path, path_dir.
  pose proof (parent_spec p) as P. destruct (parent p) as [d'|] eqn:Pp.
  - destruct P as (last' & NL' & E'). rewrite E in E'. apply app_inj_tail in E' as [-> ->].
    destruct (str_eqb d' []) eqn:Q.
    + apply str_eqb_eq in Q. subst d'. exfalso. apply N. reflexivity.
    + apply str_eqb_neq in Q. now apply join_spec.
  - exfalso. rewrite E in P. destruct P as [P|P].
    + destruct d; discriminate.
    + destruct d as [|x d]; [congruence|]. inversion P. destruct d; discriminate.
Qed.

Lemma resolve_no_dir p q :
  (components p = [] \/ components p = [RootDir] \/ directory_of (components p) []) ->
  resolve_included_path (Some p) q = q.
Proof.
  intros H. unfold resolve_included_path, path_dir.
  pose proof (parent_spec p) as P. destruct (parent p) as [d'|] eqn:Pp; auto.
  destruct P as (last' & NL' & E').
  assert (Z : components d' = []).
  { destruct H as [H|[H|(l & NLl & H)]]; rewrite H in E'.
    - destruct (components d'); discriminate.
    - destruct (components d') as [|x l]; auto. inversion E'. destruct l; discriminate.
    - destruct (components d') as [|x r]; auto. inversion E'. destruct r; discriminate. }
  rewrite (parent_empty p d' Pp Z). reflexivity.
Qed.
