(** * Facts about whole directives and parts of them *)
From Coq Require Import String Ascii.
From Coq Require Import List NArith ZArith Arith Bool Lia Permutation.
From Verif Require Import Base BaseFacts Types SpecTypes TypesFacts P_Types Options Decimal SpecDecimal P_Expr Cost SpecCost P_Cost
  Token Peg Grammar SpecGrammar PegFacts ExprFacts DedupFacts GrammarSound GrammarSafe GrammarComplete GrammarDirectives SpecDirective.
Import ListNotations.
Local Open Scope nat_scope.

(** ** Repetitions *)
Section Once.
  Context {A : Type} (label : A -> problem) (place : A -> span).

  Lemma dedup_counts : forall seen l k a, dedup label seen l k a -> forall p,
    count_occ problem_dec (map label l) p =
    count_occ problem_dec (map label k) p + count_occ problem_dec (map label a) p.
  Proof.
    induction 1 as [seen|seen x l k a H _ IH|seen x l k a H _ IH]; intro p; [reflexivity| |]; cbn [map count_occ];
      specialize (IH p); destruct (problem_dec (label x) p); lia.
  Qed.
  Lemma dedup_first : forall seen l k a, dedup label seen l k a -> forall x, In x k ->
    exists before after, l = before ++ x :: after /\ ~ In (label x) (map label before).
  Proof.
    induction 1 as [seen|seen x l k a H D IH|seen x l k a H D IH]; intros y Y; [destruct Y| |].
    - destruct Y as [->|Y]; [exists [], l; split; [reflexivity|intros []]|].
      destruct (IH _ Y) as (b & c & -> & N). exists (x :: b), c. split; [reflexivity|]. intros [Z|Z]; [|exact (N Z)].
      apply dedup_kept in D. destruct D as (_ & B & _). apply B in Y. destruct Y as [_ Y]. apply Y. left. exact Z.
    - destruct (IH _ Y) as (b & c & -> & N). exists (x :: b), c. split; [reflexivity|]. intros [Z|Z]; [|exact (N Z)].
      apply dedup_kept in D. destruct D as (_ & B & _). apply B in Y. destruct Y as [_ Y]. apply Y. rewrite <- Z. exact H.
  Qed.
  Lemma dedup_again : forall seen l k a, dedup label seen l k a -> forall x, In x a ->
    exists before after, l = before ++ x :: after /\ (In (label x) seen \/ In (label x) (map label before)).
  Proof.
    induction 1 as [seen|seen x l k a H D IH|seen x l k a H D IH]; intros y Y; [destruct Y| |].
    - destruct (IH _ Y) as (b & c & -> & N). exists (x :: b), c. split; [reflexivity|]. cbn in *. tauto.
    - destruct Y as [->|Y]; [exists [], l; split; [reflexivity|left; exact H]|].
      destruct (IH _ Y) as (b & c & -> & N). exists (x :: b), c. split; [reflexivity|]. cbn in *. tauto.
  Qed.

  Lemma dedup_once_each l k a : dedup label [] l k a -> once_each label place l k (map (repeated label place) a).
  Proof.
    intro D. destruct (dedup_kept _ _ _ _ _ D) as (N & B & C). split.
    - exact N.
    - intro p. split; intro P; apply in_map_iff in P; destruct P as (x & <- & X).
      + apply in_map. apply B. exact X.
      + apply C in X. destruct X as [[]|X]. exact X.
    - intros x X. eapply dedup_first; eassumption.
    - intro p. rewrite map_map. cbn [rp_problem repeated]. change (map (fun x => label x) a) with (map label a).
      rewrite (dedup_counts _ _ _ _ D p).
      assert (L : count_occ problem_dec (map label k) p <= 1) by (apply NoDup_count_occ; exact N).
      destruct (count_occ problem_dec (map label k) p) as [|[|m]] eqn:K; [|reflexivity|lia].
      apply count_occ_not_In in K. cbn [Nat.add].
      assert (Z : count_occ problem_dec (map label a) p = 0).
      { apply count_occ_not_In. intro X. apply K. apply in_map_iff in X. destruct X as (x & <- & X).
        destruct (dedup_again _ _ _ _ D _ X) as (b & c & -> & _). destruct (C x) as [[]|Y]; [|exact Y].
        apply in_or_app. right. left. reflexivity. }
      rewrite Z. reflexivity.
    - intros e He. apply in_map_iff in He. destruct He as (x & <- & X).
      destruct (dedup_again _ _ _ _ D _ X) as (b & c & -> & [[]|Z]). exists b, x, c. auto.
    - destruct (dedup_none_iff _ _ _ _ _ D) as [F G]. split.
      + intro X. apply map_eq_nil in X. apply F in X. apply X.
      + intro X. rewrite (G (conj X (fun x _ => @in_nil _ _))). reflexivity.
  Qed.
End Once.

Lemma collects_once l md es : collects l md es ->
  exists kept, once_each metadatum_label metadatum_place l kept es /\
    md = mk_metadata (key_values_in kept) (tags_in kept) (links_in kept).
Proof. intros [kept again D]. exists kept. split; [apply dedup_once_each; exact D|reflexivity]. Qed.

(** ** Merging *)
Lemma NoDup_join {A} (l1 l2 : list A) : NoDup l1 -> NoDup l2 -> (forall x, In x l1 -> ~ In x l2) -> NoDup (l1 ++ l2).
Proof.
  induction l1 as [|x l1 IH]; intros H1 H2 D; [exact H2|]. cbn. apply NoDup_cons_iff in H1. destruct H1 as [Hx H1]. constructor.
  - rewrite in_app_iff. intros [X|X]; [exact (Hx X)|]. exact (D x (or_introl eq_refl) X).
  - apply IH; auto. intros y Y. apply D. right. exact Y.
Qed.
Section Merge.
  Context (dup : list N -> problem) (dup_inj : forall s t, dup s = dup t -> s = t).

  Lemma merges_kept old new result es : NoDup (map item old) -> merges dup old new result es ->
    NoDup (map item result) /\ (forall s, In s (map item result) <-> In s (map item old) \/ In s (map item new)) /\
    (exists fresh, result = old ++ fresh /\ incl fresh new).
  Proof.
    intros No [fresh again D -> _]. destruct (dedup_kept _ _ _ _ _ D) as (N & B & C). split; [|split].
    - rewrite map_app. apply NoDup_join; auto.
      + apply (NoDup_map_inv dup). rewrite map_map. exact N.
      + intros s Ho Hf. apply in_map_iff in Hf. destruct Hf as (x & <- & X). apply B in X. destruct X as [_ X]. apply X.
        apply in_map_iff in Ho. destruct Ho as (y & Y1 & Y2). apply in_map_iff. exists y. rewrite Y1. auto.
    - intro s. rewrite map_app, in_app_iff. split; intros [H|H]; auto.
      + right. apply in_map_iff in H. destruct H as (x & <- & X). apply in_map. apply B. exact X.
      + apply in_map_iff in H. destruct H as (x & <- & X). apply C in X. destruct X as [X|X].
        * left. apply in_map_iff in X. destruct X as (y & Y1 & Y2). apply dup_inj in Y1. rewrite <- Y1. apply in_map. exact Y2.
        * right. apply in_map_iff in X. destruct X as (y & Y1 & Y2). apply dup_inj in Y1. rewrite <- Y1. apply in_map. exact Y2.
    - exists fresh. split; [reflexivity|]. intros x X. apply B. exact X.
  Qed.

  Lemma dedup_old_new : forall seen l k a, dedup (fun x : spanned (list N) => dup (item x)) seen l k a -> NoDup (map item l) ->
    forall x, In x a <-> In x l /\ In (dup (item x)) seen.
  Proof.
    induction 1 as [seen|seen x l k a H D IH|seen x l k a H D IH]; intros Nd y; cbn [map] in Nd.
    - cbn. tauto.
    - apply NoDup_cons_iff in Nd. destruct Nd as [Nx Nd]. rewrite (IH Nd). cbn. split.
      + intros [Y [Z|Z]]; [|auto]. exfalso. apply dup_inj in Z. apply Nx. rewrite Z. apply in_map. exact Y.
      + intros [[->|Y] Z]; [contradiction|]. auto.
    - apply NoDup_cons_iff in Nd. destruct Nd as [Nx Nd]. cbn [In]. rewrite (IH Nd). split.
      + intros [->|[Y Z]]; auto.
      + intros [[->|Y] Z]; auto.
  Qed.

  Lemma merges_errors old new result es : NoDup (map item new) -> merges dup old new result es ->
    NoDup (map rp_problem es) /\
    forall p, In p (map rp_problem es) <-> exists s, p = dup s /\ In s (map item old) /\ In s (map item new).
  Proof.
    intros Nn [fresh again D _ F].
    assert (M : map rp_problem es = map (fun x => dup (item x)) again).
    { clear - F. induction F as [|x e l l' (y & _ & _ & ->) _ IH]; [reflexivity|]. cbn. f_equal. exact IH. }
    assert (Na : NoDup (map item again)).
    { clear F M. revert Nn. induction D as [seen|seen x l k a H D IH|seen x l k a H D IH]; cbn [map]; intro Nn; [constructor| |].
      - apply IH. inversion Nn; assumption.
      - apply NoDup_cons_iff in Nn. destruct Nn as [Nx Nn]. constructor; [|exact (IH Nn)].
        intro X. apply Nx. apply in_map_iff in X. destruct X as (y & E & Y). rewrite <- E. apply in_map.
        apply (dedup_old_new _ _ _ _ D Nn) in Y. apply Y. }
    rewrite M. split.
    - rewrite <- map_map. apply FinFun.Injective_map_NoDup; [exact dup_inj|exact Na].
    - intro p. rewrite in_map_iff. split.
      + intros (x & <- & X). apply (dedup_old_new _ _ _ _ D Nn) in X. destruct X as [X1 X2]. exists (item x). split; [reflexivity|].
        split; [|apply in_map; exact X1]. apply in_map_iff in X2. destruct X2 as (y & Y1 & Y2). apply dup_inj in Y1. rewrite <- Y1.
        apply in_map. exact Y2.
      + intros (s & -> & O & X). apply in_map_iff in X. destruct X as (x & <- & X). exists x. split; [reflexivity|].
        apply (dedup_old_new _ _ _ _ D Nn). split; [exact X|]. apply in_map_iff in O. destruct O as (y & Y1 & Y2).
        apply in_map_iff. exists y. rewrite Y1. auto.
  Qed.
  Lemma merges_places old new result es : merges dup old new result es ->
    forall e, In e es -> exists y, In y old /\ e = mk_report (dup (item y)) (span_of y) [].
  Proof.
    intros [fresh again D _ F] e He. clear D. induction F as [|x e' l l' (y & Y1 & Y2 & ->) F IH]; [destruct He|].
    destruct He as [<-|He]; [|exact (IH He)]. exists y. rewrite Y2. auto.
  Qed.
End Merge.

(** ** What is inside an expression *)
Definition arith (t : token) : bool :=
  match t with T_Number _ | T_Plus | T_Minus | T_Asterisk | T_Slash | T_Lparen | T_Rparen => true | _ => false end.
Lemma sum_inside I :
  (forall i j e, sum I i j e -> forall k t, i <= k < j -> tok I k t -> arith t = true) /\
  (forall i j e, product I i j e -> forall k t, i <= k < j -> tok I k t -> arith t = true) /\
  (forall i j e, factor I i j e -> forall k t, i <= k < j -> tok I k t -> arith t = true) /\
  (forall i j e, primary I i j e -> forall k t, i <= k < j -> tok I k t -> arith t = true).
Proof.
  assert (X : forall k t0 i t, tok I i t0 -> arith t0 = true -> tok I k t -> k = i -> arith t = true).
  { intros k t0 i t T A T' ->. rewrite (tok_fun _ _ _ _ T' T). exact A. }
  assert (B : forall i j k t0, tok I j t0 -> arith t0 = true ->
    (forall m t, i <= m < j -> tok I m t -> arith t = true) -> (forall m t, S j <= m < k -> tok I m t -> arith t = true) ->
    forall m t, i <= m < k -> tok I m t -> arith t = true).
  { intros i j k t0 T A H H' m t M Tm. destruct (lt_eq_lt_dec m j) as [[L|L]|L]; [eapply H; [|exact Tm]; lia|exact (X m _ _ t T A Tm L)|eapply H'; [|exact Tm]; lia]. }
  assert (C : forall i j t0, tok I i t0 -> arith t0 = true ->
    (forall m t, S i <= m < j -> tok I m t -> arith t = true) -> forall m t, i <= m < j -> tok I m t -> arith t = true).
  { intros i j t0 T A H m t M Tm. destruct (Nat.eq_dec m i) as [L|L]; [exact (X m _ _ t T A Tm L)|eapply H; [|exact Tm]; lia]. }
  apply expr_mutind; auto.
  - intros i j k a b S IHs T P IHp. exact (B i j k _ T eq_refl IHs IHp).
  - intros i j k a b S IHs T P IHp. exact (B i j k _ T eq_refl IHs IHp).
  - intros i j k a b S IHs T P IHp. exact (B i j k _ T eq_refl IHs IHp).
  - intros i j k a b S IHs T P IHp. exact (B i j k _ T eq_refl IHs IHp).
  - intros i j e T P IH. exact (C i j _ T eq_refl IH).
  - intros i j e T P IH. exact (C i j _ T eq_refl IH).
  - intros i d T m t M Tm. eapply X; [exact T|reflexivity|exact Tm|lia].
  - intros i j e T S IH T' m t M Tm. destruct (Nat.eq_dec m j) as [->|L].
    + eapply X; [exact T'|reflexivity|exact Tm|reflexivity].
    + refine (C i j _ T eq_refl IH m t _ Tm). lia.
Qed.

(** ** The lines of a transaction *)
Section Lines.
  Context (E : grammar_env) (I : input) (names : account_type -> list N).
  Notation Line := (silent (body_line_at E I names)).

  Lemma star_app {A} (R : nat -> nat -> A -> list report -> Prop) i j k l l' es es' :
    star R i j l es -> star R j k l' es' -> star R i k (l ++ l') (es ++ es').
  Proof.
    intros H H'. induction H as [i|i j m a l e1 e2 H _ IH]; [exact H'|]. cbn. rewrite <- app_assoc. econstructor; eauto.
  Qed.
  Lemma metadata_lines i j l es : star (silent (metadata_line E I names)) i j l es ->
    star Line i j (map BL_Metadatum l) [].
  Proof.
    induction 1 as [i|i j k a l e1 e2 [H _] _ IH]; [constructor|]. cbn.
    change (@nil report) with (@nil report ++ []). econstructor; [|exact IH]. split; [constructor; exact H|reflexivity].
  Qed.
  Lemma metadata_first_app l ls : metadata_first ls = [] -> metadata_first (map BL_Metadatum l ++ ls) = l.
  Proof. intro H. induction l as [|m l IH]; cbn; congruence. Qed.
  Lemma postings_with_app l ls : postings_with (map BL_Metadatum l ++ ls) = postings_with ls.
  Proof. induction l as [|m l IH]; cbn; auto. Qed.

  Definition holds (p : spanned posting) (g : spanned posting * list metadatum) : Prop :=
    fst g = p /\ exists es, collects (snd g) (item (po_metadata (item p))) es.

  Lemma posting_lines i j l es : star (posting_at E I names) i j l es ->
    exists ls, star Line i j ls [] /\ metadata_first ls = [] /\ Forall2 holds l (postings_with ls).
  Proof.
    induction 1 as [i|i j k a l e1 e2 H _ (ls & St & Mf & F)].
    - exists []. repeat split; constructor.
    - destruct H as [a b c d e f g j flag account amount currency cost price md es T Fl Ac Am Cu Co Pr L [lm M C Sp]].
      exists (BL_Posting (mk_spanned (mk_posting flag account amount currency cost price md) (text I (S i) f)) :: map BL_Metadatum lm ++ ls).
      split; [|split; [reflexivity|]].
      + change (@nil report) with (@nil report ++ @nil report ++ []). econstructor.
        * split; [|reflexivity]. constructor. econstructor; eassumption.
        * eapply star_app; [|exact St]. eapply metadata_lines. exact M.
      + cbn [postings_with]. rewrite (metadata_first_app _ _ Mf), postings_with_app. constructor; [|exact F].
        split; [reflexivity|]. exists es. exact C.
  Qed.
End Lines.
