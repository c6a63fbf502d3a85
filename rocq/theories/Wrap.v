(** * Facts for C74: pushes around a ledger *)
From Coq Require Import String Ascii.
From Coq Require Import List NArith ZArith Arith Bool Lia Permutation.
From Verif Require Import Base BaseFacts Text Path PathFacts Sources Types SpecTypes TypesFacts P_Types SortM SpecSort P_Sort Options SpecOptions OptionsFacts P_Options
  Pragma SpecPragma PragmaRun P_Pragma Read SpecRead ReadFacts P_Read
  Token Lexer SpecLexer P_Lexer Peg PegFacts Grammar SpecExpr SpecGrammar SpecDirective SpecDisplay SpecLedger SpecAlike P_Grammar
  Parse SpecParse SpecWhole ParseFacts ParseOnce ParseFile P_File P_Includes P_Parse IncludeTokens P_Order P_Complete AlikeRead AlikeFile AlikeWalk AlikeOptions SortFacts SimCopy SpecPaste Paste P_Paste
  SpecAppend Append P_Append SpecLocal Local P_Local SpecWrap.
Import SpecPragma Read.
Import ListNotations.
Local Open Scope nat_scope.
Local Notation tok := SpecGrammar.tok.

Section Lift.
  Context (T : str -> list (spanned str)) (M : str -> list (span * spanned meta_value)).

  (** After [s'], what is pushed is what is pushed after [s] and, below it, [T]
      and [M]. *)
  Definition lifted (s s' : list event) : Prop :=
    (forall t, tag_stack t s' = tag_stack t s ++ T t) /\ (forall k, meta_stack k s' = meta_stack k s ++ M k) /\ options_of s' = options_of s.

  Section Dues.
    Context (canonicalize : path -> option path) (root : option path).

    Lemma lifted_next s s' d : is_include (item d) = false -> lifted s s' -> due canonicalize [] [] s (here root d) [] ->
      due canonicalize [] [] s' (here root d) [] /\ lifted (s ++ [here root d]) (s' ++ [here root d]).
    Proof.
      intros Ni (Lt & Lm & Lo) D. split.
      - cbn in D |- *. destruct (item d) as [x|[y|y|y|y|y|y|y]]; try discriminate Ni; auto.
        + rewrite Lt. destruct (tag_stack (item y) s); [discriminate|]. reflexivity.
        + rewrite Lm. destruct (meta_stack (item y) s); [discriminate|]. reflexivity.
        + rewrite Lo. exact D.
      - unfold lifted, tag_stack, meta_stack, options_of in *. split; [|split]; intros; rewrite ?fold_left_app, ?flat_map_app; [rewrite Lt|rewrite Lm|rewrite Lo; reflexivity];
          cbn in D |- *; destruct (item d) as [x|[y|y|y|y|y|y|y]]; try reflexivity.
        + destruct (str_eqb (item y) t); reflexivity.
        + destruct (str_eqb (item y) t) eqn:Q; [|reflexivity]. apply str_eqb_eq in Q. subst t. unfold tag_stack in D. destruct (fold_left (tag_effect (item y)) s []); [discriminate|reflexivity].
        + destruct (str_eqb (item (mkv_key y)) k); reflexivity.
        + destruct (str_eqb (item y) k) eqn:Q; [|reflexivity]. apply str_eqb_eq in Q. subst k. unfold meta_stack in D. destruct (fold_left (meta_effect (item y)) s []); [discriminate|reflexivity].
    Qed.
    Lemma lifted_dues ds : Forall (fun d => is_include (item d) = false) ds -> forall s s', lifted s s' -> dues canonicalize [] [] s (map (here root) ds) [] ->
      dues canonicalize [] [] s' (map (here root) ds) [] /\ lifted (s ++ map (here root) ds) (s' ++ map (here root) ds).
    Proof.
      intro F. induction F as [|d ds Ni F IH]; intros s s' Li D.
      - cbn. rewrite !app_nil_r. split; [constructor|exact Li].
      - cbn [map] in *. inversion D as [|? ? ? rs1 rs2 De Dr Q0 Q1 Q2]; subst. apply app_eq_nil in Q2. destruct Q2 as [-> ->].
        destruct (lifted_next _ _ _ Ni Li De) as [De' Li']. destruct (IH _ _ Li' Dr) as [Dr' Le]. rewrite <- !app_assoc in Le. split; [|exact Le].
        change (@nil report) with (@nil report ++ []). constructor; assumption.
    Qed.
  End Dues.

  (** A directive and the same one with what is below in addition. *)
  Record carries (d d' : directive) : Prop := {
    ca_date : same_item (dir_date d) (dir_date d');
    ca_variant : alike_variant (dir_variant d) (dir_variant d');
    ca_links : same_elements same_item (md_links (item (dir_metadata d))) (md_links (item (dir_metadata d')));
    ca_tags : forall x, In x (tags_of d') <-> In x (tags_of d) \/ T x <> [];
    ca_once : NoDup (tags_of d) /\ NoDup (tags_of d');
    ca_keys : forall x, In x (keys_of d') <-> In x (keys_of d) \/ M x <> [];
    ca_keys_once : NoDup (keys_of d) /\ NoDup (keys_of d');
    ca_values : forall e, In e (md_key_values (item (dir_metadata d))) -> exists e', In e' (md_key_values (item (dir_metadata d'))) /\ same_key_value e e';
    ca_new : forall e, In e (md_key_values (item (dir_metadata d'))) -> ~ In (item (fst e)) (keys_of d) -> hd_error (M (item (fst e))) = Some (span_of (fst e), snd e)
  }.

  Lemma lifted_augmented seen seen0 seen' d d' x x' : Forall2 (alike_event any) seen seen0 -> lifted seen0 seen' -> alike d d' -> distinct_metadata (item (dir_metadata d)) ->
    augmented seen d x -> augmented seen' d' x' -> carries x x'.
  Proof.
    intros F (Lt & Lm & _) Al (Nt & Nl & Nk) A A'. destruct Al as [Ad [Ak [At Ali]] Av].
    pose proof (elements_map item _ _ _ (fun _ _ H => H) At) as Pt.
    pose proof (elements_map (fun e => item (fst e)) _ _ _ (fun _ _ H => proj1 H) Ak) as Pk.
    assert (Kt : forall t, In t (tags_of d) <-> In t (tags_of d')) by (intro t; split; apply Permutation_in; [|symmetry]; exact Pt).
    assert (Kk : forall t, In t (keys_of d) <-> In t (keys_of d')) by (intro t; split; apply Permutation_in; [|symmetry]; exact Pk).
    assert (St : forall t, tag_stack t seen' <> [] <-> tag_stack t seen <> [] \/ T t <> []).
    { intro t. rewrite Lt. pose proof (alike_none _ _ _ (alike_tag_stack any t _ _ F)) as H. destruct (tag_stack t seen0) as [|y l]; cbn.
      - tauto.
      - split; [intro; left; intro Q; apply H in Q; discriminate|intros _; discriminate]. }
    assert (Sm : forall k, meta_stack k seen' <> [] <-> meta_stack k seen <> [] \/ M k <> []).
    { intro k. rewrite Lm. pose proof (alike_none _ _ _ (alike_meta_stack any k _ _ F)) as H. destruct (meta_stack k seen0) as [|y l]; cbn.
      - tauto.
      - split; [intro; left; intro Q; apply H in Q; discriminate|intros _; discriminate]. }
    constructor.
    - rewrite (aug_date _ _ _ A), (aug_date _ _ _ A'). exact Ad.
    - rewrite (aug_variant _ _ _ A), (aug_variant _ _ _ A'). exact Av.
    - rewrite (aug_links _ _ _ A), (aug_links _ _ _ A'). exact Ali.
    - intro y. pose proof (augmented_tags _ _ _ A y) as H1. pose proof (augmented_tags _ _ _ A' y) as H2. specialize (Kt y). specialize (St y). unfold tags_of in *. tauto.
    - split; [apply (aug_tags_once _ _ _ A); exact Nt|]. apply (aug_tags_once _ _ _ A'). eapply Permutation_NoDup; [exact Pt|exact Nt].
    - intro y. pose proof (augmented_keys _ _ _ A y) as H1. pose proof (augmented_keys _ _ _ A' y) as H2. specialize (Kk y). specialize (Sm y). unfold keys_of in *. tauto.
    - split; [apply (aug_keys_once _ _ _ A); exact Nk|]. apply (aug_keys_once _ _ _ A'). eapply Permutation_NoDup; [exact Pk|exact Nk].
    - intros [k v] H. apply (aug_keys _ _ _ A) in H. destruct H as [H|[No H]].
      + destruct (elements_in _ _ _ Ak _ H) as ([k' v'] & Hin & S). exists (k', v'). split; [apply (aug_keys _ _ _ A'); auto|exact S].
      + pose proof (alike_meta_stack any (item k) _ _ F) as Fm. destruct (meta_stack (item k) seen) as [|y st] eqn:Y; [discriminate|]. cbn in H. injection H as ->.
        inversion Fm as [|? [sp' v'] ? st' [_ Sv] _ Q0 Q1]. exists (mk_spanned (item k) sp', v'). split; [|split; [reflexivity|exact Sv]].
        apply (aug_keys _ _ _ A'). right. split; [|cbn; rewrite Lm, <- Q1; reflexivity]. intro Hin. apply No. apply Kk. exact Hin.
    - intros [k v] H No. cbn [fst snd] in *. pose proof H as Hin. apply (aug_keys _ _ _ A') in H. pose proof (augmented_keys _ _ _ A (item k)) as H1. fold (keys_of x) (keys_of d) in H1.
      assert (N1 : ~ In (item k) (keys_of d)) by tauto. assert (N2 : meta_stack (item k) seen = []) by (destruct (meta_stack (item k) seen); [reflexivity|exfalso; apply No, H1; right; discriminate]).
      destruct H as [H|[_ H]]; [exfalso; apply N1, Kk; unfold keys_of; apply in_map_iff; exists (k, v); auto|].
      apply (alike_none _ _ _ (alike_meta_stack any (item k) _ _ F)) in N2. rewrite Lm, N2 in H. exact H.
  Qed.

  Lemma lifted_yields canonicalize root ds : forall seen seen0 seen' ds' ys ys', Forall2 (alike_event any) seen seen0 -> lifted seen0 seen' ->
    Forall2 (alike_declaration any) ds ds' -> Forall (fun d => is_include (item d) = false) ds' -> dues canonicalize [] [] seen0 (map (here root) ds') [] ->
    yields seen (map (here root) ds) ys -> yields seen' (map (here root) ds') ys' -> Forall2 (fun d d' => carries (item d) (item d')) ys ys'.
  Proof.
    induction ds as [|d ds IH]; intros seen seen0 seen' ds0 ys ys' F Li Al Ni D Y Y'; inversion Al as [|? d' ? ds' Ad Ar]; subst.
    - inversion Y; inversion Y'; subst. constructor.
    - cbn [map] in *. inversion Ni as [|? ? N1 N2]; subst. inversion D as [|? ? ? rs1 rs2 De Dr Q0 Q1 Q2]; subst. apply app_eq_nil in Q2. destruct Q2 as [-> ->].
      destruct (lifted_next _ _ _ _ _ N1 Li De) as [_ Li'].
      assert (F' : Forall2 (alike_event any) (seen ++ [here root d]) (seen0 ++ [here root d'])).
      { apply Forall2_app; [exact F|]. constructor; [|constructor]. constructor. exact Ad. }
      inversion Y as [|? ? ? x y yr As Au Sp Yr|? ? ? ? As Yr]; subst; inversion Y' as [|? ? ? x' y' yr' As' Au' Sp' Yr'|? ? ? ? As' Yr']; subst.
      + constructor; [|exact (IH _ _ _ _ _ _ F' Li' Ar N2 Dr Yr Yr')]. cbn in As, As'. inversion Ad as [z z' Iz Iz' Alz Di|p p' Ip Ip' Ap].
        * rewrite Iz in As. rewrite Iz' in As'. injection As as <-. injection As' as <-. exact (lifted_augmented _ _ _ _ _ _ _ F Li Alz Di Au Au').
        * rewrite Ip in As. discriminate.
      + cbn in As, As'. inversion Ad as [z z' Iz Iz' Alz Di|p p' Ip Ip' Ap]; [rewrite Iz' in As'|rewrite Ip in As]; discriminate.
      + cbn in As, As'. inversion Ad as [z z' Iz Iz' Alz Di|p p' Ip Ip' Ap]; [rewrite Iz in As|rewrite Ip' in As']; discriminate.
      + exact (IH _ _ _ _ _ _ F' Li' Ar N2 Dr Yr Yr').
  Qed.
End Lift.

(** ** One tag, or one key *)
Definition only_tag (x : spanned str) (t : str) : list (spanned str) := if str_eqb (item x) t then [x] else [].
Definition only_key (x : meta_key_value) (k : str) : list (span * spanned meta_value) :=
  if str_eqb (item (mkv_key x)) k then [(span_of (mkv_key x), mkv_value x)] else [].

Lemma carries_tag x d d' : carries (only_tag x) (fun _ => []) d d' -> with_tag (item x) d d'.
Proof.
  intros [Da Va Li Ta [N1 N2] Ke [K1 K2] Vs New]. constructor; auto.
  - apply (same_keys_elements (fun e => item (fst e))); auto.
    + intros y z [H _]. exact H.
    + intro k. specialize (Ke k). unfold keys_of in Ke. tauto.
  - intro y. rewrite Ta. unfold only_tag. destruct (str_eqb (item x) y) eqn:Q.
    + apply str_eqb_eq in Q. subst y. split; intros _; right; [reflexivity|discriminate].
    + split; intros [H|H]; auto; [contradiction|]. subst y. assert (str_eqb (item x) (item x) = true) by (apply str_eqb_eq; reflexivity). congruence.
Qed.

Lemma carries_key x d d' : carries (fun _ => []) (only_key x) d d' -> with_key (item (mkv_key x)) (item (mkv_value x)) d d'.
Proof.
  intros [Da Va Li Ta [N1 N2] Ke [K1 K2] Vs New].
  assert (Oa : only_key x (item (mkv_key x)) = [(span_of (mkv_key x), mkv_value x)]).
  { unfold only_key. replace (str_eqb (item (mkv_key x)) (item (mkv_key x))) with true by (symmetry; apply str_eqb_eq; reflexivity). reflexivity. }
  assert (Oo : forall k, k <> item (mkv_key x) -> only_key x k = []).
  { intros k Ne. unfold only_key. destruct (str_eqb (item (mkv_key x)) k) eqn:Q; [|reflexivity]. apply str_eqb_eq in Q. congruence. }
  constructor; auto.
  - apply (same_keys_elements item); auto.
    + intro t. specialize (Ta t). unfold tags_of in Ta. tauto.
    + intros t H. assert (Ht : In (item t) (tags_of d')) by (apply Ta; left; apply in_map; exact H). apply in_map_iff in Ht. destruct Ht as (y & Q & Hy). exists y. split; [exact Hy|symmetry; exact Q].
  - intro Had. apply (same_keys_elements (fun e => item (fst e))); auto.
    + intros y z [H _]. exact H.
    + intro k. specialize (Ke k). fold (keys_of d) (keys_of d'). destruct (list_eq_dec N.eq_dec k (item (mkv_key x))) as [->|Ne]; [tauto|]. rewrite (Oo _ Ne) in Ke. tauto.
  - intro No. exists (mkv_key x), (mkv_value x). split; [reflexivity|]. split; [reflexivity|].
    assert (Hk : In (item (mkv_key x)) (keys_of d')) by (apply Ke; right; rewrite Oa; discriminate).
    apply in_map_iff in Hk. destruct Hk as ([k v] & Qk & Hin). cbn in Qk. pose proof (New _ Hin) as Hd. cbn [fst snd] in Hd. rewrite Qk in Hd. specialize (Hd No). rewrite Oa in Hd. injection Hd as Q1 Q2.
    apply (same_keys_elements (fun e => item (fst e))).
    + intros y z [H _]. exact H.
    + cbn [map fst]. constructor; [exact No|exact K1].
    + exact K2.
    + intro y. cbn [map fst]. fold (keys_of d) (keys_of d'). specialize (Ke y). destruct (list_eq_dec N.eq_dec y (item (mkv_key x))) as [->|Ne].
      * split; [intros _; apply Ke; right; rewrite Oa; discriminate|intros _; left; reflexivity].
      * rewrite (Oo _ Ne) in Ke. split; [intros [H|H]; [congruence|tauto]|intro H; right; tauto].
    + intros e [<-|He]; [|apply Vs; exact He]. exists (k, v). split; [exact Hin|]. split; [symmetry; exact Qk|]. cbn. rewrite <- Q2. destruct (item (mkv_value x)); cbn; repeat split; reflexivity.
Qed.
