(** * Property C01: directives come out sorted, stably *)
From Coq Require Import String Ascii.
From Coq Require Import List NArith Arith Bool Lia Permutation Sorted.
From Verif Require Import Base BaseFacts Types SortM SpecSort SortFacts.
Import ListNotations.
Local Open Scope nat_scope.

(** For every list of directives: the sort ends, without panicking, with a
    rearrangement [pi] of the input positions such that no directive comes
    after one it must precede, and tied directives keep their input order. *)
Theorem C01_sort_stable (l : list (spanned directive)) :
  exists out pi, sort_directives l = Fine (Some out) /\
    Permutation pi (seq 0 (List.length l)) /\
    map (nth_error l) pi = map Some out /\
    forall i j x y, occurs_before out i j x y ->
      ~ must_precede (item y) (item x) /\
      (tied (item x) (item y) -> forall p q, nth_error pi i = Some p -> nth_error pi j = Some q -> p < q).
Proof.
  destruct (sort_list_indexed key_compare directive_key l key_compare_laws) as (out & pi & E & P & M & H).
  exists out, pi. split; [exact E|]. split; auto. split; auto.
  intros i j x y (L & Hx & Hy).
  assert (LEN : List.length pi = List.length out).
  { apply (f_equal (@List.length _)) in M. now rewrite !map_length in M. }
  destruct (nth_error pi i) as [p|] eqn:Hp; [|apply nth_error_None in Hp; assert (i < List.length out) by (apply nth_error_Some; congruence); lia].
  destruct (nth_error pi j) as [q|] eqn:Hq; [|apply nth_error_None in Hq; assert (j < List.length out) by (apply nth_error_Some; congruence); lia].
  destruct (H i j p q x y L Hp Hq Hx Hy) as [A B].
  destruct key_compare_laws as (CE & CO & CT). split.
  - rewrite <- must_precede_key, CO. destruct (key_compare (directive_key x) (directive_key y)); simpl; congruence.
  - intros [T1 T2] p' q' Ep Eq. injection Ep as <-. injection Eq as <-. apply B.
    rewrite <- must_precede_key in T1, T2. rewrite CO in T2.
    destruct (key_compare (directive_key x) (directive_key y)); simpl in *; congruence.
Qed.

(** In particular nothing is lost or duplicated. *)
Theorem C01_sort_permutation (l : list (spanned directive)) out :
  sort_directives l = Fine (Some out) -> Permutation out l.
Proof.
  destruct (sort_list_spec key_compare directive_key key_compare_laws l) as (o & E & _ & _ & P).
  unfold sort_directives. rewrite E. intros H; injection H as <-. exact P.
Qed.

(** The same for any key with a lawful order: the generic adaptor. *)
Theorem C01_generic_stable {K V} (cmp : K -> K -> comparison) (keyfn : V -> K) l :
  cmp_laws cmp ->
  exists out pi, sort_list cmp keyfn l = Fine (Some out) /\
    Permutation pi (seq 0 (List.length l)) /\
    map (nth_error l) pi = map Some out /\
    forall i j p q x y, i < j ->
      nth_error pi i = Some p -> nth_error pi j = Some q ->
      nth_error out i = Some x -> nth_error out j = Some y ->
      cmp (keyfn x) (keyfn y) <> Gt /\ (cmp (keyfn x) (keyfn y) = Eq -> p < q).
Proof. apply sort_list_indexed. Qed.

(** Calendar dates are totally ordered, so the order is total up to ties. *)
Theorem C01_dates_total a b : before a b \/ a = b \/ before b a.
Proof.
  destruct a as [y m d], b as [y' m' d']. unfold before; simpl.
  destruct (N.lt_trichotomy y y') as [|[->|]]; auto.
  destruct (N.lt_trichotomy m m') as [|[->|]]; auto.
  destruct (N.lt_trichotomy d d') as [|[->|]]; auto.
  - left. right. auto.
  - right. right. right. auto.
  - right. right. right. auto.
Qed.

Example ex_sort :
  let sp := mk_span 0 0 0 in
  let acct := mk_spanned (mk_account Assets (lit "Assets:A")) sp in
  let dir y v := mk_spanned (mk_directive (mk_spanned (mk_date y 1 1) sp) (mk_spanned empty_metadata sp) v) sp in
  let close1 := dir 2024%N (V_Close acct) in
  let note := dir 2024%N (V_Note acct (mk_spanned (lit "n") sp)) in
  let open := dir 2024%N (V_Open acct [] None) in
  let early := dir 2023%N (V_Close acct) in
  sort_directives [close1; note; early; open] = Fine (Some [early; open; close1; note]).
Proof. reflexivity. Qed.

Print Assumptions C01_sort_stable.
