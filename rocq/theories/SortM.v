(** * SortM: the bucket sort of src/sort.rs *)
From Coq Require Import List NArith Arith Bool.
From Verif Require Import Base Types.
Import ListNotations.
Local Open Scope nat_scope.

Section Sort.
  (** [Ord] of the keys; the order laws are assumed by the theorems only. *)
  Context {K V : Type} (cmp : K -> K -> comparison) (keyfn : V -> K).

  (** [BTreeMap<K, VecDeque<V>>]: entries in ascending order of key. (sort.rs 9.) *)
  Notation buckets := (list (K * list V)).

  (** [BTreeMap::get] (sort.rs 24.) *)
  Fixpoint bt_get (k : K) (b : buckets) : option (list V) :=
    match b with
    | [] => None
    | (k', vs) :: b' => match cmp k k' with Eq => Some vs | Lt => None | Gt => bt_get k b' end
    end.

  (** [BTreeMap::insert], also used for assignment through [get_mut]: the
      stored key is kept. (sort.rs 26-32.) *)
  Fixpoint bt_insert (k : K) (vs : list V) (b : buckets) : buckets :=
    match b with
    | [] => [(k, vs)]
    | (k', vs') :: b' =>
        match cmp k k' with
        | Eq => (k', vs) :: b'
        | Lt => (k, vs) :: b
        | Gt => (k', vs') :: bt_insert k vs b'
        end
    end.

  (** sort.rs 22-36: one round of the loop in [Sort::new]. *)
  Definition push_item (b : buckets) (x : V) : outcome buckets :=
    let key := keyfn x in
    match bt_get key b with
    | None =>
        let b1 := bt_insert key [] b in
        match bt_get key b1 with
        | None => Panic
        | Some bucket => Fine (bt_insert key (bucket ++ [x]) b1)
        end
    | Some bucket => Fine (bt_insert key (bucket ++ [x]) b)
    end.

  (** sort.rs 21-34. *)
  Fixpoint push_items (b : buckets) (l : list V) : outcome buckets :=
    match l with
    | [] => Fine b
    | x :: l' => match push_item b x with Fine b' => push_items b' l' | Panic => Panic end
    end.

  (** sort.rs 7-10: [Sort]. *)
  Record sort := mk_sort { head_bucket : option (list V); tail_buckets : buckets }.

  (** sort.rs 13-40: [Sort::new]. *)
  Definition sort_new (l : list V) : outcome sort :=
    match push_items [] l with
    | Fine b => Fine (mk_sort None b)
    | Panic => Panic
    end.

  (** sort.rs 49-59: [Iterator::next]. *)
  Definition sort_next (s : sort) : option V * sort :=
    let s1 :=
      if match head_bucket s with None => true | Some [] => true | Some _ => false end
      then match tail_buckets s with
           | [] => mk_sort None []
           | (_, vs) :: b => mk_sort (Some vs) b
           end
      else s in
    match head_bucket s1 with
    | None => (None, s1)
    | Some [] => (None, s1)
    | Some (x :: vs) => (Some x, mk_sort (Some vs) (tail_buckets s1))
    end.

  (** [Iterator::collect]: call [next] until it answers [None].  [fuel] bounds
      the number of calls; [None] if it was not enough (excluded by
      [P_Sort.C01_sort_stable]). *)
  Fixpoint sort_collect (fuel : nat) (s : sort) : option (list V) :=
    match fuel with
    | O => None
    | S f =>
        match sort_next s with
        | (None, _) => Some []
        | (Some x, s') => option_map (cons x) (sort_collect f s')
        end
    end.

  (** sort.rs 79-85, with [collect] at lib.rs 240-250. *)
  Definition sort_list (l : list V) : outcome (option (list V)) :=
    match sort_new l with
    | Fine s => Fine (sort_collect (S (length l)) s)
    | Panic => Panic
    end.
End Sort.

(** lib.rs 242-249: the sort key of a directive. *)
Definition variant_rank (v : variant) : N :=
  match v with
  | V_Open _ _ _ => 0
  | V_Balance _ _ => 1
  | _ => 2
  end%N.
(** lib.rs 240-249. *)
Definition directive_key (d : spanned directive) : date * N :=
  (item (dir_date (item d)), variant_rank (dir_variant (item d))).

(** [Ord] of the pair (date, u8): lexicographic. *)
Definition key_compare (a b : date * N) : comparison :=
  match date_compare (fst a) (fst b) with
  | Eq => N.compare (snd a) (snd b)
  | c => c
  end.

(** lib.rs 239-252: the sorted directives. *)
Definition sort_directives (l : list (spanned directive)) : outcome (option (list (spanned directive))) :=
  sort_list key_compare directive_key l.
