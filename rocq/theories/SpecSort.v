(** * Specification of stable sorting of directives *)
From Coq Require Import List NArith Arith Bool.
From Verif Require Import Base Types.
Import ListNotations.

(** Calendar order of dates. *)
Definition before (a b : date) : Prop :=
  (d_year a < d_year b)%N \/
  (d_year a = d_year b /\
    ((d_month a < d_month b)%N \/ (d_month a = d_month b /\ (d_day a < d_day b)%N))).

Definition is_open (d : directive) : Prop := exists a c b, dir_variant d = V_Open a c b.
Definition is_balance (d : directive) : Prop := exists a t, dir_variant d = V_Balance a t.

(** [x] must not come after [y]... *)
Definition must_precede (x y : directive) : Prop :=
  before (item (dir_date x)) (item (dir_date y)) \/
  (item (dir_date x) = item (dir_date y) /\
    ((is_open x /\ ~ is_open y) \/ (is_balance x /\ ~ is_open y /\ ~ is_balance y))).

(** ... and if neither must precede the other they are tied, and keep their order. *)
Definition tied (x y : directive) : Prop := ~ must_precede x y /\ ~ must_precede y x.

(** [i] occurs before [j] at these positions. *)
Definition occurs_before {A} (l : list A) (i j : nat) (x y : A) : Prop :=
  i < j /\ nth_error l i = Some x /\ nth_error l j = Some y.
