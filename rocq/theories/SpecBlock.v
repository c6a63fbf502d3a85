(** * Specification: two sequences as one *)
From Coq Require Import List.
Import ListNotations.

(** [c] has all of [a] and all of [b], each in its order, and nothing else. *)
Inductive shuffled {A} : list A -> list A -> list A -> Prop :=
| shuffled_none : shuffled [] [] []
| shuffled_left x a b c : shuffled a b c -> shuffled (x :: a) b (x :: c)
| shuffled_right x a b c : shuffled a b c -> shuffled a (x :: b) (x :: c).
