(** * Specification vocabulary for paths *)
From Coq Require Import List NArith Arith Bool.
From Verif Require Import Base Path.
Import ListNotations.

(** [d] is the directory containing [p]: the same components but the last. *)
Definition directory_of (p : list component) (d : list component) : Prop :=
  exists last, last <> RootDir /\ p = d ++ [last].

(** Components of a relative path placed under a directory: only a leading
    "." can disappear. *)
Definition under (d q : list component) : list component :=
  d ++ match q with CurDir :: q' => q' | _ => q end.
