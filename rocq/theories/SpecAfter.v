(** * Specification: the errors of a text, after another text *)
From Coq Require Import List Arith.
From Verif Require Import Base Path Types Pragma Token Grammar Parse.
Import ListNotations.
Local Open Scope nat_scope.

(** The two say the same; of a syntax error, [n] tokens further on. *)
Definition same_complaint (n : nat) (c d : complaint) : Prop :=
  match c, d with
  | C_Report r, C_Report r' => rp_problem r = rp_problem r'
  | C_Syntax s p, C_Syntax s' p' => s = s' /\ p' = n + p
  | _, _ => False
  end.
