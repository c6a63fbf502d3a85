(** * Specification: lines whose place does not matter *)
From Coq Require Import List NArith Arith Bool.
From Verif Require Import Base Token Types Sources Lexer Peg Grammar SpecGrammar SpecAppend.
Import ListNotations.

(** No option, and nothing is pushed or popped. *)
Definition quiet (ts : list token) : Prop :=
  without K_Option ts /\ without K_Pushtag ts /\ without K_Poptag ts /\ without K_Pushmeta ts /\ without K_Popmeta ts.

(** At the place of some of the tokens from [a] to [b]. *)
Definition within {A} (I : input) (a b : nat) (x : spanned A) : Prop :=
  exists i j, a <= i /\ i < j /\ j <= b /\ span_of x = text I i j.
