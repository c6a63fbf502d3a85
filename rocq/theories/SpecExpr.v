(** * The shape of expressions, and the tokens they are written with *)
From Coq Require Import List NArith ZArith Arith Bool.
From Verif Require Import Base Types Decimal Token Grammar.
Import ListNotations.
Local Open Scope nat_scope.

(** In words of the tree: the left operand of a sum is any expression, the
    right one is no sum; the operands of a product are no sums, the right one
    is no product; a sign is put on numbers and parentheses only. *)
Inductive no_sign : expr -> Prop :=
| no_sign_value d : no_sign (E_Value d)
| no_sign_paren e : left_assoc e -> no_sign (E_Paren e)
with no_product : expr -> Prop :=
| no_product_plain e : no_sign e -> no_product e
| no_product_neg e : no_sign e -> no_product (E_Neg e)
with no_sum : expr -> Prop :=
| no_sum_one e : no_product e -> no_sum e
| no_sum_mul a b : no_sum a -> no_product b -> no_sum (E_Mul a b)
| no_sum_div a b : no_sum a -> no_product b -> no_sum (E_Div a b)
with left_assoc : expr -> Prop :=
| left_assoc_one e : no_sum e -> left_assoc e
| left_assoc_add a b : left_assoc a -> no_sum b -> left_assoc (E_Add a b)
| left_assoc_sub a b : left_assoc a -> no_sum b -> left_assoc (E_Sub a b).

(** The tokens an expression is written with. *)
Fixpoint written_with (e : expr) : list token :=
  match e with
  | E_Value d => [T_Number d]
  | E_Add a b => written_with a ++ T_Plus :: written_with b
  | E_Sub a b => written_with a ++ T_Minus :: written_with b
  | E_Mul a b => written_with a ++ T_Asterisk :: written_with b
  | E_Div a b => written_with a ++ T_Slash :: written_with b
  | E_Neg a => T_Minus :: written_with a
  | E_Paren a => T_Lparen :: written_with a ++ [T_Rparen]
  end.

(** These tokens from position [i] on. *)
Definition tokens_at (I : input) (i : nat) (ts : list token) : Prop :=
  exists before after, in_tokens I = before ++ after /\ List.length before = i /\
    ts = firstn (List.length ts) (map fst after).

