(** * Decimal: the arithmetic of rust_decimal 1.40, and [Expr::evaluate]

    rust_decimal is not part of /repo.  Its operations are an argument
    [dec_ops]; [SpecDecimal.dec_ops_ok] states what is relied on and
    [exact_ops] below is an instance of it. *)
From Coq Require Import List NArith ZArith Arith Bool.
From Verif Require Import Base Types.
Import ListNotations.
Local Open Scope nat_scope.

(** rust_decimal: the operations used at types.rs 2281-2289 and [rescale] at 2230-2234. *)
Record dec_ops := {
  op_add : decimal -> decimal -> outcome decimal;
  op_sub : decimal -> decimal -> outcome decimal;
  op_mul : decimal -> decimal -> outcome decimal;
  op_div : decimal -> decimal -> outcome decimal;
  op_neg : decimal -> decimal;
  op_rescale : decimal -> nat -> decimal
}.

Section Expr.
  Context (ops : dec_ops).

  (** types.rs 2270-2279: [evaluate_binary]. *)
  Definition evaluate_binary (op : decimal -> decimal -> outcome decimal)
      (x y : outcome (decimal * nat)) : outcome (decimal * nat) :=
    match x with
    | Panic => Panic
    | Fine (d1, s1) =>
        match y with
        | Panic => Panic
        | Fine (d2, s2) =>
            match op d1 d2 with
            | Panic => Panic
            | Fine d => Fine (d, Nat.max s1 s2)
            end
        end
    end.

  (** types.rs 2262-2291: [Expr::evaluate]. *)
  Fixpoint evaluate (e : expr) : outcome (decimal * nat) :=
    match e with
    | E_Value d => Fine (d, dec_scale d)
    | E_Add a b => evaluate_binary (op_add ops) (evaluate a) (evaluate b)
    | E_Sub a b => evaluate_binary (op_sub ops) (evaluate a) (evaluate b)
    | E_Mul a b => evaluate_binary (op_mul ops) (evaluate a) (evaluate b)
    | E_Div a b => evaluate_binary (op_div ops) (evaluate a) (evaluate b)
    | E_Neg a =>
        match evaluate a with
        | Panic => Panic
        | Fine (d, s) => Fine (op_neg ops d, s)
        end
    | E_Paren a => evaluate a
    end.

  (** types.rs 2228-2234: [ExprValue::from]. *)
  Definition expr_value_from (e : expr) : outcome expr_value :=
    match evaluate e with
    | Panic => Panic
    | Fine (value, scale) => Fine (mk_ev (op_rescale ops value scale) e)
    end.
End Expr.

(** ** An instance, not modelled after any code

    The result with the largest scale up to 28 which fits 96 bits. *)

(** No code of its own: rust_decimal has 96 bits. *)
Definition max_mant : N := (2 ^ 96)%N.
(** No code of its own: the largest scale of rust_decimal. *)
Definition max_scale : nat := 28.

(** [n / d] to the nearest integer, halves away from zero ([d] positive). (no code of its own.) *)
Definition round_div (n d : Z) : Z :=
  (Z.sgn n * ((2 * Z.abs n + d) / (2 * d)))%Z.

(** No code of its own. *)
Definition of_signed (z : Z) (scale : nat) : decimal := mk_dec (Z.ltb z 0) (Z.abs_N z) scale.

(** No code of its own: what fits, or a panic, standing for rust_decimal. *)
Fixpoint fit (n d : Z) (k : nat) : outcome decimal :=
  let z := round_div (n * Z.of_N (pow10 k)) d in
  if (Z.abs_N z <? max_mant)%N then Fine (of_signed z k)
  else match k with O => Panic | S k' => fit n d k' end.

(** No code of its own. *)
Definition ten (n : nat) : Z := Z.of_N (pow10 n).

(** No code of its own: an instance of what types.rs 2281-2289 uses. *)
Definition exact_ops : dec_ops := {|
  op_add a b := fit (dec_signed a * ten (dec_scale b) + dec_signed b * ten (dec_scale a)) (ten (dec_scale a + dec_scale b)) max_scale;
  op_sub a b := fit (dec_signed a * ten (dec_scale b) - dec_signed b * ten (dec_scale a)) (ten (dec_scale a + dec_scale b)) max_scale;
  op_mul a b := fit (dec_signed a * dec_signed b) (ten (dec_scale a + dec_scale b)) max_scale;
  op_div a b :=
    if (dec_mant b =? 0)%N then Panic
    else fit (Z.sgn (dec_signed b) * dec_signed a * ten (dec_scale b)) (Z.abs (dec_signed b) * ten (dec_scale a)) max_scale;
  op_neg a := mk_dec (negb (dec_neg a)) (dec_mant a) (dec_scale a);
  op_rescale a s :=
    match fit (dec_signed a) (ten (dec_scale a)) s with Fine r => r | Panic => a end
|}.
