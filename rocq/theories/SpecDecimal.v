(** * Specification of decimal arithmetic *)
From Coq Require Import List NArith ZArith QArith Qabs Arith Bool.
From Verif Require Import Base Types Decimal.
Import ListNotations.

(** The rational number a decimal stands for. *)
Definition ten_pow (n : nat) : Q := inject_Z (10 ^ Z.of_nat n).
Definition dec_value (d : decimal) : Q :=
  (inject_Z (if dec_neg d then - Z.of_N (dec_mant d) else Z.of_N (dec_mant d)) / ten_pow (dec_scale d))%Q.

(** 96 bits and at most 28 decimal places. *)
Definition dec_valid (d : decimal) : Prop := (dec_mant d < 2 ^ 96)%N /\ (dec_scale d <= 28)%nat.

Definition representable (q : Q) : Prop := exists d, dec_valid d /\ dec_value d == q.

(** [z] is [q] to the nearest integer, halves away from zero. *)
Definition nearest (q : Q) (z : Z) : Prop :=
  Qabs (inject_Z z - q) <= 1 # 2 /\
  (Qabs (inject_Z z - q) == 1 # 2 -> Qabs q <= Qabs (inject_Z z)).

(** [r] is [q] rounded to [s] decimal places. *)
Definition rounds_to (q : Q) (s : nat) (r : Q) : Prop :=
  exists z, nearest (q * ten_pow s) z /\ r == inject_Z z / ten_pow s.

(** What is relied on: an operation gives a result if the exact result is
    representable, and then that one; division by zero panics; [rescale]
    rounds.  Nothing is said about results which are not representable. *)
Record op_ok (op : decimal -> decimal -> outcome decimal) (exact : Q -> Q -> Q) (defined : Q -> Prop) : Prop := {
  oo_exact : forall a b, dec_valid a -> dec_valid b -> defined (dec_value b) ->
    representable (exact (dec_value a) (dec_value b)) ->
    exists r, op a b = Fine r /\ dec_value r == exact (dec_value a) (dec_value b);
  oo_valid : forall a b r, dec_valid a -> dec_valid b -> op a b = Fine r -> dec_valid r;
  oo_panics : forall a b, dec_valid a -> dec_valid b -> ~ defined (dec_value b) -> op a b = Panic
}.

Record dec_ops_ok (ops : dec_ops) : Prop := {
  do_add : op_ok (op_add ops) Qplus (fun _ => True);
  do_sub : op_ok (op_sub ops) Qminus (fun _ => True);
  do_mul : op_ok (op_mul ops) Qmult (fun _ => True);
  do_div : op_ok (op_div ops) Qdiv (fun q => ~ q == 0);
  do_neg : forall a, dec_valid a -> dec_valid (op_neg ops a) /\ dec_value (op_neg ops a) == - dec_value a;
  do_rescale : forall a s, dec_valid a -> (s <= 28)%nat ->
    dec_valid (op_rescale ops a s) /\ (dec_scale (op_rescale ops a s) <= s)%nat /\
    rounds_to (dec_value a) s (dec_value (op_rescale ops a s))
}.

(** ** Expressions *)

(** The number an expression stands for, if all its parts are representable. *)
Inductive denotes : expr -> Q -> Prop :=
| den_value d : dec_valid d -> denotes (E_Value d) (dec_value d)
| den_add a b x y : denotes a x -> denotes b y -> representable (x + y) -> denotes (E_Add a b) (x + y)
| den_sub a b x y : denotes a x -> denotes b y -> representable (x - y) -> denotes (E_Sub a b) (x - y)
| den_mul a b x y : denotes a x -> denotes b y -> representable (x * y) -> denotes (E_Mul a b) (x * y)
| den_div a b x y : denotes a x -> denotes b y -> ~ y == 0 -> representable (x / y) -> denotes (E_Div a b) (x / y)
| den_neg a x : denotes a x -> denotes (E_Neg a) (- x)
| den_paren a x : denotes a x -> denotes (E_Paren a) x.

(** The numbers written in an expression. *)
Inductive literal_of (d : decimal) : expr -> Prop :=
| lo_value : literal_of d (E_Value d)
| lo_add a b : literal_of d a \/ literal_of d b -> literal_of d (E_Add a b)
| lo_sub a b : literal_of d a \/ literal_of d b -> literal_of d (E_Sub a b)
| lo_mul a b : literal_of d a \/ literal_of d b -> literal_of d (E_Mul a b)
| lo_div a b : literal_of d a \/ literal_of d b -> literal_of d (E_Div a b)
| lo_neg a : literal_of d a -> literal_of d (E_Neg a)
| lo_paren a : literal_of d a -> literal_of d (E_Paren a).

(** [s] is the largest number of decimal places written in [e]. *)
Definition max_places (e : expr) (s : nat) : Prop :=
  (forall d, literal_of d e -> (dec_scale d <= s)%nat) /\ exists d, literal_of d e /\ dec_scale d = s.

Inductive part_of (x : expr) : expr -> Prop :=
| po_self : part_of x x
| po_add a b : part_of x a \/ part_of x b -> part_of x (E_Add a b)
| po_sub a b : part_of x a \/ part_of x b -> part_of x (E_Sub a b)
| po_mul a b : part_of x a \/ part_of x b -> part_of x (E_Mul a b)
| po_div a b : part_of x a \/ part_of x b -> part_of x (E_Div a b)
| po_neg a : part_of x a -> part_of x (E_Neg a)
| po_paren a : part_of x a -> part_of x (E_Paren a).

(** The tree computed bottom up with the operations [ops]: what [v] is worth
    when intermediate results are not representable. *)
Inductive computes (ops : dec_ops) : expr -> decimal -> Prop :=
| com_value d : computes ops (E_Value d) d
| com_add a b x y z : computes ops a x -> computes ops b y -> op_add ops x y = Fine z -> computes ops (E_Add a b) z
| com_sub a b x y z : computes ops a x -> computes ops b y -> op_sub ops x y = Fine z -> computes ops (E_Sub a b) z
| com_mul a b x y z : computes ops a x -> computes ops b y -> op_mul ops x y = Fine z -> computes ops (E_Mul a b) z
| com_div a b x y z : computes ops a x -> computes ops b y -> op_div ops x y = Fine z -> computes ops (E_Div a b) z
| com_neg a x : computes ops a x -> computes ops (E_Neg a) (op_neg ops x)
| com_paren a x : computes ops a x -> computes ops (E_Paren a) x.

(** The reasons for which an operation may fail. *)
Inductive fails (ops : dec_ops) : expr -> Prop :=
| fail_add a b x y : computes ops a x -> computes ops b y ->
    ~ representable (dec_value x + dec_value y) -> fails ops (E_Add a b)
| fail_sub a b x y : computes ops a x -> computes ops b y ->
    ~ representable (dec_value x - dec_value y) -> fails ops (E_Sub a b)
| fail_mul a b x y : computes ops a x -> computes ops b y ->
    ~ representable (dec_value x * dec_value y) -> fails ops (E_Mul a b)
| fail_div a b x y : computes ops a x -> computes ops b y ->
    dec_value y == 0 \/ ~ representable (dec_value x / dec_value y) -> fails ops (E_Div a b).
