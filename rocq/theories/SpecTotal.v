(** * Specification of what makes parsing panic *)
From Coq Require Import String Ascii.
From Coq Require Import List NArith Arith Bool.
From Verif Require Import Base Types SpecTypes Token Peg Grammar SpecGrammar SpecDirective.
Import ListNotations.
Local Open Scope nat_scope.

Section Causes.
  Context (E : grammar_env) (I : input).

  Inductive panic_cause : Prop :=
  (** a currency which is not ASCII; *)
  | cause_currency i s : tok I i (T_Currency s) -> ~ Forall ascii s -> panic_cause
  (** an expression, as far as it goes from where one may start, which has no value; *)
  | cause_expression i j e : may_start I i -> longest (sum I) i j e -> (forall v, worth (g_ops E) v -> ev_expr v <> e) -> panic_cause
  (** an option for a currency which is not ASCII. *)
  | cause_option i name value c :
      tok I i (T_Keyword K_Option) -> tok I (S i) (T_String name) -> tok I (S (S i)) (T_String value) ->
      In name [lit "conversion_currency"; lit "operating_currency"] /\ c = value \/
      name = lit "inferred_tolerance_default" /\ ~ In 58%N c /\ (value = c \/ exists rest, value = c ++ 58%N :: rest) ->
      ~ Forall ascii c -> panic_cause.
End Causes.
