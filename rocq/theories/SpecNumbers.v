(** * Specification: other numbers *)
From Coq Require Import String Ascii.
From Coq Require Import List NArith Arith Bool.
From Verif Require Import Base Types Decimal SpecDecimal Token Lexer Grammar SpecGrammar SpecRename Parse.
Import ListNotations.
Local Open Scope nat_scope.

(** [number] says which number takes the place of each. *)
Section Numbers.
  Context (ops : dec_ops) (number : decimal -> decimal).

  Definition number_token (t : token) : token := match t with T_Number d => T_Number (number d) | _ => t end.

  Fixpoint number_expr (e : expr) : expr :=
    match e with
    | E_Value d => E_Value (number d)
    | E_Add a b => E_Add (number_expr a) (number_expr b)
    | E_Sub a b => E_Sub (number_expr a) (number_expr b)
    | E_Mul a b => E_Mul (number_expr a) (number_expr b)
    | E_Div a b => E_Div (number_expr a) (number_expr b)
    | E_Neg a => E_Neg (number_expr a)
    | E_Paren a => E_Paren (number_expr a)
    end.
  (** The same expression of the other numbers, with what it comes to (see [C20]). *)
  Definition number_value (v : expr_value) : expr_value :=
    match expr_value_from ops (number_expr (ev_expr v)) with Fine v' => v' | Panic => v end.

  (** The same with the numbers in it replaced; the places are kept. *)
  Definition number_amount (a : amount) : amount := mk_amount (in_place number_value (am_number a)) (am_currency a).
  Definition number_amount_tol (a : amount_tol) : amount_tol := mk_amount_tol (in_place number_amount (at_amount a)) (option_map (in_place number) (at_tolerance a)).
  Definition number_scoped (e : scoped_expr) : scoped_expr :=
    match e with SE_PerUnit v => SE_PerUnit (number_value v) | SE_Total v => SE_Total (number_value v) end.
  Definition number_price (p : price_spec) : price_spec :=
    match p with
    | PS_Amount e => PS_Amount (number_scoped e)
    | PS_CurrencyAmount e c => PS_CurrencyAmount (number_scoped e) c
    | _ => p
    end.
  Definition number_cost (c : cost_spec) : cost_spec :=
    mk_cost_spec (option_map (in_place number_value) (cs_per_unit c)) (option_map (in_place number_value) (cs_total c)) (cs_currency c) (cs_date c) (cs_label c) (cs_merge c).
  Definition number_meta (v : meta_value) : meta_value :=
    match v with
    | MV_Amount a => MV_Amount (number_amount a)
    | MV_Simple (SV_Expr e) => MV_Simple (SV_Expr (number_value e))
    | _ => v
    end.
  Definition number_metadata (m : metadata) : metadata :=
    mk_metadata (map (fun x => (fst x, in_place number_meta (snd x))) (md_key_values m)) (md_tags m) (md_links m).
  Definition number_posting (p : posting) : posting :=
    mk_posting (po_flag p) (po_account p) (option_map (in_place number_value) (po_amount p)) (po_currency p)
      (option_map (in_place number_cost) (po_cost_spec p)) (option_map (in_place number_price) (po_price p)) (in_place number_metadata (po_metadata p)).
  Definition number_variant (v : variant) : variant :=
    match v with
    | V_Transaction f p n ps => V_Transaction f p n (map (in_place number_posting) ps)
    | V_Price c a => V_Price c (in_place number_amount a)
    | V_Balance a t => V_Balance a (in_place number_amount_tol t)
    | V_Custom t vs => V_Custom t (map (in_place number_meta) vs)
    | _ => v
    end.
  Definition number_directive (d : directive) : directive :=
    mk_directive (dir_date d) (in_place number_metadata (dir_metadata d)) (number_variant (dir_variant d)).
End Numbers.

(** Every expression in the text has a value, and so has every part of one which
    may be read as an expression. *)
Definition calculable (E : grammar_env) (I : input) : Prop := forall i j e, sum I i j e -> exists v, worth (g_ops E) v /\ ev_expr v = e.

(** No operator comes after a number or a closing parenthesis. *)
Definition numbers_alone (ts : list token) : Prop :=
  forall k x y, nth_error ts k = Some x -> nth_error ts (S k) = Some y -> ends_expr x -> ~ In y [T_Plus; T_Minus; T_Asterisk; T_Slash].

(** One text with other numbers than the other one, all of which can be calculated. *)
Definition renumbered (E : grammar_env) (number : decimal -> decimal) (L : lexer_env) (c c' : str) : Prop :=
  exists ts ts', lex L c = Fine (Some ts) /\ lex L c' = Fine (Some ts') /\ map fst ts' = map (number_token number) (map fst ts) /\
    calculable E (input_of 0 c ts) /\ calculable E (input_of 0 c' ts').
