(** * Cost: the builder of cost specifications (src/types.rs 2573-2730, src/parsers.rs 955-1009) *)
From Coq Require Import List NArith Arith Bool.
From Verif Require Import Base Types.
Import ListNotations.
Local Open Scope nat_scope.

(** parsers.rs 1003-1009: [CostComp]. *)
Inductive cost_comp :=
| CC_Amount (a : compound_amount)
| CC_Date (d : date)
| CC_Label (s : str)
| CC_Merge.

(** types.rs 2689-2698: [CostSpecErrorKind]. *)
Inductive cost_kind := CK_PerUnit | CK_Total | CK_Currency | CK_Date | CK_Label | CK_Merge.

(** types.rs 2573-2583: [CostSpecBuilder]; the fields are those of a [CostSpec]. *)
Record cost_builder := mk_builder { cb_spec : cost_spec; cb_errors : list cost_kind }.

(** types.rs 2574: [Default], no field is set. *)
Definition empty_cost_spec : cost_spec := mk_cost_spec None None None None None false.
(** types.rs 2574: [CostSpecBuilder::default], as at parsers.rs 978, 993. *)
Definition default_builder : cost_builder := mk_builder empty_cost_spec [].

(** [self.errors.push(..)]. (types.rs 2598-2652.) *)
Definition push_error (k : cost_kind) (b : cost_builder) : cost_builder :=
  mk_builder (cb_spec b) (cb_errors b ++ [k]).

(** types.rs 2598-2605: [per_unit]. *)
Definition set_per_unit (v : spanned expr_value) (b : cost_builder) : cost_builder :=
  let '(mk_cost_spec pu to cu da la me) := cb_spec b in
  match pu with
  | None => mk_builder (mk_cost_spec (Some v) to cu da la me) (cb_errors b)
  | Some _ => push_error CK_PerUnit b
  end.

(** types.rs 2607-2614: [total]. *)
Definition set_total (v : spanned expr_value) (b : cost_builder) : cost_builder :=
  let '(mk_cost_spec pu to cu da la me) := cb_spec b in
  match to with
  | None => mk_builder (mk_cost_spec pu (Some v) cu da la me) (cb_errors b)
  | Some _ => push_error CK_Total b
  end.

(** types.rs 2616-2623: [currency]. *)
Definition set_currency (v : str) (s : span) (b : cost_builder) : cost_builder :=
  let '(mk_cost_spec pu to cu da la me) := cb_spec b in
  match cu with
  | None => mk_builder (mk_cost_spec pu to (Some (mk_spanned v s)) da la me) (cb_errors b)
  | Some _ => push_error CK_Currency b
  end.

(** types.rs 2625-2632: [date]. *)
Definition set_date (v : date) (s : span) (b : cost_builder) : cost_builder :=
  let '(mk_cost_spec pu to cu da la me) := cb_spec b in
  match da with
  | None => mk_builder (mk_cost_spec pu to cu (Some (mk_spanned v s)) la me) (cb_errors b)
  | Some _ => push_error CK_Date b
  end.

(** types.rs 2634-2641: [label]. *)
Definition set_label (v : str) (s : span) (b : cost_builder) : cost_builder :=
  let '(mk_cost_spec pu to cu da la me) := cb_spec b in
  match la with
  | None => mk_builder (mk_cost_spec pu to cu da (Some (mk_spanned v s)) me) (cb_errors b)
  | Some _ => push_error CK_Label b
  end.

(** types.rs 2643-2652: [merge]. *)
Definition set_merge (b : cost_builder) : cost_builder :=
  let '(mk_cost_spec pu to cu da la me) := cb_spec b in
  if negb me then mk_builder (mk_cost_spec pu to cu da la true) (cb_errors b)
  else push_error CK_Merge b.

(** types.rs 2586-2596: [compound_expr]. *)
Definition set_compound_expr (v : compound_expr) (s : span) (b : cost_builder) : cost_builder :=
  match v with
  | CE_PerUnit v => set_per_unit (mk_spanned v s) b
  | CE_Total v => set_total (mk_spanned v s) b
  | CE_Both p t => set_total (mk_spanned t s) (set_per_unit (mk_spanned p s) b)
  end.

(** types.rs 2655-2682: [build]. *)
Definition build (b : cost_builder) : result cost_spec (list cost_kind) :=
  match cb_errors b with
  | [] => Ok (cb_spec b)
  | es => Err es
  end.

(** parsers.rs 976-990: the folded function. *)
Definition add_comp (b : cost_builder) (c : spanned cost_comp) : cost_builder :=
  match item c with
  | CC_Amount (CA_Currency cur) => set_currency cur (span_of c) b
  | CC_Amount (CA_Amount e) => set_compound_expr e (span_of c) b
  | CC_Amount (CA_CurrencyAmount e cur) => set_currency cur (span_of c) (set_compound_expr e (span_of c) b)
  | CC_Date d => set_date d (span_of c) b
  | CC_Label s => set_label s (span_of c) b
  | CC_Merge => set_merge b
  end.

(** parsers.rs 971-998: the components put together; [None] is the empty
    cost specification. *)
Definition cost_of (comps : option (spanned cost_comp * list (spanned cost_comp)))
  : result cost_spec (list cost_kind) :=
  build match comps with
        | Some (head, tail) => fold_left add_comp (head :: tail) default_builder
        | None => default_builder
        end.
