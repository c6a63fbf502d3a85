(** * Specification of cost specifications *)
From Coq Require Import List NArith Arith Bool.
From Verif Require Import Base Types Cost.
Import ListNotations.

(** What a component says about each field. *)
Definition amount_of (c : cost_comp) : option compound_expr :=
  match c with CC_Amount (CA_Amount e) | CC_Amount (CA_CurrencyAmount e _) => Some e | _ => None end.
Definition per_unit_of (c : cost_comp) : option expr_value :=
  match amount_of c with Some (CE_PerUnit v) | Some (CE_Both v _) => Some v | _ => None end.
Definition total_of (c : cost_comp) : option expr_value :=
  match amount_of c with Some (CE_Total v) | Some (CE_Both _ v) => Some v | _ => None end.
Definition currency_of (c : cost_comp) : option str :=
  match c with CC_Amount (CA_Currency s) | CC_Amount (CA_CurrencyAmount _ s) => Some s | _ => None end.
Definition date_of (c : cost_comp) : option date := match c with CC_Date d => Some d | _ => None end.
Definition label_of (c : cost_comp) : option str := match c with CC_Label s => Some s | _ => None end.
Definition merge_of (c : cost_comp) : option unit := match c with CC_Merge => Some tt | _ => None end.

(** All the values the components give to a field, with their spans. *)
Definition given {A} (f : cost_comp -> option A) (l : list (spanned cost_comp)) : list (spanned A) :=
  flat_map (fun c => match f (item c) with Some a => [mk_spanned a (span_of c)] | None => [] end) l.

(** A field which is given at most once, and its value. *)
Inductive only {A} : list A -> option A -> Prop :=
| only_none : only [] None
| only_one a : only [a] (Some a).

(** The cost specification spelled by the components, in any order. *)
Record spells_cost (l : list (spanned cost_comp)) (c : cost_spec) : Prop := {
  sc_per_unit : only (given per_unit_of l) (cs_per_unit c);
  sc_total : only (given total_of l) (cs_total c);
  sc_currency : only (given currency_of l) (cs_currency c);
  sc_date : only (given date_of l) (cs_date c);
  sc_label : only (given label_of l) (cs_label c);
  sc_merge : (given merge_of l = [] /\ cs_merge c = false) \/ (exists s, given merge_of l = [s] /\ cs_merge c = true)
}.

(** How many times each field is given. *)
Definition times (k : cost_kind) (l : list (spanned cost_comp)) : nat :=
  match k with
  | CK_PerUnit => List.length (given per_unit_of l)
  | CK_Total => List.length (given total_of l)
  | CK_Currency => List.length (given currency_of l)
  | CK_Date => List.length (given date_of l)
  | CK_Label => List.length (given label_of l)
  | CK_Merge => List.length (given merge_of l)
  end.

Definition cost_kind_eq_dec (a b : cost_kind) : {a = b} + {a <> b}.
Proof. decide equality. Defined.

Definition comps_of (o : option (spanned cost_comp * list (spanned cost_comp))) : list (spanned cost_comp) :=
  match o with Some (h, t) => h :: t | None => [] end.

(** The fields which a component gives, in order. *)
Definition fields_of (c : cost_comp) : list cost_kind :=
  match c with
  | CC_Amount (CA_Currency _) => [CK_Currency]
  | CC_Amount (CA_Amount (CE_PerUnit _)) => [CK_PerUnit]
  | CC_Amount (CA_Amount (CE_Total _)) => [CK_Total]
  | CC_Amount (CA_Amount (CE_Both _ _)) => [CK_PerUnit; CK_Total]
  | CC_Amount (CA_CurrencyAmount (CE_PerUnit _) _) => [CK_PerUnit; CK_Currency]
  | CC_Amount (CA_CurrencyAmount (CE_Total _) _) => [CK_Total; CK_Currency]
  | CC_Amount (CA_CurrencyAmount (CE_Both _ _) _) => [CK_PerUnit; CK_Total; CK_Currency]
  | CC_Date _ => [CK_Date]
  | CC_Label _ => [CK_Label]
  | CC_Merge => [CK_Merge]
  end.

(** Those of some fields which have been given before, or are in [seen]. *)
Inductive repeats : list cost_kind -> list cost_kind -> list cost_kind -> Prop :=
| repeats_none seen : repeats seen [] []
| repeats_first seen k l es : ~ In k seen -> repeats (k :: seen) l es -> repeats seen (k :: l) es
| repeats_again seen k l es : In k seen -> repeats seen l es -> repeats seen (k :: l) (k :: es).
