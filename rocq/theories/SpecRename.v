(** * Specification: accounts under other names *)
From Coq Require Import String Ascii.
From Coq Require Import List NArith Arith Bool.
From Verif Require Import Base Types Options SpecTypes Token Lexer Grammar SpecGrammar SpecLayout.
Import ListNotations.
Local Open Scope nat_scope.

(** [rename] says how each account is called instead. *)
Section Rename.
  Context (rename : str -> str).

  Definition rename_token (t : token) : token := match t with T_Account s => T_Account (rename s) | _ => t end.

  (** The same with the accounts in it renamed; the places are kept. *)
  Definition in_place {A} (f : A -> A) (x : spanned A) : spanned A := mk_spanned (f (item x)) (span_of x).
  Definition rename_account (a : account) : account := mk_account (acc_type a) (rename (acc_name a)).
  Definition rename_value (v : meta_value) : meta_value :=
    match v with MV_Simple (SV_Account a) => MV_Simple (SV_Account (rename_account a)) | _ => v end.
  Definition rename_metadata (m : metadata) : metadata :=
    mk_metadata (map (fun x => (fst x, in_place rename_value (snd x))) (md_key_values m)) (md_tags m) (md_links m).
  Definition rename_posting (p : posting) : posting :=
    mk_posting (po_flag p) (in_place rename_account (po_account p)) (po_amount p) (po_currency p) (po_cost_spec p) (po_price p)
      (in_place rename_metadata (po_metadata p)).
  Definition rename_variant (v : variant) : variant :=
    match v with
    | V_Transaction f p n ps => V_Transaction f p n (map (in_place rename_posting) ps)
    | V_Balance a t => V_Balance (in_place rename_account a) t
    | V_Open a cs b => V_Open (in_place rename_account a) cs b
    | V_Close a => V_Close (in_place rename_account a)
    | V_Pad a s => V_Pad (in_place rename_account a) (in_place rename_account s)
    | V_Document a p => V_Document (in_place rename_account a) p
    | V_Note a c => V_Note (in_place rename_account a) c
    | V_Custom t vs => V_Custom t (map (in_place rename_value) vs)
    | V_Price _ _ | V_Commodity _ | V_Event _ _ | V_Query _ _ => v
    end.
  Definition rename_directive (d : directive) : directive :=
    mk_directive (dir_date d) (in_place rename_metadata (dir_metadata d)) (rename_variant (dir_variant d)).

  (** What is an account when the account types are called [names] becomes one of
      the same type, when they are called [names']. *)
  Definition carries (U : unicode) (names names' : account_type -> str) : Prop := forall t ws,
    Forall (account_name_lang U) ws ->
    exists ws', Forall (account_name_lang U) ws' /\ rename (join_colon (names t :: ws)) = join_colon (names' t :: ws').
  (** Every account becomes one of the same type, whatever the account types are
      called. *)
  Definition keeps_types (U : unicode) : Prop := forall type ws, account_type_name_lang U type -> Forall (account_name_lang U) ws ->
    exists ws', Forall (account_name_lang U) ws' /\ rename (join_colon (type :: ws)) = join_colon (type :: ws').
  (** One text with the accounts of the other one renamed. *)
  Definition reaccounted (L : lexer_env) (c c' : str) : Prop :=
    exists ts ts', lex L c = Fine (Some ts) /\ lex L c' = Fine (Some ts') /\ map fst ts' = map rename_token (map fst ts).
  (** Only the account types are called otherwise. *)
  Definition retypes (names names' : account_type -> str) : Prop := forall t ws,
    rename (join_colon (names t :: ws)) = join_colon (names' t :: ws).
End Rename.

(** The words of one text and those of another, of which the tokens are those of the
    former under [f], on the same lines. *)
Definition words_by (f : token -> token) (a b : words_line) : Prop := map snd (snd b) = map f (map snd (snd a)).
Definition lines_by (f : token -> token) (a b : list words_line) : Prop :=
  match a, b with
  | [], [] => True
  | x :: a', y :: b' => words_by f x y /\ Forall2 (fun x y => fst x = fst y /\ words_by f x y) a' b'
  | _, _ => False
  end.

(** The account types are called [names] instead of what they are called without
    options for that. *)
Fixpoint before_colon (s : str) : str :=
  match s with [] => [] | c :: s' => if N.eqb c 58 then [] else c :: before_colon s' end.
Definition retyped (names : account_type -> str) (s : str) : str :=
  match find (fun t => str_eqb (default_names t) (before_colon s)) [Assets; Liabilities; Equity; Income; Expenses] with
  | Some t => names t ++ skipn (List.length (default_names t)) s
  | None => s
  end.

(** The options there only name account types. *)
Definition only_names (I : input) : Prop := forall i name, tok I i (T_Keyword K_Option) -> tok I (S i) (T_String name) ->
  In name (map lit ["name_assets"; "name_liabilities"; "name_equity"; "name_income"; "name_expenses"]%string).

(** The settings of the one, under the rules of the other. *)
Definition under_rules_of (o o' : options) : options :=
  mk_options (os_title o') (os_subaccount o') (os_conversion_currency o') (os_tolerance_default o') (os_tolerance_multiplier o') (os_tolerance_from_cost o')
    (os_documents o') (os_operating_currency o') (os_render_commas o') (os_booking_method o') (os_plugin_mode o') (os_parser_options o).
