(** * Specification: the same, wherever it is written *)
From Coq Require Import String Ascii.
From Coq Require Import List NArith ZArith Arith Bool Permutation.
From Verif Require Import Base Path Sources Types Options SpecOptions Pragma Read Token Lexer Grammar SpecGrammar SpecDisplay SpecLedger Parse.
Import ListNotations.
Local Open Scope nat_scope.

(** Both texts consist of the same tokens, in the same order; where they are
    may differ. *)
Definition same_tokens (L : lexer_env) (c c' : str) : Prop :=
  exists ts ts', lex L c = Fine (Some ts) /\ lex L c' = Fine (Some ts') /\ map fst ts = map fst ts'.

(** But for an end of line at the end. *)
Inductive same_but_end : list token -> list token -> Prop :=
| same_all ts : same_but_end ts ts
| same_ended ts t : t <> T_Eol -> same_but_end (ts ++ [t]) (ts ++ [t; T_Eol])
| same_not_ended ts t : t <> T_Eol -> same_but_end (ts ++ [t; T_Eol]) (ts ++ [t]).
Definition alike_text (L : lexer_env) (c c' : str) : Prop :=
  c = c' \/ exists ts ts', lex L c = Fine (Some ts) /\ lex L c' = Fine (Some ts') /\ same_but_end (map fst ts) (map fst ts').

(** The same files under the same names, in the same order, with texts in each
    which are the same in the sense of [T]. *)
Record same_sources (T : str -> str -> Prop) (s s' : sources) : Prop := {
  ss_root : root_path s = root_path s';
  ss_globs : included_globs s = included_globs s';
  ss_errors : error_paths s = error_paths s';
  ss_content : Forall2 (fun x y => fst x = fst y /\ T (snd x) (snd y)) (content_iter s) (content_iter s')
}.
(** The same in all files. *)
Definition same_reading (T : str -> str -> Prop) (read read' : path -> result str str) : Prop :=
  forall p, match read p, read' p with Ok c, Ok c' => T c c' | Err e, Err e' => e = e' | _, _ => False end.

(** Two options have the same value, or none. *)
Definition same_value_of {A} (x y : option (sourced A)) : Prop :=
  option_map item (os_spanned x) = option_map item (os_spanned y).
Record alike_options (o o' : options) : Prop := {
  ao_title : same_value_of (os_title o) (os_title o');
  ao_subaccount : forall w, same_value_of (os_subaccount o w) (os_subaccount o' w);
  ao_conversion : same_value_of (os_conversion_currency o) (os_conversion_currency o');
  ao_tolerance : map (fun x => (fst x, fst (snd x))) (os_tolerance_default o) = map (fun x => (fst x, fst (snd x))) (os_tolerance_default o');
  ao_multiplier : same_value_of (os_tolerance_multiplier o) (os_tolerance_multiplier o');
  ao_from_cost : same_value_of (os_tolerance_from_cost o) (os_tolerance_from_cost o');
  ao_documents : map fst (os_documents o) = map fst (os_documents o');
  ao_operating : map fst (os_operating_currency o) = map fst (os_operating_currency o');
  ao_commas : same_value_of (os_render_commas o) (os_render_commas o');
  ao_booking : same_value_of (os_booking_method o) (os_booking_method o');
  ao_mode : same_value_of (os_plugin_mode o) (os_plugin_mode o');
  ao_names : forall t, options_account_type_name o t = options_account_type_name o' t;
  ao_maxlines : option_map item (options_long_string_maxlines o) = option_map item (options_long_string_maxlines o')
}.

(** Two problems are the same but for where things are. *)
Definition alike_listing (l l' : listing) : Prop :=
  ls_tags l = ls_tags l' /\ Forall2 (fun x y => fst x = fst y /\ Forall2 alike_meta_value (snd x) (snd y)) (ls_meta l) (ls_meta l').
Definition alike_problem (p q : problem) : Prop :=
  match p, q with
  | DuplicateInclude here first, DuplicateInclude here' first' => alike_listing here here' /\ same_option alike_listing first first'
  | _, _ => p = q
  end.
(** Of a syntax error that is the number of the token where a declaration
    should have started. *)
Definition alike_complaint (c d : complaint) : Prop :=
  match c, d with
  | C_Report r, C_Report r' => alike_problem (rp_problem r) (rp_problem r')
  | C_Syntax s p, C_Syntax s' p' => s = s' /\ p = p'
  | _, _ => False
  end.

(** The same result: the same directives, options and plugins, in the same
    order, and warnings which say the same; or both fail, with errors and
    warnings which say the same. *)
Definition alike_result (a b : parsed_as) : Prop :=
  match a, b with
  | Success ds o ps ws, Success ds' o' ps' ws' =>
      Forall2 (fun d d' => alike (item d) (item d')) ds ds' /\ alike_options o o' /\ Forall2 alike_plugin ps ps' /\
      map rp_problem ws = map rp_problem ws'
  | Failure es ws, Failure es' ws' => same_elements alike_complaint es es' /\ map rp_problem ws = map rp_problem ws'
  | _, _ => False
  end.

(** What comes of it: the same result, or both panic. *)
Definition alike_outcome (a b : outcome (option parsed_as)) : Prop :=
  match a, b with
  | Fine (Some r), Fine (Some r') => alike_result r r'
  | Panic, Panic => True
  | _, _ => False
  end.

(** lib.rs 194-265: [BeancountParser::new] and then [parse]. *)
Definition parsed_from (L : lexer_env) (E : grammar_env) (canonicalize : path -> option path) (s : sources) : outcome (option parsed_as) :=
  match parser_new L s with
  | Panic => Panic
  | Fine None => Fine None
  | Fine (Some toks) => parse E canonicalize s toks
  end.
