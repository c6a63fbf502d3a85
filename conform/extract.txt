From Coq Require Import List NArith ZArith Bool.
From Coq Require Import Extraction ExtrOcamlBasic ExtrOcamlNatInt ExtrOcamlString.
From Verif Require Import Base Path Sources Read Types Options Decimal Token Lexer Grammar Parse Pragma Messages P_Lexer P_Grammar P_Parse P_Expr.
Extraction Language OCaml.
Definition run_model (U : unicode) (unesc : str -> result str str) (order : list (spanned str) -> list (spanned str))
  (glob : path -> result (list glob_item) str) (canon : path -> option path) (read : path -> result str str) (fuel : nat) (root : option path) (content : str) :=
  let L := {| le_unicode := U; le_decimal := ex_from_str; le_unescape := unesc; le_err_len := fun _ => 0; le_recovery_err_len := fun _ => 0 |} in
  let E := {| g_unicode := U; g_ops := exact_ops; g_decimal := (fun s => match ex_from_str s with Ok d => Some d | Err _ => None end); g_order := order |} in
  match read_with_includes (includes_of L) glob canon read fuel root content with
  | None => None
  | Some s => match parser_new L s with
    | Fine (Some toks) => Some (s, toks, parse E canon s toks)
    | _ => None
    end
  end.
Definition lex_model (U : unicode) (unesc : str -> result str str) (s : str) :=
  let L := {| le_unicode := U; le_decimal := ex_from_str; le_unescape := unesc; le_err_len := fun _ => 0; le_recovery_err_len := fun _ => 0 |} in lex L s.
Extraction "model.ml" run_model lex_model options_account_type_name options_long_string_maxlines.
