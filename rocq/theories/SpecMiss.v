(** * What a syntax error may say *)
From Coq Require Import String Ascii.
From Coq Require Import List NArith ZArith Arith Bool.
From Verif Require Import Base Path Sources Types Options Decimal Cost Token Grammar Parse Messages Miss MissParse.
Import ListNotations.
Local Open Scope nat_scope.

(** Where the token at a position is: its range.  At the end of the input it
    is the end of the file, and then the end of the last token. *)
Definition place (I : input) (p : nat) : span :=
  match nth_error (in_tokens I) p with
  | Some (_, (a, b)) => mk_span (in_source I) a b
  | None => mk_span (in_source I) (in_len I)
      (match rev (in_tokens I) with (_, (_, b)) :: _ => b | [] => in_len I end)
  end.

(** A token the text of which is not what its kind requires, with the reason. *)
Inductive refused (E : grammar_env) (names : account_type_names) : token -> str -> Prop :=
| refused_account s e : account_new (g_unicode E) s names = Err e -> refused E names (T_Account s) (display_account_error names e)
| refused_tag s e : tag_link_try_from (g_unicode E) s = Err e -> refused E names (T_Tag s) (display_tag_link_error e)
| refused_link s e : tag_link_try_from (g_unicode E) s = Err e -> refused E names (T_Link s) (display_tag_link_error e)
| refused_key s e : key_try_from (g_unicode E) s = Err e -> refused E names (T_Key s) (display_key_error e)
| refused_currency s e : currency_try_from s = Fine (Err e) -> refused E names (T_Currency s) (display_currency_error e)
| refused_booking s : booking_try_from s = None -> refused E names (T_String s) (lit "Matching variant not found").

(** The parser options which may be in force while the files [cs], with the
    tokens [toks], are parsed: the default ones, and those after an option in one
    of the files. *)
Inductive in_force (E : grammar_env) (cs : list (nat * option path * str)) (toks : list (list rtoken)) : parser_options -> Prop :=
| in_force_default : in_force E cs toks default_parser_options
| in_force_option po id file content ts i rk rn rv name value sn sv o po' es :
    in_force E cs toks po ->
    In (id, file, content) cs -> nth_error toks id = Some ts ->
    nth_error ts i = Some (T_Keyword K_Option, rk) ->
    nth_error ts (S i) = Some (T_String name, rn) ->
    nth_error ts (S (S i)) = Some (T_String value, rv) ->
    option_read E file po (mk_spanned name sn) (mk_spanned value sv) = Fine (o, po', es) ->
    in_force E cs toks po'.

(** Errors which are not syntax errors. *)
Definition told (c : mcomplaint) : Prop := exists r, c = MC_Report r.

(** The first syntax error of some errors, and those before it. *)
Definition first_error (es rs : list mcomplaint) (s p : nat) (x : miss) : Prop :=
  exists rest, es = rs ++ MC_Syntax s p x :: rest /\ Forall told rs.

(** Two inputs of the same source which have the first [M] tokens in common;
    the end of the input counts as one. *)
Record alike_up_to (M : nat) (I J : input) : Prop := {
  au_source : in_source I = in_source J;
  au_tokens : forall k, k < M -> nth_error (in_tokens I) k = nth_error (in_tokens J) k;
  au_end : List.length (in_tokens I) < M -> in_len I = in_len J
}.

(** An error without what a syntax error says, and so the result. *)
Definition plainly (c : mcomplaint) : complaint :=
  match c with MC_Report r => C_Report r | MC_Syntax s i _ => C_Syntax s i end.
Definition plain_result (r : mparsed_as) : parsed_as :=
  match r with
  | MSuccess ds os ps ws => Success ds os ps ws
  | MFailure es ws => Failure (map plainly es) ws
  end.
