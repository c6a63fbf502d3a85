(** * What the user is told of a syntax error *)
From Coq Require Import String Ascii.
From Coq Require Import List NArith ZArith Arith Bool.
From Verif Require Import Base Path Types Options Token Lexer SpecLexer Grammar Shown SpecShown SpecMiss Report.
Import ListNotations.
Local Open Scope nat_scope.

(** [says L E names content ts wanted n]: what the error [n] says is true of the text
    [content] of its file, which has the tokens [ts].
    - Either it is about a piece of that text which is a token, and names it, and
      what is wanted in its place; or
      it is about one which is an account, tag, link, key, currency or booking
      method that is not acceptable, and says why.
    - Or it is about the end of the file, and says so. *)
Inductive says (L : lexer_env) (E : grammar_env) (names : account_type_names -> Prop) (content : str) (ts : list rtoken) (wanted : str) (n : notice) : Prop :=
| says_found m t name :
    str_get content (sp_start (nt_span n)) (sp_end (nt_span n)) = Some m -> In (t, (sp_start (nt_span n), sp_end (nt_span n))) ts -> shown L m t name ->
    nt_reason n = lit "found '" ++ name ++ lit "' expected " ++ wanted -> says L E names content ts wanted n
| says_why m t ns :
    str_get content (sp_start (nt_span n)) (sp_end (nt_span n)) = Some m -> In (t, (sp_start (nt_span n), sp_end (nt_span n))) ts -> names ns ->
    refused E ns t (nt_reason n) -> says L E names content ts wanted n
| says_end :
    sp_start (nt_span n) = blen content ->
    nt_reason n = lit "found end of input expected " ++ wanted -> says L E names content ts wanted n.
