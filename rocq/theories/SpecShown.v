(** * Specification of how a token is named to the user *)
From Coq Require Import String Ascii.
From Coq Require Import List NArith.
From Verif Require Import Base Types Token Lexer SpecLexer.
Import ListNotations.

(** The tokens which are named by the text they are written as, and no
    other. *)
Definition verbatim (m : str) (t : token) : Prop :=
  match t with
  | T_Number _ | T_Date _ | T_Time _ | T_Tag _ | T_Link _ => False
  | T_Eol | T_EolThenIndent | T_EolComment | T_Indent | T_Error _ => False
  | T_String _ => ~ In 92%N m
  | _ => True
  end.

(** [shown L m t s]: the token [t], written as [m], is shown as [s].
    - what has a text of its own is shown as it is written;
    - a number or date is shown as some text which by itself is the same
      number or date;
    - how a time is shown is not specified;
    - the sign before a tag or a link is left out;
    - a string is shown with its escapes undone;
    - ends of lines, indents and errors are described. *)
Inductive shown (L : lexer_env) (m : str) : token -> str -> Prop :=
| shown_as_written t : verbatim m t -> shown L m t m
| shown_as_number d s : lexeme L s (tok (T_Number d)) -> shown L m (T_Number d) s
| shown_as_date d s : lexeme L s (tok (T_Date d)) -> shown L m (T_Date d) s
| shown_as_time t s : shown L m (T_Time t) s
| shown_as_tag s : m = 35%N :: s -> shown L m (T_Tag s) s
| shown_as_link s : m = 94%N :: s -> shown L m (T_Link s) s
| shown_as_string body s : m = 34%N :: body ++ [34%N] -> In 92%N body -> le_unescape L body = Ok s ->
    shown L m (T_String s) (34%N :: s ++ [34%N])
| shown_as_eol : shown L m T_Eol (lit "\n")
| shown_as_indent : shown L m T_Indent (lit "    ")
| shown_as_error e : shown L m (T_Error e) (lit "ERROR " ++ e).
