(** * Specification of files with something in between the declarations *)
From Coq Require Import String Ascii.
From Coq Require Import List NArith Arith Bool.
From Verif Require Import Base Path Types Options Token Lexer Grammar SpecGrammar SpecDirective Parse SpecParse.
Import ListNotations.
Local Open Scope nat_scope.

(** The tokens with which a declaration may begin. *)
Definition begins_declaration (t : token) : Prop :=
  (exists d, t = T_Date d) \/
  In t (map T_Keyword [K_Pushtag; K_Poptag; K_Pushmeta; K_Popmeta; K_Include; K_Option; K_Plugin]).
(** What may follow a date. *)
Definition follows_date (t : token) : Prop :=
  (exists k, t = T_Keyword k) \/ t = T_Asterisk \/ t = T_Hash \/ exists f, t = T_Flag f.

Section Broken.
  Context (E : grammar_env) (I : input) (source_path : option path).

  (** No declaration starts at the token [i], whatever is in force, nor does
      an option. *)
  Definition barren (i : nat) : Prop :=
    ~ tok I i (T_Keyword K_Option) /\ forall r j d es r', ~ declares E I source_path r i j d es r'.
  (** A run of such tokens, one at least. *)
  Definition rubbish (i j : nat) : Prop := i < j <= List.length (in_tokens I) /\ forall k, i <= k < j -> barren k.

  (** Declarations, with rubbish in between: the declarations, the errors, the
      warnings for the strings of the declarations, and what is in force at
      the end.  After rubbish comes a declaration without errors. *)
  Inductive interspersed : rules -> nat -> list (spanned declaration) -> list complaint -> list report -> nat -> rules -> Prop :=
  | inter_end r i : interspersed r i [] [] [] i r
  | inter_next r i j d es r1 ds es' ws k r' :
      declares E I source_path r i j d es r1 -> interspersed r1 j ds es' ws k r' ->
      interspersed r i (d :: ds) (map C_Report es ++ es') (long_strings (rl_limit r) I i j ++ ws) k r'
  | inter_rubbish r i m j d r1 ds es' ws k r' :
      rubbish i m -> declares E I source_path r m j d [] r1 -> interspersed r1 j ds es' ws k r' ->
      interspersed r i (d :: ds) (C_Syntax (in_source I) i :: es') (long_strings (rl_limit r) I m j ++ ws) k r'.
End Broken.

(** Such files, one after the other: the declarations which are returned for
    each, and the errors.  Rubbish up to the end of a file is an error, and then
    nothing is returned for it. *)
Inductive files_interspersed (L : lexer_env) (E : grammar_env)
  : rules -> list (nat * option path * str) -> list (option path * list (spanned declaration)) -> list complaint -> Prop :=
| fi_nil r : files_interspersed L E r [] [] []
| fi_whole r id file content toks cs ds es ws r1 fs es' :
    lex L content = Fine (Some toks) ->
    interspersed E (input_of id content toks) file r 0 ds es ws (List.length toks) r1 ->
    files_interspersed L E r1 cs fs es' ->
    files_interspersed L E r ((id, file, content) :: cs) ((file, ds) :: fs) (es ++ es')
| fi_cut r id file content toks cs ds es ws k r1 fs es' :
    lex L content = Fine (Some toks) ->
    interspersed E (input_of id content toks) file r 0 ds es ws k r1 ->
    rubbish E (input_of id content toks) file k (List.length toks) ->
    files_interspersed L E r1 cs fs es' ->
    files_interspersed L E r ((id, file, content) :: cs) ((file, []) :: fs) (es ++ C_Syntax id k :: es').
