(** * Specification: one ledger after another *)
From Coq Require Import String Ascii.
From Coq Require Import List NArith Arith Bool.
From Verif Require Import Base Path Sources Types Read Token Lexer SpecLexer Grammar Parse SpecLayout.
Import ListNotations.
Local Open Scope nat_scope.

(** Reading [content] as the root file, and whatever it includes, and parsing
    it: [result] is what comes out. *)
Inductive ledger_is (L : lexer_env) (E : grammar_env) (canonicalize : path -> option path) (root : option path) (content : str) : parsed_as -> Prop :=
| ledger_read glob_with read fuel s toks result :
    read_with_includes (includes_of L) glob_with canonicalize read fuel root content = Some s ->
    parser_new L s = Fine (Some toks) -> parse E canonicalize s toks = Fine (Some result) -> ledger_is L E canonicalize root content result.

(** The tokens are none, or their last line is ended. *)
Definition ended (ts : list token) : Prop := ts = [] \/ exists us, ts = us ++ [T_Eol].
Definition without (k : keyword) (ts : list token) : Prop := ~ In (T_Keyword k) ts.

(** [starts_afresh L fin ws ls s]: the text [s] is lines of words, the first of
    them [ws], which is not indented, the others [ls]; [fin] when the last line is
    ended.  Before the first line there may be empty lines and comments, but no
    heading or so on the first line. *)
Inductive starts_afresh (L : lexer_env) (fin : bool) (ws : list word) (ls : list words_line) : str -> Prop :=
| afresh o g s rest : o = None \/ o = Some false -> gaps o g -> worded L ws rest s -> begins ws -> ~ ignored_start s -> lined L fin ls rest ->
    starts_afresh L fin ws ls (g ++ s).
