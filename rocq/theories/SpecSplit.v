(** * Specification: a text which is spread over several files *)
From Coq Require Import String Ascii.
From Coq Require Import List NArith Arith Bool.
From Verif Require Import Base Path Sources Types Pragma SpecPragma Read Token Lexer Grammar SpecGrammar SpecPaste SpecAppend SpecLocal.
Import ListNotations.
Local Open Scope nat_scope.

(** The files of one include, in the order of the glob, all of them in the table;
    the rest of the table. *)
Inductive all_found {A : Type} (name : A -> option path) : list A -> list path -> list A -> list A -> Prop :=
| all_found_nil t : all_found name t [] [] t
| all_found_cons a p k x b ps fs t : name x = Some k -> same_path p k -> all_found name (a ++ b) ps fs t ->
    all_found name (a ++ x :: b) (p :: ps) (x :: fs) t.

(** [spread glob_with t f ts us t']: the tokens [us] are spread over the file [f],
    whose tokens are [ts], and those which it includes.  Each piece of [us]
    begins with a line which is not indented.  Each include is a line of its own,
    which stands for one or more files in which a piece is, the last file of
    a glob first; a piece may lack the end of its last line when that is the
    last one of its file.  No file is included twice.  [t] are the files not
    yet included, of which [t'] are left. *)
Inductive spread (glob_with : path -> result (list glob_item) str) : token_table -> option path -> list token -> list token -> token_table -> Prop :=
| spread_piece t f ts : without K_Include ts -> afresh_next ts -> spread glob_with t f ts ts t
| spread_include t f a text eol ts items fs t1 us1 t2 us2 t3 :
    without K_Include a -> afresh_next a -> ended a -> eol = [T_Eol] \/ eol = [] /\ ts = [] ->
    glob_with (resolve_included_path f text) = Ok items -> items <> [] -> all_found fst t (map item_path items) fs t1 ->
    spread_files glob_with t1 (rev fs) us1 t2 -> spread glob_with t2 f ts us2 t3 ->
    spread glob_with t f (a ++ T_Keyword K_Include :: T_String text :: eol ++ ts) (a ++ us1 ++ us2) t3
with spread_files (glob_with : path -> result (list glob_item) str) : token_table -> token_table -> list token -> token_table -> Prop :=
| spread_no_file t : spread_files glob_with t [] [] t
| spread_file t f ts fs us vs t1 ws t2 :
    spread glob_with t f ts us t1 -> full_lines us vs -> spread_files glob_with t1 fs ws t2 ->
    spread_files glob_with t ((f, ts) :: fs) (vs ++ ws) t2.
