(** * Specification: the text of a ledger, with its includes replaced by what they include *)
From Coq Require Import String Ascii.
From Coq Require Import List NArith Arith Bool.
From Verif Require Import Base Path Sources Types Pragma SpecPragma Read Token Lexer Grammar SpecGrammar.
Import ListNotations.
Local Open Scope nat_scope.

(** The tokens of files, by the name they have been read under. *)
Notation token_table := (list (option (list N) * list token)).

(** These are the tokens of the texts. *)
Definition tokens_of (L : lexer_env) (cs : list (nat * option path * str)) (t : token_table) : Prop :=
  Forall2 (fun c x => snd (fst c) = fst x /\ exists ts, lex L (snd c) = Fine (Some ts) /\ snd x = map fst ts) cs t.

(** The files of one include, in the order of the glob: those which have not been
    included before, and those which are left. *)
Inductive found : token_table -> list path -> token_table -> token_table -> Prop :=
| found_none t : found t [] [] t
| found_new a p k ts b ps fs t : same_path p k -> found (a ++ b) ps fs t ->
    found (a ++ (Some k, ts) :: b) (p :: ps) ((Some k, ts) :: fs) t
| found_old t p ps fs t' : (forall k ts, In (Some k, ts) t -> ~ same_path p k) -> found t ps fs t' ->
    found t (p :: ps) fs t'.

(** The tokens, and an end of line after them if there is none. *)
Inductive full_lines : list token -> list token -> Prop :=
| full_none : full_lines [] []
| full_ended ts : full_lines (ts ++ [T_Eol]) (ts ++ [T_Eol])
| full_not_ended ts t : t <> T_Eol -> full_lines (ts ++ [t]) (ts ++ [t; T_Eol]).

(** [pasted glob_with t f ts us t']: when each line with an include in the tokens
    [ts] of the file [f] is replaced by the tokens of the files it includes, in
    which the same has been done, the last file of a glob first, each file
    only the first time it is included, then what results is [us].  [t] are
    the files not yet included, of which [t'] are left. *)
Inductive pasted (glob_with : path -> result (list glob_item) str) : token_table -> option path -> list token -> list token -> token_table -> Prop :=
| pasted_end t f : pasted glob_with t f [] [] t
| pasted_token t f x ts us t' : x <> T_Keyword K_Include -> pasted glob_with t f ts us t' ->
    pasted glob_with t f (x :: ts) (x :: us) t'
| pasted_include t f text eol ts items fs t1 us1 t2 us2 t3 :
    eol = [T_Eol] \/ eol = [] /\ ts = [] ->
    glob_with (resolve_included_path f text) = Ok items -> found t (map item_path items) fs t1 ->
    pasted_files glob_with t1 (rev fs) us1 t2 -> pasted glob_with t2 f ts us2 t3 ->
    pasted glob_with t f (T_Keyword K_Include :: T_String text :: eol ++ ts) (us1 ++ us2) t3
with pasted_files (glob_with : path -> result (list glob_item) str) : token_table -> token_table -> list token -> token_table -> Prop :=
| pasted_no_file t : pasted_files glob_with t [] [] t
| pasted_file t f ts fs us vs t1 ws t2 :
    pasted glob_with t f ts us t1 -> full_lines us vs -> pasted_files glob_with t1 fs ws t2 ->
    pasted_files glob_with t ((f, ts) :: fs) (vs ++ ws) t2.

(** At [i] is an option which sets the name of an account type or how many lines
    a string may have. *)
Definition sets_rule_at (I : input) (i : nat) : Prop := exists name value,
  tok I i (T_Keyword K_Option) /\ tok I (S i) (T_String name) /\ tok I (S (S i)) (T_String value) /\
  In name (map lit ["name_assets"; "name_liabilities"; "name_equity"; "name_income"; "name_expenses"; "long_string_maxlines"]%string).
(** There is none after an include. *)
Definition rules_first (I : input) : Prop := forall i j, tok I i (T_Keyword K_Include) -> i < j -> ~ sets_rule_at I j.
(** There is an option for documents, which are sought from the directory of the
    file. *)
Definition sets_documents (I : input) : Prop := exists i, tok I i (T_Keyword K_Option) /\ tok I (S i) (T_String (lit "documents")).
