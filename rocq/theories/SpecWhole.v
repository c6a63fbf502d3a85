(** * Specification of a successful parse *)
From Coq Require Import String Ascii.
From Coq Require Import List NArith ZArith Arith Bool Permutation.
From Verif Require Import Base Path Sources Types SortM SpecSort Options SpecOptions Pragma SpecPragma Read Token Lexer Grammar SpecGrammar Parse SpecParse.
Import ListNotations.
Local Open Scope nat_scope.

(** [out] is [l] in order of date, and what is tied keeps its order: [places]
    says where in [l] each is. *)
Definition sorted_from (l out : list (spanned directive)) : Prop :=
  exists places, Permutation places (seq 0 (List.length l)) /\ map (nth_error l) places = map Some out /\
    forall i j x y, occurs_before out i j x y ->
      ~ must_precede (item y) (item x) /\
      (tied (item x) (item y) -> forall p q, nth_error places i = Some p -> nth_error places j = Some q -> p < q).

(** When parsing is a success, and what is returned:
    - each of the files is one declaration after the other, without errors;
      the warnings are for the strings in them;
    - the walk through the declarations of the files, from the root, into
      included files where they are included, gives rise to no error and leaves
      nothing pushed;
    - the directives are those of the walk, with the tags and the metadata which
      were pushed, in order of date;
    - the options are those of the walk, and what the options for names and
      lines have set in the end; the plugins are those of the walk. *)
Inductive succeeds (L : lexer_env) (E : grammar_env) (canonicalize : path -> option path) (s : sources)
  : list (spanned directive) -> options -> list plugin -> list report -> Prop :=
| success rootds others r' po es rest yielded directives warnings :
    files_tiled L E initial_rules (content_iter s) ((root_path s, rootds) :: others) [] warnings r' ->
    walk (included_globs s) others (root_path s) rootds es rest ->
    dues canonicalize (included_globs s) (error_paths s) [] es [] -> leftover es [] ->
    yields [] es yielded -> sorted_from yielded directives ->
    obeys E po r' ->
    succeeds L E canonicalize s directives (fst (assimilate_all (options_new po) (options_of es))) (plugins_of es) warnings.

(** Two directives which are the same but for the order of their tags and
    metadata. *)
Definition same_directive (d d' : spanned directive) : Prop :=
  core d = core d' /\
  (forall t, In t (md_tags (item (dir_metadata (item d)))) <-> In t (md_tags (item (dir_metadata (item d'))))) /\
  (forall kv, In kv (md_key_values (item (dir_metadata (item d)))) <-> In kv (md_key_values (item (dir_metadata (item d'))))).

(** ** Files in any order *)

(** There is an option in the file which sets the name of an account type or
    how many lines a string may have. *)
Definition sets_rules (I : input) : Prop := exists i name value,
  tok I i (T_Keyword K_Option) /\ tok I (S i) (T_String name) /\ tok I (S (S i)) (T_String value) /\
  In name (map lit ["name_assets"; "name_liabilities"; "name_equity"; "name_income"; "name_expenses"; "long_string_maxlines"]%string).
(** There is none in any of these files. *)
Definition sets_nothing (L : lexer_env) (cs : list (nat * option path * str)) : Prop :=
  forall id f c toks, In (id, f, c) cs -> lex L c = Fine (Some toks) -> ~ sets_rules (input_of id c toks).

Definition with_parser_options (po : parser_options) (o : options) : options :=
  mk_options (os_title o) (os_subaccount o) (os_conversion_currency o) (os_tolerance_default o) (os_tolerance_multiplier o)
    (os_tolerance_from_cost o) (os_documents o) (os_operating_currency o) (os_render_commas o) (os_booking_method o)
    (os_plugin_mode o) po.
(** The same options: those for names and lines say the same, all others are equal. *)
Definition same_options (o o' : options) : Prop :=
  o' = with_parser_options (os_parser_options o') o /\
  (forall t, options_account_type_name o t = options_account_type_name o' t) /\
  option_map item (options_long_string_maxlines o) = option_map item (options_long_string_maxlines o').

(** The same complaint, but for the order of the tags and metadata it lists. *)
Definition alike_complaint (a b : complaint) : Prop :=
  match a, b with
  | C_Report r, C_Report r' => alike_report r r'
  | C_Syntax id i, C_Syntax id' i' => id = id' /\ i = i'
  | _, _ => False
  end.

(** The same result, but for the order of errors, of warnings, and of tags and
    metadata within a directive or listed in an error.  Nothing is said about the warnings beside
    errors. *)
Definition same_result (a b : parsed_as) : Prop :=
  match a, b with
  | Success ds o p ws, Success ds' o' p' ws' =>
      Forall2 same_directive ds ds' /\ same_options o o' /\ p = p' /\ Permutation ws ws'
  | Failure es _, Failure es' _ => exists es0, Permutation es es0 /\ Forall2 alike_complaint es0 es'
  | _, _ => False
  end.

(** ** What is in a file *)
Definition plugins_in (ds : list (spanned declaration)) : list plugin :=
  flat_map (fun d => match item d with D_Pragma (P_Plugin p) => [p] | _ => [] end) ds.
Definition options_in (ds : list (spanned declaration)) : list beancount_option :=
  flat_map (fun d => match item d with D_Pragma (P_Option o) => [o] | _ => [] end) ds.

Definition includes_in (ds : list (spanned declaration)) : list str :=
  flat_map (fun d => match item d with D_Pragma (P_Include t) => [item t] | _ => [] end) ds.

(** Globbing finds the same files for patterns which are equal as paths. *)
Definition glob_agrees (glob_with : path -> result (list glob_item) str) : Prop :=
  forall p q items, same_path p q -> glob_with p = Ok items ->
    exists items', glob_with q = Ok items' /\ Forall2 (fun i j => same_path (item_path i) (item_path j)) items items'.

(** [p] is a name of one of the included files, either equal as a path to the
    name it was read under or with the same canonical name. *)
Definition covered (canonicalize : path -> option path) (s : sources) (p : path) : Prop :=
  exists id k c, In (S id, Some k, c) (content_iter s) /\
    (same_path p k \/ exists p' a b, same_path p p' /\ canonicalize p' = Some a /\ canonicalize k = Some b /\ same_path a b).
