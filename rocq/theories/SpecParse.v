(** * Specification of whole files *)
From Coq Require Import String Ascii.
From Coq Require Import List NArith ZArith Arith Bool Permutation.
From Verif Require Import Base Path Types SpecTypes Options SpecOptions Token Lexer Grammar SpecGrammar SpecDirective Parse.
Import ListNotations.
Local Open Scope nat_scope.

(** What is in force at some point of a file: the names of the account types,
    and how many lines a string may have and where that is said, if it is. *)
Record rules := mk_rules { rl_names : account_type -> str; rl_limit : option (N * span) }.
Definition initial_rules : rules := mk_rules default_names None.

(** The options of the parser say so; the names are possible ones. *)
Record obeys (E : grammar_env) (po : parser_options) (r : rules) : Prop := {
  ob_named : named (po_names po) (rl_names r);
  ob_names : forall t, account_type_name_lang (g_unicode E) (rl_names r t);
  ob_limit : line_limit po = rl_limit r
}.

(** What is relied on: ASCII characters are what they are, and a hash set is
    iterated over in some order. *)
Record environment_ok (E : grammar_env) : Prop := {
  env_unicode : unicode_ok (g_unicode E);
  env_order : forall l, Permutation l (g_order E l)
}.

Section Files.
  Context (E : grammar_env) (I : input) (source_path : option path).

  (** ** Options *)

  Inductive option_effect (r : rules) (name value : spanned str) : beancount_option -> list report -> rules -> Prop :=
  | effect_name t s :
      reads (g_unicode E) (g_decimal E) source_path (item name) (item value) (O_AccountTypeName t s) ->
      (forall t', t' <> t -> rl_names r t' <> s) ->
      option_effect r name value (mk_option (mk_source (span_of name) (span_of value)) O_Assimilated) []
        (mk_rules (set_name (rl_names r) t s) (rl_limit r))
  | effect_name_taken t t' s :
      reads (g_unicode E) (g_decimal E) source_path (item name) (item value) (O_AccountTypeName t s) ->
      t' <> t -> rl_names r t' = s ->
      option_effect r name value option_ignored [mk_report (NameInUse t') (span_of value) []] r
  | effect_limit m :
      reads (g_unicode E) (g_decimal E) source_path (item name) (item value) (O_LongStringMaxlines m) ->
      option_effect r name value (mk_option (mk_source (span_of name) (span_of value)) O_Assimilated) []
        (mk_rules (rl_names r) (Some (m, span_of value)))
  | effect_none v :
      reads (g_unicode E) (g_decimal E) source_path (item name) (item value) v ->
      match v with O_AccountTypeName _ _ | O_LongStringMaxlines _ => False | _ => True end ->
      option_effect r name value (mk_option (mk_source (span_of name) (span_of value)) v) [] r
  | effect_unknown :
      ~ In (item name) option_names ->
      option_effect r name value option_ignored [mk_report UnknownOption (span_of name) []] r
  | effect_bad e :
      wrong (g_unicode E) (g_decimal E) (item name) (item value) e ->
      option_effect r name value option_ignored [mk_report (BadOptionValue e) (span_of value) []] r.

  (** An option, without the end of its line. *)
  Inductive option_at (r : rules) (i : nat) : nat -> beancount_option -> list report -> rules -> Prop :=
  | option_ a b name value o es r' : tok I i (T_Keyword K_Option) ->
      written I (string_at I) (S i) a name -> written I (string_at I) a b value ->
      option_effect r name value o es r' -> option_at r i b o es r'.

  (** ** Pragmas other than options, without the end of their line *)
  Inductive pragma_at (names : account_type -> str) (i : nat) : nat -> pragma -> Prop :=
  | pragma_pushtag j t : tok I i (T_Keyword K_Pushtag) -> tag_at E I (S i) j t ->
      pragma_at names i j (P_Pushtag (mk_spanned t (text I i j)))
  | pragma_poptag j t : tok I i (T_Keyword K_Poptag) -> tag_at E I (S i) j t ->
      pragma_at names i j (P_Poptag (mk_spanned t (text I i j)))
  | pragma_pushmeta j kv : tok I i (T_Keyword K_Pushmeta) -> key_value_at E I names (S i) j kv ->
      pragma_at names i j (P_Pushmeta kv)
  | pragma_popmeta j k : tok I i (T_Keyword K_Popmeta) -> key_at E I (S i) j k -> tok I j T_Colon ->
      pragma_at names i (S j) (P_Popmeta (mk_spanned k (text I i (S j))))
  | pragma_include j s : tok I i (T_Keyword K_Include) -> written I (string_at I) (S i) j s ->
      pragma_at names i j (P_Include s)
  | pragma_plugin j k m c : tok I i (T_Keyword K_Plugin) -> written I (string_at I) (S i) j m ->
      maybe (written I (string_at I)) j k c -> pragma_at names i k (P_Plugin (mk_plugin m c)).

  (** ** Declarations *)

  (** A declaration, the errors in it, and what is in force afterwards. *)
  Inductive declares (r : rules) (i j : nat) : spanned declaration -> list report -> rules -> Prop :=
  | declares_directive d es : whole_at E I (rl_names r) i j d es ->
      declares r i j (mk_spanned (D_Directive d) (text I i j)) es r
  | declares_pragma k p : pragma_at (rl_names r) i k p -> line_end I k j ->
      declares r i j (mk_spanned (D_Pragma p) (text I i j)) [] r
  | declares_option k o es r' : option_at r i k o es r' -> line_end I k j ->
      declares r i j (mk_spanned (D_Pragma (P_Option o)) (text I i j)) es r'.

  (** A file in which there is nothing else: the declarations, the errors in
      them, the warnings, and what is in force at its end. *)
  Inductive tiles : rules -> nat -> list (spanned declaration) -> list report -> list report -> rules -> Prop :=
  | tiles_end r i : finished I i -> tiles r i [] [] [] r
  | tiles_next r i j d es r1 ds es' ws r' :
      declares r i j d es r1 -> tiles r1 j ds es' ws r' ->
      tiles r i (d :: ds) (es ++ es') (long_strings (rl_limit r) I i j ++ ws) r'.

  (** ** Recovery *)

  (** An option takes effect even if it is not the end of its line, so what
      is in force may change where no declaration is found. *)
  Inductive leaves (r : rules) (i : nat) : rules -> Prop :=
  | leaves_option k o es r' : option_at r i k o es r' -> leaves r i r'
  | leaves_alone : (forall k o es r', ~ option_at r i k o es r') -> leaves r i r.

  (** The next declaration without errors after the token at [i], if there is
      one, and the warnings for its strings. *)
  Inductive seeks : rules -> nat -> option (nat * nat * spanned declaration * list report) -> rules -> Prop :=
  | seeks_end r i : finished I i -> seeks r i None r
  | seeks_found r i j d r' : ~ finished I i -> declares r (S i) j d [] r' ->
      seeks r i (Some (S i, j, d, long_strings (rl_limit r) I (S i) j)) r'
  | seeks_on r i found r1 r' : ~ finished I i -> (forall j d r2, ~ declares r (S i) j d [] r2) ->
      leaves r (S i) r1 -> seeks r1 (S i) found r' -> seeks r i found r'.

  (** Any file: its declarations and where each is, the errors, the warnings
      for the strings of the declarations, where it stops, and what is in
      force then. *)
  Inductive declared : rules -> nat -> list (nat * nat * spanned declaration) -> list complaint -> list report -> nat -> rules -> Prop :=
  | declared_stop r i r1 r' : (forall j d es r2, ~ declares r i j d es r2) ->
      leaves r i r1 -> seeks r1 i None r' -> declared r i [] [] [] i r'
  | declared_next r i j d es r1 ds es' ws k r' : declares r i j d es r1 -> declared r1 j ds es' ws k r' ->
      declared r i ((i, j, d) :: ds) (map C_Report es ++ es') (long_strings (rl_limit r) I i j ++ ws) k r'
  | declared_skip r i i' j d w r1 r2 ds es' ws k r' : (forall j d es r2, ~ declares r i j d es r2) ->
      leaves r i r1 -> seeks r1 i (Some (i', j, d, w)) r2 -> declared r2 j ds es' ws k r' ->
      declared r i ((i', j, d) :: ds) (C_Syntax (in_source I) i :: es') (w ++ ws) k r'.

  (** ** Warnings *)

  (** What may be in force at some point of the file, if [lim] is before it. *)
  Inductive limit_in (lim : option (N * span)) : option (N * span) -> Prop :=
  | limit_before : limit_in lim lim
  | limit_set i a b name value m : tok I i (T_Keyword K_Option) ->
      written I (string_at I) (S i) a name -> written I (string_at I) a b value ->
      reads (g_unicode E) (g_decimal E) source_path (item name) (item value) (O_LongStringMaxlines m) ->
      limit_in lim (Some (m, span_of value)).
  (** A warning for a string which is in the file. *)
  Definition warrants (lim : option (N * span)) (w : report) : Prop :=
    exists lim' q s, limit_in lim lim' /\ tok I q (T_String s) /\ long_strings lim' I q (S q) = [w].

  (** ** Where nothing panics, for options (see [C49_option_panics]) *)
  Definition fine_options : Prop := forall i name value c,
    tok I i (T_Keyword K_Option) -> tok I (S i) (T_String name) -> tok I (S (S i)) (T_String value) ->
    In name [lit "conversion_currency"; lit "operating_currency"] /\ c = value \/
    name = lit "inferred_tolerance_default" /\ ~ In 58%N c /\ (value = c \/ exists rest, value = c ++ 58%N :: rest) ->
    Forall ascii c.

  (** What is returned for a file: where the declarations do not reach its
      end, there are none, and one more error. *)
  Inductive file_reads (r : rules) : option (list (spanned declaration)) -> list complaint -> list report -> rules -> Prop :=
  | file_whole ds es ws k r' : declared r 0 ds es ws k r' -> finished I k -> file_reads r (Some (map snd ds)) es ws r'
  | file_cut ds es ws k r' : declared r 0 ds es ws k r' -> ~ finished I k ->
      file_reads r None (es ++ [C_Syntax (in_source I) k]) ws r'.
End Files.

(** ** Several files *)

(** All of one list, in order, among another. *)
Inductive within {A} : list A -> list A -> Prop :=
| within_nil l : within [] l
| within_take x l l' : within l l' -> within (x :: l) (x :: l')
| within_drop x l l' : within l l' -> within l (x :: l').

Definition no_syntax_error (es : list complaint) : Prop := forall source position, ~ In (C_Syntax source position) es.

(** What is returned for a file, and its warnings: for the strings of its
    declarations, and perhaps for others of its strings where it does not
    consist of declarations. *)
Record file_result := mk_file_result {
  fr_file : option path;
  fr_declarations : option (list (spanned declaration));
  fr_errors : list complaint;
  fr_warnings : list report
}.
Definition file_result_ok (E : grammar_env) (I : input) (r : rules) (x : file_result) (r' : rules) : Prop :=
  exists ws, file_reads E I (fr_file x) r (fr_declarations x) (fr_errors x) ws r' /\
    within ws (fr_warnings x) /\ Forall (warrants E I (fr_file x) (rl_limit r)) (fr_warnings x) /\
    (no_syntax_error (fr_errors x) -> fr_warnings x = ws).

(** One after the other: what is in force at the end of one file is so at the
    start of the next. *)
Inductive files_read (L : lexer_env) (E : grammar_env) : rules -> list (nat * option path * str) -> list file_result -> rules -> Prop :=
| files_nil r : files_read L E r [] [] r
| files_cons r id content toks cs x r1 xs r' :
    lex L content = Fine (Some toks) ->
    file_result_ok E (input_of id content toks) r x r1 ->
    files_read L E r1 cs xs r' ->
    files_read L E r ((id, fr_file x, content) :: cs) (x :: xs) r'.

(** Files in each of which there is nothing but declarations. *)
Inductive files_tiled (L : lexer_env) (E : grammar_env)
  : rules -> list (nat * option path * str) -> list (option path * list (spanned declaration)) -> list report -> list report -> rules -> Prop :=
| tiled_nil r : files_tiled L E r [] [] [] [] r
| tiled_cons r id file content toks cs ds es ws r1 fs es' ws' r' :
    lex L content = Fine (Some toks) ->
    tiles E (input_of id content toks) file r 0 ds es ws r1 ->
    files_tiled L E r1 cs fs es' ws' r' ->
    files_tiled L E r ((id, file, content) :: cs) ((file, ds) :: fs) (es ++ es') (ws ++ ws') r'.

(** The declarations of a file, of which there are none after an error at its end. *)
Definition returned (x : file_result) : option path * list (spanned declaration) :=
  (fr_file x, match fr_declarations x with Some ds => ds | None => [] end).

(** ** The strings after include keywords *)
Definition included_at (I : input) (i : nat) : list str :=
  match nth_error (in_tokens I) i, nth_error (in_tokens I) (S i) with
  | Some (T_Keyword K_Include, _), Some (T_String s, _) => [s]
  | _, _ => []
  end.
Definition included_strings (I : input) : list str := flat_map (included_at I) (seq 0 (List.length (in_tokens I))).
