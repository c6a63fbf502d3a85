(** * Specification of places: what is written where a span says it is *)
From Coq Require Import String Ascii.
From Coq Require Import List NArith Arith Bool.
From Verif Require Import Base Types SpecTypes Decimal Cost Options SpecOptions Pragma Read Token Lexer SpecLexer Path Sources SpecSources Grammar SpecGrammar Parse.
Import ListNotations.
Local Open Scope nat_scope.

(** The text [m] is what [sp] designates in its source, one of those read. *)
Definition written_at (s : sources) (sp : span) (m : str) : Prop :=
  exists name file content pre post, source_text s (sp_source sp) name content /\ In (sp_source sp, file, content) (content_iter s) /\
    designates content sp pre m post.

(** ** How things are written *)
Section Spelling.
  Context (L : lexer_env).

  Definition name_spelling (x m : str) : Prop := m = x.
  Definition account_spelling (a : account) (m : str) : Prop := m = acc_name a.
  Definition tag_spelling (t m : str) : Prop := m = 35%N :: t.
  Definition link_spelling (t m : str) : Prop := m = 94%N :: t.
  (** Between quotes; with the escapes replaced, if there are any. *)
  Definition string_spelling (s m : str) : Prop :=
    exists b, m = 34%N :: b ++ [34%N] /\ (~ In 92%N b /\ s = b \/ In 92%N b /\ le_unescape L b = Ok s).
  Definition booking_spelling (b : booking) (m : str) : Prop := string_spelling (booking_name b) m.
  Definition date_spelling (d : date) (m : str) : Prop :=
    exists y p mo q dd, m = y ++ p :: mo ++ q :: dd /\ (p = 45%N \/ p = 47%N) /\ (q = 45%N \/ q = 47%N) /\
      Forall digit y /\ Forall digit mo /\ Forall digit dd /\ calendar_date (num y) (num mo) (num dd) /\
      d = mk_date (num y) (num mo) (num dd).
  (** Without the commas it is what the decimal is read from. *)
  Definition number_spelling (d : decimal) (m : str) : Prop :=
    exists i gs f, number_text L i gs f m /\
      le_decimal L (i ++ concat gs ++ match f with Some d => 46%N :: d | None => [] end) = Ok d.
  Definition flag_spelling (f : flag) (m : str) : Prop :=
    match f with
    | F_Asterisk => m = lit "*"
    | F_Exclamation => m = lit "!"
    | F_Ampersand => m = lit "&"
    | F_Hash => m = lit "#"
    | F_Question => m = lit "?"
    | F_Percent => m = lit "%"
    | F_Letter c => m = [39%N; c]
    end.
  Definition txn_spelling (f : flag) (m : str) : Prop := flag_spelling f m \/ f = F_Asterisk /\ m = lit "txn".
  Definition bool_spelling (b : bool) (m : str) : Prop := m = if b then lit "TRUE" else lit "FALSE".
End Spelling.

(** ** Everything in a result is where its span says *)
Section Located.
  Context (L : lexer_env) (here : span -> str -> Prop).

  (** Some text is there. *)
  Definition place (sp : span) : Prop := exists m, here sp m.
  Definition spelled {A} (w : A -> str -> Prop) (x : spanned A) : Prop := exists m, here (span_of x) m /\ w (item x) m.
  Definition given_is {A} (P : A -> Prop) (o : option A) : Prop := forall x, o = Some x -> P x.
  (** At the end of what is there. *)
  Definition ends_with (w : str -> str -> Prop) (x : spanned str) : Prop := exists before m, here (span_of x) (before ++ m) /\ w (item x) m.

  Definition located_amount (a : amount) : Prop :=
    place (span_of (am_number a)) /\ spelled name_spelling (am_currency a).

  (** A key without a value: the span of the value ends where the colon ends,
      and starts there or after it.  *)
  Definition nothing_after_colon (sp : span) : Prop :=
    sp_end sp <= sp_start sp /\ 1 <= sp_end sp /\ here (mk_span (sp_source sp) (sp_end sp - 1) (sp_end sp)) (lit ":").

  Definition located_value (v : spanned meta_value) : Prop :=
    match item v with
    | MV_Amount a => place (span_of v) /\ located_amount a
    | MV_Simple (SV_String s) => exists m, here (span_of v) m /\ string_spelling L s m
    | MV_Simple (SV_Currency c) => here (span_of v) c
    | MV_Simple (SV_Account a) => here (span_of v) (acc_name a)
    | MV_Simple (SV_Tag t) => here (span_of v) (35%N :: t)
    | MV_Simple (SV_Link t) => here (span_of v) (94%N :: t)
    | MV_Simple (SV_Date d) => exists m, here (span_of v) m /\ date_spelling d m
    | MV_Simple (SV_Bool b) => here (span_of v) (if b then lit "TRUE" else lit "FALSE")
    | MV_Simple SV_Null => here (span_of v) (lit "NULL") \/ nothing_after_colon (span_of v)
    | MV_Simple (SV_Expr e) => place (span_of v)
    end.

  (** Where there is no metadata its span may be reversed. *)
  Record located_metadata (tag_ok : spanned str -> Prop) (md : spanned metadata) : Prop := {
    lm_span : place (span_of md) \/ sp_end (span_of md) <= sp_start (span_of md);
    lm_keys : Forall (fun kv => spelled name_spelling (fst kv) /\ located_value (snd kv)) (md_key_values (item md));
    lm_tags : Forall tag_ok (md_tags (item md));
    lm_links : Forall (spelled link_spelling) (md_links (item md))
  }.

  (** A tag is where it is written, or where it is pushed: there, the keyword
      is included. *)
  Definition tag_or_pushtag (t : spanned str) : Prop :=
    spelled tag_spelling t \/ exists between, here (span_of t) (lit "pushtag" ++ between ++ 35%N :: item t).

  (** The parts of a cost are where the component is which they are from. *)
  Record located_cost (c : cost_spec) : Prop := {
    lc_per_unit : given_is (fun x => place (span_of x)) (cs_per_unit c);
    lc_total : given_is (fun x => place (span_of x)) (cs_total c);
    lc_currency : given_is (ends_with name_spelling) (cs_currency c);
    lc_date : given_is (spelled date_spelling) (cs_date c);
    lc_label : given_is (spelled (string_spelling L)) (cs_label c)
  }.

  Record located_posting (p : spanned posting) : Prop := {
    lp_span : place (span_of p);
    lp_flag : given_is (spelled flag_spelling) (po_flag (item p));
    lp_account : spelled account_spelling (po_account (item p));
    lp_amount : given_is (fun x => place (span_of x)) (po_amount (item p));
    lp_currency : given_is (spelled name_spelling) (po_currency (item p));
    lp_cost : given_is (fun x => place (span_of x) /\ located_cost (item x)) (po_cost_spec (item p));
    lp_price : given_is (fun x => place (span_of x)) (po_price (item p));
    lp_metadata : located_metadata (spelled tag_spelling) (po_metadata (item p))
  }.

  Definition located_amount_tol (a : amount_tol) : Prop :=
    place (span_of (at_amount a)) /\ located_amount (item (at_amount a)) /\
    given_is (spelled (number_spelling L)) (at_tolerance a).

  Definition located_variant (v : variant) : Prop :=
    match v with
    | V_Transaction flag payee narration postings =>
        spelled txn_spelling flag /\ given_is (spelled (string_spelling L)) payee /\
        given_is (spelled (string_spelling L)) narration /\ Forall located_posting postings
    | V_Price c a => spelled name_spelling c /\ place (span_of a) /\ located_amount (item a)
    | V_Balance a t => spelled account_spelling a /\ place (span_of t) /\ located_amount_tol (item t)
    | V_Open a cs b =>
        spelled account_spelling a /\ Forall (spelled name_spelling) cs /\ given_is (spelled (booking_spelling L)) b
    | V_Close a => spelled account_spelling a
    | V_Commodity c => spelled name_spelling c
    | V_Pad a b => spelled account_spelling a /\ spelled account_spelling b
    | V_Document a s | V_Note a s => spelled account_spelling a /\ spelled (string_spelling L) s
    | V_Event a s | V_Query a s => spelled (string_spelling L) a /\ spelled (string_spelling L) s
    | V_Custom t vs => spelled (string_spelling L) t /\ Forall located_value vs
    end.

  (** A directive starts with its date. *)
  Record located_directive (d : spanned directive) : Prop := {
    ld_span : exists m rest, here (span_of d) (m ++ rest) /\ here (span_of (dir_date (item d))) m /\
                sp_start (span_of d) = sp_start (span_of (dir_date (item d)));
    ld_date : spelled date_spelling (dir_date (item d));
    ld_metadata : located_metadata tag_or_pushtag (dir_metadata (item d));
    ld_variant : located_variant (dir_variant (item d))
  }.

  Definition located_plugin (p : plugin) : Prop :=
    spelled (string_spelling L) (pl_module p) /\ given_is (spelled (string_spelling L)) (pl_config p).

  (** An option is where its value is, the string which it is read from. *)
  Definition set_at {A} (U : unicode) (dec_parse : str -> option decimal) (kind : A -> option_variant) (x : spanned A) : Prop :=
    exists m file name value, here (span_of x) m /\ string_spelling L value m /\ reads U dec_parse file name value (kind (item x)).
  Record located_options (U : unicode) (dec_parse : str -> option decimal) (o : options) : Prop := {
    lo_title : given_is (set_at U dec_parse O_Title) (os_spanned (os_title o));
    lo_subaccount w : given_is (set_at U dec_parse (O_Subaccount w)) (os_spanned (os_subaccount o w));
    lo_conversion : given_is (set_at U dec_parse O_ConversionCurrency) (os_spanned (os_conversion_currency o));
    lo_multiplier : given_is (set_at U dec_parse O_InferredToleranceMultiplier) (os_spanned (os_tolerance_multiplier o));
    lo_from_cost : given_is (set_at U dec_parse O_InferToleranceFromCost) (os_spanned (os_tolerance_from_cost o));
    lo_commas : given_is (set_at U dec_parse O_RenderCommas) (os_spanned (os_render_commas o));
    lo_booking : given_is (set_at U dec_parse O_BookingMethod) (os_spanned (os_booking_method o));
    lo_plugin_mode : given_is (set_at U dec_parse O_PluginProcessingMode) (os_spanned (os_plugin_mode o))
  }.

  (** What is written where an error or a warning is: what it is about. *)
  Definition concerns (U : unicode) (dec_parse : str -> option decimal) (p : problem) (m : str) : Prop :=
    match p with
    | DuplicateTag t => m = 35%N :: t
    | DuplicateLink t => m = 94%N :: t
    | DuplicateKey x | DuplicateCurrency x => m = x
    | UnknownOption => exists name, string_spelling L name m /\ ~ In name option_names
    | BadOptionValue e => exists name value, string_spelling L value m /\ wrong U dec_parse name value e
    | NameInUse _ => exists value, string_spelling L value m /\ account_type_name_lang U value
    | InvalidPushmeta => key_lang U m
    | InvalidPopmeta => exists between, m = lit "popmeta" ++ between ++ lit ":"
    | InvalidPushtag => exists between t, m = lit "pushtag" ++ between ++ 35%N :: t
    | InvalidPoptag => exists between t, m = lit "poptag" ++ between ++ 35%N :: t
    | IncludeNoSuchFile | IncludeUnreadable _ | IncludeGlobError _ | DuplicateInclude _ _ => exists glob, string_spelling L glob m
    | DuplicateOption => exists name, string_spelling L name m /\ In name option_names
    | DuplicateOptionValue => exists value, string_spelling L value m
    | StringTooLong _ max lines => exists s, string_spelling L s m /\ lines = lines_of s /\ (max < lines)%N
    end.

  (** What they are related to are strings: an option or its value, or an
      include. *)
  Definition string_here (sp : span) : Prop := exists s m, here sp m /\ string_spelling L s m.
  Definition located_report (U : unicode) (dec_parse : str -> option decimal) (r : report) : Prop :=
    (exists m, here (rp_span r) m /\ concerns U dec_parse (rp_problem r) m) /\ Forall string_here (rp_related r).
End Located.

(** A syntax error is at a token of a source. *)
Definition located_complaint (L : lexer_env) (E : grammar_env) (s : sources) (c : complaint) : Prop :=
  match c with
  | C_Report r => located_report L (written_at s) (g_unicode E) (g_decimal E) r
  | C_Syntax id position =>
      exists name content toks, source_text s id name content /\ lex L content = Fine (Some toks) /\ position < List.length toks
  end.
