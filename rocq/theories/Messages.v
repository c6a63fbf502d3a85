(** * Messages: the texts of errors and warnings
    (src/types.rs, src/options.rs, src/parsers.rs, src/lib.rs, src/format.rs)

    [Display] of the error types as functions to text, and how each report
    becomes an [Error] or a [Warning]. *)
From Coq Require Import String Ascii.
From Coq Require Import List NArith Arith Bool DecimalString.
From Verif Require Import Base Types Cost Options Display Report Parse.
Import ListNotations.

(** ** Refused names *)

(** format.rs 54-60: [single_quoted]. *)
Definition single_quoted (c : char) : str := [39%N; c; 39%N].
(** types.rs 1450, 2063: the separator. *)
Definition comma : str := lit ", ".

(** types.rs 1435-1460: [AccountTypeNameError]. *)
Definition display_atn_error (e : name_error) : str :=
  match e with
  | NameEmpty => lit "empty account name"
  | NameInitial c => lit "invalid character '" ++ [c] ++ lit "' for account name initial - must be uppercase ASCII letter"
  | NameSubsequent bad =>
      format bad single_quoted comma (Some (lit "invalid character ")) ++ lit " in account name - must be alphanumeric or '-'"
  end.

(** types.rs 1522-1545: [AccountNameError]. *)
Definition display_an_error (e : name_error) : str :=
  match e with
  | NameEmpty => lit "empty account name"
  | NameInitial c => lit "invalid character '" ++ [c] ++ lit "' for account name initial - must be uppercase ASCII letter or digit"
  | NameSubsequent bad =>
      format bad single_quoted comma (Some (lit "invalid character ")) ++ lit " in account name - must be alphanumeric or '-'"
  end.

(** types.rs 2149-2171: [KeyError]. *)
Definition display_key_error (e : name_error) : str :=
  match e with
  | NameEmpty => lit "empty key"
  | NameInitial c => lit "invalid character '" ++ [c] ++ lit "' for key initial - must be lowercase ASCII letter"
  | NameSubsequent bad =>
      format bad single_quoted comma (Some (lit "invalid characters ")) ++ lit " for key - must be alphanumeric or '-' or '_'"
  end.

(** types.rs 2061-2072: [TagOrLinkIdentifierError]; 2051:
    [TAG_OR_LINK_EXTRA_CHARS]. *)
Definition tag_or_link_extra_chars : list char := [45%N; 95%N; 47%N; 46%N].
(** types.rs 2061-2072. *)
Definition display_tag_link_error (bad : list char) : str :=
  format bad single_quoted comma (Some (lit "invalid characters ")) ++
  format tag_or_link_extra_chars single_quoted comma (Some (lit " for tag or link identifier - must be alphanumeric or one of ")).

(** types.rs 1646-1680: [CurrencyError]; 1581:
    [CURRENCY_INTERMEDIATE_EXTRA_CHARS]. *)
Definition currency_extra_chars : list char := [39%N; 46%N; 95%N; 45%N].
(** types.rs 1646-1680. *)
Definition display_currency_error (e : currency_error) : str :=
  match e with
  | CurrencyEmpty => lit "empty currency"
  | CurrencyInitial c =>
      lit "invalid initial character '" ++ [c] ++ lit "' for currency - must be uppercase ASCII letter or '/'"
  | CurrencyIntermediate bad =>
      format bad single_quoted comma (Some (lit "invalid intermediate characters ")) ++
      format currency_extra_chars single_quoted comma
        (Some (lit " for currency - must be upppercase ASCII alphanumeric or one of "))
  | CurrencyFinal c =>
      lit "invalid final character '" ++ [c] ++ lit "' for currency - must be uppercase ASCII alphanumeric"
  | CurrencyMissingLetter => lit "currency must contain at least one letter"
  end.

(** types.rs 404-412: [FlagLetterError]. *)
Definition display_flag_letter_error (c : char) : str :=
  lit "invalid character '" ++ [c] ++ lit "' for flag letter - must be uppercase ASCII".

(** types.rs 2834-2838: [AccountTypeNames]. *)
Definition display_atns (names : account_type_names) : str := format (name_by_type names) (fun n => n) comma None.

(** types.rs 1282-1292: [AccountError]; 1239-1242: the text of an unknown
    account type, which is made when the account is. *)
Definition display_account_error (names : account_type_names) (e : account_error) : str :=
  match e with
  | AccMissingColon => lit "missing colon"
  | AccTypeName e => display_atn_error e
  | AccName e => display_an_error e
  | AccUnknownType name => lit "unknown account type " ++ name ++ lit ", must be one of " ++ display_atns names
  end.

(** types.rs 2689-2698: [CostSpecErrorKind], by strum in kebab-case;
    2710-2714: [CostSpecError]; 2722-2726: [CostSpecErrors]. *)
Definition display_cost_kind (k : cost_kind) : str :=
  match k with
  | CK_PerUnit => lit "per-unit"
  | CK_Total => lit "total"
  | CK_Currency => lit "currency"
  | CK_Date => lit "date"
  | CK_Label => lit "label"
  | CK_Merge => lit "merge-cost"
  end.
(** types.rs 2700-2714. *)
Definition display_cost_error (k : cost_kind) : str :=
  lit "duplicate " ++ display_cost_kind k ++ lit " field in cost specification".
(** types.rs 2722-2726. *)
Definition display_cost_errors (ks : list cost_kind) : str := format ks display_cost_error comma None.

(** types.rs 331-338: [AccountType] as a text, by strum. *)
Definition account_type_text (t : account_type) : str :=
  match t with
  | Assets => lit "Assets"
  | Liabilities => lit "Liabilities"
  | Equity => lit "Equity"
  | Income => lit "Income"
  | Expenses => lit "Expenses"
  end.

(** types.rs 2848-2855: [AccountTypeNamesError]; options.rs 361:
    [ParserOptionsError]. *)
Definition display_name_in_use (t : account_type) : str := lit "account type name in use for " ++ account_type_text t.

(** types.rs 456-464: [PluginProcessingMode], by strum in
    SCREAMING_SNAKE_CASE. *)
Definition display_plugin_mode (m : plugin_mode) : str :=
  match m with ModeDefault => lit "DEFAULT" | ModeRaw => lit "RAW" end.

(** [Display] of a [usize]. (std: [Display for usize], as at parsers.rs 1217-1219.) *)
Definition show_N (n : N) : str := lit (NilEmpty.string_of_uint (N.to_uint n)).

(** What comes from other crates: the [Display]s of [Display]; those of the
    errors of [Decimal::try_from] and [usize::from_str] for a text; and what
    chumsky says: of a syntax error its message, reason, span and contexts; of
    an emitted error its contexts, and its message given its text and these.
    (the texts of other crates at options.rs 298, 302, lexer.rs 700, 716 and parsers.rs 1325-1335.) *)
Record message_env := mk_message_env {
  me_display : display_env;
  me_decimal : str -> str;
  me_integer : str -> str;
  me_syntax : nat -> nat -> str * str * span * list (str * span);
  me_contexts : report -> list (str * span);
  me_message : str -> list (str * span) -> str
}.

Section Messages.
  Context (M : message_env).

  (** options.rs 275-305: [BadValueErrorKind]. *)
  Definition display_bad_value (e : bad_value) : str :=
    match e with
    | BadAccountTypeName e => display_atn_error e
    | BadAccountName e => display_an_error e
    | BadCurrency e => display_currency_error e
    | BadBooking =>
        format [Strict; StrictWithSize; NoBooking; Average; Fifo; Lifo; Hifo] display_booking comma (Some (lit "Expected one of "))
    | BadPluginMode => format [ModeDefault; ModeRaw] display_plugin_mode comma (Some (lit "Expected one of "))
    | BadDecimal text => me_decimal M text
    | BadBool => lit "must be true or false or case-insensitive equivalent"
    | BadMissingColon => lit "missing colon"
    | BadTooManyColons => lit "too many colons"
    | BadInteger text => me_integer M text
    end.

  (** options.rs 244-253: [BeancountOptionError]. *)
  Definition display_option_error (e : option_error) : str :=
    match e with OptUnknown => lit "unknown option" | OptBad e => display_bad_value e end.

  (** [itertools::intersperse] and [collect::<String>()]. (itertools: [intersperse] at lib.rs 338-357.) *)
  Fixpoint interspersed (sep : str) (l : list str) : str :=
    match l with
    | [] => []
    | [x] => x
    | x :: l' => x ++ sep ++ interspersed sep l'
    end.

  (** lib.rs 334-359: [fmt_include_context]. *)
  Definition fmt_include_context (l : listing) : str :=
    let tags_s := interspersed (lit " ") (map display_tag (ls_tags l)) in
    let meta_s := interspersed (lit " ")
      (map (fun '(k, vs) =>
        display_key k ++ lit ": [" ++ interspersed (lit " ") (map (display_meta_value (me_display M)) vs) ++ lit "]") (ls_meta l)) in
    tags_s ++ lit " " ++ meta_s.

  (** parsers.rs 1323-1337: [Error::from] an emitted error, made with
      [Rich::custom]. *)
  Definition custom_notice (r : report) (text : str) : notice :=
    in_explicitly_labelled_contexts
      (notice_new K_Error (me_message M text (me_contexts M r)) text (rp_span r)) (me_contexts M r).

  (** types.rs 141-149: [related_to_named_span], as used at lib.rs 617 and options.rs 496-498. *)
  Definition relate (n : notice) (name : str) (sps : list span) : notice :=
    fold_left (fun n sp => related_to_named_span n name sp) sps n.

  (** The [Error] or [Warning] made for each report: parsers.rs 146-158,
      369-372, 723-751, 1045-1061, 1205-1228, 1246-1294; options.rs 494-499;
      lib.rs 405-425, 470-475, 504-508, 532, 579-625, 638. *)
  Definition notice_of (r : report) : notice :=
    let error message reason := notice_new K_Error message reason (rp_span r) in
    match rp_problem r with
    | DuplicateTag t => custom_notice r (lit "duplicate tag " ++ display_tag t)
    | DuplicateLink l => custom_notice r (lit "duplicate link " ++ display_link l)
    | DuplicateKey k => custom_notice r (lit "duplicate key " ++ display_key k)
    | DuplicateCurrency c => custom_notice r (lit "duplicate currency " ++ display_currency c)
    | UnknownOption => custom_notice r (display_option_error OptUnknown)
    | BadOptionValue e => custom_notice r (display_option_error (OptBad e))
    | NameInUse t => custom_notice r (display_name_in_use t)
    | InvalidPushmeta => error (lit "invalid pushmeta") (lit "missing corresponding popmeta")
    | InvalidPopmeta => error (lit "invalid popmeta") (lit "missing corresponding pushmeta")
    | InvalidPushtag => error (lit "invalid pushtag") (lit "missing corresponding poptag")
    | InvalidPoptag => error (lit "invalid poptag") (lit "missing corresponding pushtag")
    | IncludeNoSuchFile => error (lit "include failed") (lit "no such file")
    | IncludeUnreadable e => error (lit "can't read file") e
    | IncludeGlobError e => error (lit "can't expand glob") e
    | DuplicateInclude here first =>
        let e := error (lit "duplicate include") (lit "context " ++ fmt_include_context here) in
        match first with
        | Some l => relate e (lit "context " ++ fmt_include_context l) (rp_related r)
        | None => e
        end
    | DuplicateOption => relate (error (lit "invalid option") (lit "duplicate")) (lit "option") (rp_related r)
    | DuplicateOptionValue => relate (error (lit "invalid option") (lit "duplicate value")) (lit "option value") (rp_related r)
    | StringTooLong is_default max lines =>
        relate
          (notice_new K_Warning (lit "string too long")
             (lit "exceeds long_string_maxlines(" ++ (if is_default then lit "default " else []) ++ show_N max ++
              lit ") - hint: would require option ""long_string_maxlines"" """ ++ show_N lines ++ lit """")
             (rp_span r))
          (lit "max allowed") (rp_related r)
    end.

  (** parsers.rs 1323-1338, and lib.rs 299: the errors of the parser. *)
  Definition notice_of_complaint (c : complaint) : notice :=
    match c with
    | C_Report r => notice_of r
    | C_Syntax id position =>
        let '(message, reason, sp, contexts) := me_syntax M id position in
        in_explicitly_labelled_contexts (notice_new K_Error message reason sp) contexts
    end.

  (** lib.rs 183-196 and 222-262: the errors and the warnings which [parse] returns. *)
  Definition errors_of (p : parsed_as) : list notice :=
    match p with Success _ _ _ _ => [] | Failure es _ => map notice_of_complaint es end.
  (** lib.rs 188, 195. *)
  Definition warnings_of (p : parsed_as) : list notice :=
    match p with Success _ _ _ ws => map notice_of ws | Failure _ ws => map notice_of ws end.
End Messages.
