(** * Specification of the texts of errors and warnings *)
From Coq Require Import String Ascii.
From Coq Require Import List NArith Arith Bool.
From Verif Require Import Base Types Cost Report SpecTypes SpecOptions.
Import ListNotations.

(** Pieces one after the other, with [sep] between them. *)
Inductive joined_by (sep : str) : list str -> str -> Prop :=
| joined_none : joined_by sep [] []
| joined_one x : joined_by sep [x] x
| joined_more x y l t : joined_by sep (y :: l) t -> joined_by sep (x :: y :: l) (x ++ sep ++ t).

(** Characters in single quotes, with commas. *)
Definition quoted_list (cs : list N) (t : str) : Prop := joined_by (lit ", ") (map (fun c => [39%N; c; 39%N]) cs) t.

(** ** Refused names

    A message for a refused text: [intro], the characters refused, [advice]. *)
Definition blames (intro : str) (bad : list N) (advice m : str) : Prop :=
  exists listed, quoted_list bad listed /\ m = intro ++ listed ++ advice.

(** What is said of a refused account type name, account name or key. *)
Inductive name_message (empty initial_advice intro advice : str) : name_error -> str -> Prop :=
| said_empty : name_message empty initial_advice intro advice NameEmpty empty
| said_initial c m : blames (lit "invalid character ") [c] initial_advice m ->
    name_message empty initial_advice intro advice (NameInitial c) m
| said_subsequent bad m : blames intro bad advice m -> name_message empty initial_advice intro advice (NameSubsequent bad) m.

Definition account_type_name_message := name_message (lit "empty account name")
  (lit " for account name initial - must be uppercase ASCII letter") (lit "invalid character ") (lit " in account name - must be alphanumeric or '-'").
Definition account_name_message := name_message (lit "empty account name")
  (lit " for account name initial - must be uppercase ASCII letter or digit") (lit "invalid character ") (lit " in account name - must be alphanumeric or '-'").
Definition key_message := name_message (lit "empty key")
  (lit " for key initial - must be lowercase ASCII letter") (lit "invalid characters ") (lit " for key - must be alphanumeric or '-' or '_'").

Inductive currency_message : currency_error -> str -> Prop :=
| cm_empty : currency_message CurrencyEmpty (lit "empty currency")
| cm_initial c m : blames (lit "invalid initial character ") [c] (lit " for currency - must be uppercase ASCII letter or '/'") m ->
    currency_message (CurrencyInitial c) m
| cm_middle bad m : blames (lit "invalid intermediate characters ") bad (lit " for currency - must be upppercase ASCII alphanumeric or one of ''', '.', '_', '-'") m ->
    currency_message (CurrencyIntermediate bad) m
| cm_final c m : blames (lit "invalid final character ") [c] (lit " for currency - must be uppercase ASCII alphanumeric") m ->
    currency_message (CurrencyFinal c) m
| cm_letter : currency_message CurrencyMissingLetter (lit "currency must contain at least one letter").

Inductive account_message (names : list str) : account_error -> str -> Prop :=
| am_type e m : account_type_name_message e m -> account_message names (AccTypeName e) m
| am_name e m : account_name_message e m -> account_message names (AccName e) m
| am_unknown w listed : joined_by (lit ", ") names listed ->
    account_message names (AccUnknownType w) (lit "unknown account type " ++ w ++ lit ", must be one of " ++ listed).

(** ** Refused values of options *)
Inductive bad_value_message (decimal_text integer_text : str -> str) : bad_value -> str -> Prop :=
| bm_type_name e m : account_type_name_message e m -> bad_value_message decimal_text integer_text (BadAccountTypeName e) m
| bm_name e m : account_name_message e m -> bad_value_message decimal_text integer_text (BadAccountName e) m
| bm_currency e m : currency_message e m -> bad_value_message decimal_text integer_text (BadCurrency e) m
| bm_booking : bad_value_message decimal_text integer_text BadBooking
    (lit "Expected one of STRICT, STRICT_WITH_SIZE, NONE, AVERAGE, FIFO, LIFO, HIFO")
| bm_mode : bad_value_message decimal_text integer_text BadPluginMode (lit "Expected one of DEFAULT, RAW")
| bm_decimal v : bad_value_message decimal_text integer_text (BadDecimal v) (decimal_text v)
| bm_bool : bad_value_message decimal_text integer_text BadBool (lit "must be true or false or case-insensitive equivalent")
| bm_missing : bad_value_message decimal_text integer_text BadMissingColon (lit "missing colon")
| bm_many : bad_value_message decimal_text integer_text BadTooManyColons (lit "too many colons")
| bm_integer v : bad_value_message decimal_text integer_text (BadInteger v) (integer_text v).

(** ** Cost specifications *)

Definition field_names : list (cost_kind * string) :=
  [(CK_PerUnit, "per-unit"); (CK_Total, "total"); (CK_Currency, "currency"); (CK_Date, "date"); (CK_Label, "label"); (CK_Merge, "merge-cost")]%string.

(** Each field given again, in order. *)
Definition cost_message (again : list cost_kind) (m : str) : Prop :=
  exists pieces,
    Forall2 (fun k piece => exists word, In (k, word) field_names /\ piece = lit "duplicate " ++ lit word ++ lit " field in cost specification") again pieces /\
    joined_by (lit ", ") pieces m.

(** ** Errors and warnings of a parse *)

(** The decimal digits of a number, without leading zeros. *)
Definition numeral (t : str) (n : N) : Prop :=
  t <> [] /\ Forall digit t /\ decimal_value t = n /\ (hd_error t = Some 48%N -> t = [48%N]).

(** The tags and metadata in force: the tags, a blank, and for each key the
    values, in brackets. *)
Definition context_text (show : meta_value -> str) (l : listing) (t : str) : Prop :=
  exists tags entries metas,
    joined_by (lit " ") (map (fun x => 35%N :: x) (ls_tags l)) tags /\
    Forall2 (fun '(k, vs) e => exists values, joined_by (lit " ") (map show vs) values /\ e = k ++ lit ": [" ++ values ++ lit "]") (ls_meta l) entries /\
    joined_by (lit " ") entries metas /\
    t = tags ++ lit " " ++ metas.

(** What is said of each problem: an error or a warning, the message (that of
    chumsky where there is none), the reason, and what related places are
    called. *)
Inductive tells (show : meta_value -> str) (decimal_text integer_text : str -> str)
  : problem -> kind -> option str -> str -> option str -> Prop :=
| tells_tag t : tells show decimal_text integer_text (DuplicateTag t) K_Error None (lit "duplicate tag #" ++ t) None
| tells_link t : tells show decimal_text integer_text (DuplicateLink t) K_Error None (lit "duplicate link ^" ++ t) None
| tells_key t : tells show decimal_text integer_text (DuplicateKey t) K_Error None (lit "duplicate key " ++ t) None
| tells_currency t : tells show decimal_text integer_text (DuplicateCurrency t) K_Error None (lit "duplicate currency " ++ t) None
| tells_unknown : tells show decimal_text integer_text UnknownOption K_Error None (lit "unknown option") None
| tells_bad e m : bad_value_message decimal_text integer_text e m ->
    tells show decimal_text integer_text (BadOptionValue e) K_Error None m None
| tells_in_use t word : In (t, word) [(Assets, "Assets"); (Liabilities, "Liabilities"); (Equity, "Equity"); (Income, "Income"); (Expenses, "Expenses")]%string ->
    tells show decimal_text integer_text (NameInUse t) K_Error None (lit "account type name in use for " ++ lit word) None
| tells_pushmeta : tells show decimal_text integer_text InvalidPushmeta K_Error (Some (lit "invalid pushmeta")) (lit "missing corresponding popmeta") None
| tells_popmeta : tells show decimal_text integer_text InvalidPopmeta K_Error (Some (lit "invalid popmeta")) (lit "missing corresponding pushmeta") None
| tells_pushtag : tells show decimal_text integer_text InvalidPushtag K_Error (Some (lit "invalid pushtag")) (lit "missing corresponding poptag") None
| tells_poptag : tells show decimal_text integer_text InvalidPoptag K_Error (Some (lit "invalid poptag")) (lit "missing corresponding pushtag") None
| tells_no_file : tells show decimal_text integer_text IncludeNoSuchFile K_Error (Some (lit "include failed")) (lit "no such file") None
| tells_unreadable e : tells show decimal_text integer_text (IncludeUnreadable e) K_Error (Some (lit "can't read file")) e None
| tells_glob e : tells show decimal_text integer_text (IncludeGlobError e) K_Error (Some (lit "can't expand glob")) e None
| tells_included here t : context_text show here t ->
    tells show decimal_text integer_text (DuplicateInclude here None) K_Error (Some (lit "duplicate include")) (lit "context " ++ t) None
| tells_included_again here first t t0 : context_text show here t -> context_text show first t0 ->
    tells show decimal_text integer_text (DuplicateInclude here (Some first)) K_Error (Some (lit "duplicate include")) (lit "context " ++ t) (Some (lit "context " ++ t0))
| tells_option : tells show decimal_text integer_text DuplicateOption K_Error (Some (lit "invalid option")) (lit "duplicate") (Some (lit "option"))
| tells_value : tells show decimal_text integer_text DuplicateOptionValue K_Error (Some (lit "invalid option")) (lit "duplicate value") (Some (lit "option value"))
| tells_long (is_default : bool) max lines tm tl : numeral tm max -> numeral tl lines ->
    tells show decimal_text integer_text (StringTooLong is_default max lines) K_Warning (Some (lit "string too long"))
      (lit "exceeds long_string_maxlines(" ++ (if is_default then lit "default " else []) ++ tm ++
       lit ") - hint: would require option ""long_string_maxlines"" """ ++ tl ++ lit """")
      (Some (lit "max allowed")).

(** The error or warning for a report: [said] is what chumsky says of an
    emitted error, given its text and its contexts. *)
Record notice_for (show : meta_value -> str) (decimal_text integer_text : str -> str) (emitted_in : report -> list (str * span))
  (said : str -> list (str * span) -> str) (r : report) (n : notice) : Prop := {
  nf_told : exists message name,
    tells show decimal_text integer_text (rp_problem r) (nt_kind n) message (nt_reason n) name /\
    nt_message n = match message with Some m => m | None => said (nt_reason n) (emitted_in r) end /\
    contexts n = match message with Some _ => [] | None => emitted_in r end /\
    related n = match name with Some x => map (fun sp => (x, sp)) (rp_related r) | None => [] end;
  nf_span : nt_span n = rp_span r
}.
