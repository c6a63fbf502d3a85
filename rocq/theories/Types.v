(** * Types: the parsed data and its validators (src/types.rs) *)
From Coq Require Import String Ascii.
From Coq Require Import List NArith ZArith Arith Bool.
From Verif Require Import Base Path.
Import ListNotations.
Local Open Scope nat_scope.

(** ** Plain data *)

(** types.rs 332-338: [AccountType], in discriminant order. *)
Inductive account_type := Assets | Liabilities | Equity | Income | Expenses.

(** types.rs 331: the derived [PartialEq]. *)
Definition account_type_eqb (a b : account_type) : bool :=
  match a, b with
  | Assets, Assets | Liabilities, Liabilities | Equity, Equity
  | Income, Income | Expenses, Expenses => true
  | _, _ => false
  end.

(** types.rs 2761: [account_type as usize]. *)
Definition account_type_index (t : account_type) : nat :=
  match t with Assets => 0 | Liabilities => 1 | Equity => 2 | Income => 3 | Expenses => 4 end.

(** types.rs 348-357: [Flag]. *)
Inductive flag :=
| F_Asterisk | F_Exclamation | F_Ampersand | F_Hash | F_Question | F_Percent
| F_Letter (c : char).

(** types.rs 395-397, 416-427: [FlagLetter::is_valid] and [TryFrom<char>]. *)
Definition flag_letter_try_from (c : char) : result flag char :=
  if is_ascii_uppercase c then Ok (F_Letter c) else Err c.

(** types.rs 429-442: [Booking] and its [EnumString] names. *)
Inductive booking := Strict | StrictWithSize | NoBooking | Average | Fifo | Lifo | Hifo.

(** types.rs 432-442: the names made by strum. *)
Definition booking_names : list (str * booking) :=
  [(lit "STRICT", Strict); (lit "STRICT_WITH_SIZE", StrictWithSize); (lit "NONE", NoBooking);
   (lit "AVERAGE", Average); (lit "FIFO", Fifo); (lit "LIFO", Lifo); (lit "HIFO", Hifo)].
(** types.rs 429-433: [EnumString], used at options.rs 209, parsers.rs 407. *)
Definition booking_try_from (s : str) : option booking := lookup str_eqb s booking_names.

(** types.rs 456-464: [PluginProcessingMode]. *)
Inductive plugin_mode := ModeDefault | ModeRaw.
(** types.rs 459-464: the names made by strum. *)
Definition plugin_mode_names : list (str * plugin_mode) :=
  [(lit "DEFAULT", ModeDefault); (lit "RAW", ModeRaw)].
(** types.rs 456-460: [EnumString], used at options.rs 213. *)
Definition plugin_mode_try_from (s : str) : option plugin_mode := lookup str_eqb s plugin_mode_names.

(** [time::Date]: calendar fields; [Ord] is chronological. (crate time; as held at types.rs 728.) *)
Record date := mk_date { d_year : N; d_month : N; d_day : N }.

(** crate time: [Ord for Date], used at lib.rs 240-242 and sort.rs 15. *)
Definition date_compare (a b : date) : comparison :=
  match N.compare (d_year a) (d_year b) with
  | Eq => match N.compare (d_month a) (d_month b) with
          | Eq => N.compare (d_day a) (d_day b)
          | c => c
          end
  | c => c
  end.
(** crate time: [PartialEq for Date], as derived at types.rs 726. *)
Definition date_eqb (a b : date) : bool :=
  match date_compare a b with Eq => true | _ => false end.

(** [rust_decimal::Decimal]: sign, 96 bit mantissa and scale.  Its arithmetic
    is in [Decimal]. *)
Record decimal := mk_dec { dec_neg : bool; dec_mant : N; dec_scale : nat }.

(** No code of its own: for rust_decimal. *)
Definition pow10 (n : nat) : N := N.pow 10 (N.of_nat n).

(** [PartialEq for Decimal]: numerical equality. (rust_decimal; for the equality derived at types.rs 2204.) *)
Definition dec_signed (d : decimal) : Z :=
  if dec_neg d then (- Z.of_N (dec_mant d))%Z else Z.of_N (dec_mant d).
(** rust_decimal; for the equality derived at types.rs 2204. *)
Definition dec_eqb (a b : decimal) : bool :=
  Z.eqb (dec_signed a * Z.of_N (pow10 (dec_scale b))) (dec_signed b * Z.of_N (pow10 (dec_scale a))).

(** types.rs 2251-2260: [Expr]. *)
Inductive expr :=
| E_Value (d : decimal)
| E_Add (a b : expr)
| E_Sub (a b : expr)
| E_Mul (a b : expr)
| E_Div (a b : expr)
| E_Neg (a : expr)
| E_Paren (a : expr).

(** types.rs 2205-2208: [ExprValue]. *)
Record expr_value := mk_ev { ev_value : decimal; ev_expr : expr }.

(** types.rs 1211-1214: [Account]. *)
Record account := mk_account { acc_type : account_type; acc_name : str }.

(** types.rs 2368-2371: [Amount]. *)
Record amount := mk_amount { am_number : spanned expr_value; am_currency : spanned str }.

(** types.rs 2400-2403: [AmountWithTolerance]. *)
Record amount_tol := mk_amount_tol { at_amount : spanned amount; at_tolerance : option (spanned decimal) }.

(** types.rs 2330-2334, 2350-2353: [CompoundExprValue], [ScopedExprValue]. *)
Inductive compound_expr :=
| CE_PerUnit (v : expr_value)
| CE_Total (v : expr_value)
| CE_Both (per_unit total : expr_value).

(** types.rs 2350-2353. *)
Inductive scoped_expr :=
| SE_PerUnit (v : expr_value)
| SE_Total (v : expr_value).

(** types.rs 2462-2466: [CompoundAmount]. *)
Inductive compound_amount :=
| CA_Currency (c : str)
| CA_Amount (e : compound_expr)
| CA_CurrencyAmount (e : compound_expr) (c : str).

(** types.rs 2481-2488: [CostSpec]. *)
Record cost_spec := mk_cost_spec {
  cs_per_unit : option (spanned expr_value);
  cs_total : option (spanned expr_value);
  cs_currency : option (spanned str);
  cs_date : option (spanned date);
  cs_label : option (spanned str);
  cs_merge : bool
}.

(** types.rs 2733-2738: [PriceSpec]. *)
Inductive price_spec :=
| PS_Unspecified
| PS_Currency (c : str)
| PS_Amount (e : scoped_expr)
| PS_CurrencyAmount (e : scoped_expr) (c : str).

(** types.rs 1913-1923, 1895-1898: [SimpleValue], [MetaValue]. *)
Inductive simple_value :=
| SV_String (s : str)
| SV_Currency (c : str)
| SV_Account (a : account)
| SV_Tag (t : str)
| SV_Link (l : str)
| SV_Date (d : date)
| SV_Bool (b : bool)
| SV_Null
| SV_Expr (e : expr_value).

(** types.rs 1895-1898. *)
Inductive meta_value :=
| MV_Simple (v : simple_value)
| MV_Amount (a : amount).

(** types.rs 1882-1885: [MetaKeyValue]. *)
Record meta_key_value := mk_mkv { mkv_key : spanned str; mkv_value : spanned meta_value }.

(** types.rs 1807-1811: [Metadata].  The map and the sets are association
    lists and lists without repetitions (up to spans). *)
Record metadata := mk_metadata {
  md_key_values : list (spanned str * spanned meta_value);
  md_tags : list (spanned str);
  md_links : list (spanned str)
}.
(** types.rs 1806: [Metadata::default], used at parsers.rs 715. *)
Definition empty_metadata : metadata := mk_metadata [] [] [].

(** types.rs 1729-1737: [Posting]. *)
Record posting := mk_posting {
  po_flag : option (spanned flag);
  po_account : spanned account;
  po_amount : option (spanned expr_value);
  po_currency : option (spanned str);
  po_cost_spec : option (spanned cost_spec);
  po_price : option (spanned price_spec);
  po_metadata : spanned metadata
}.

(** types.rs 794-807 and the variants' structs 824-1158: [DirectiveVariant]. *)
Inductive variant :=
| V_Transaction (fl : spanned flag) (payee narration : option (spanned str)) (postings : list (spanned posting))
| V_Price (currency : spanned str) (am : spanned amount)
| V_Balance (acct : spanned account) (atol : spanned amount_tol)
| V_Open (acct : spanned account) (currencies : list (spanned str)) (bk : option (spanned booking))
| V_Close (acct : spanned account)
| V_Commodity (currency : spanned str)
| V_Pad (acct source : spanned account)
| V_Document (acct : spanned account) (doc_path : spanned str)
| V_Note (acct : spanned account) (comment : spanned str)
| V_Event (event_type description : spanned str)
| V_Query (name content : spanned str)
| V_Custom (type_ : spanned str) (values : list (spanned meta_value)).

(** types.rs 727-731: [Directive]. *)
Record directive := mk_directive {
  dir_date : spanned date;
  dir_metadata : spanned metadata;
  dir_variant : variant
}.

(** types.rs 1182-1185: [Plugin]. *)
Record plugin := mk_plugin { pl_module : spanned str; pl_config : option (spanned str) }.

(** options.rs 19-41, 43-47: [BeancountOptionVariant] and [CurrencyOrAny];
    the seven sub-account options share one constructor. *)
Inductive subaccount_option :=
| PreviousBalances | PreviousEarnings | PreviousConversions | CurrentEarnings
| CurrentConversions | UnrealizedGains | Rounding.

(** options.rs 44-47. *)
Inductive currency_or_any := OneCurrency (c : str) | AnyCurrency.

(** options.rs 19-41. *)
Inductive option_variant :=
| O_Title (s : str)
| O_AccountTypeName (t : account_type) (name : str)
| O_Subaccount (which : subaccount_option) (s : str)
| O_ConversionCurrency (c : str)
| O_InferredToleranceDefault (c : currency_or_any) (d : decimal)
| O_InferredToleranceMultiplier (d : decimal)
| O_InferToleranceFromCost (b : bool)
| O_Documents (p : path)
| O_OperatingCurrency (c : str)
| O_RenderCommas (b : bool)
| O_LongStringMaxlines (n : N)
| O_BookingMethod (b : booking)
| O_PluginProcessingMode (m : plugin_mode)
| O_Assimilated
| O_Ignored.

(** options.rs 13-16 and 705-708: [BeancountOption] and [Source]. *)
Record option_source := mk_source { src_name : span; src_value : span }.
(** options.rs 13-16. *)
Record beancount_option := mk_option { opt_source : option_source; opt_variant : option_variant }.

(** types.rs 810-820: [Pragma]. *)
Inductive pragma :=
| P_Pushtag (t : spanned str)
| P_Poptag (t : spanned str)
| P_Pushmeta (kv : meta_key_value)
| P_Popmeta (k : spanned str)
| P_Include (s : spanned str)
| P_Option (o : beancount_option)
| P_Plugin (p : plugin).

(** types.rs 720-723: [Declaration]. *)
Inductive declaration :=
| D_Directive (d : directive)
| D_Pragma (p : pragma).

(** ** Validators *)

(** Errors of [AccountTypeName], [AccountName] and [Key] creation
    (types.rs 1429-1433, 1516-1520, 2143-2147). *)
Inductive name_error :=
| NameEmpty
| NameInitial (c : char)
| NameSubsequent (bad : list char).

(** types.rs 1365-1385, 1551-1571, 2178-2199: the three [TryFrom<&str>] have
    this one shape. *)
Definition name_try_from (initial subsequent : char -> bool) (s : str) : result str name_error :=
  match s with
  | [] => Err NameEmpty
  | c :: rest =>
      if negb (initial c) then Err (NameInitial c)
      else match filter (fun c => negb (subsequent c)) rest with
           | [] => Ok s
           | bad => Err (NameSubsequent bad)
           end
  end.

Section Validators.
  Context (U : unicode).

  (** The char at types.rs 1358, 2098. *)
  Definition hyphen : char := 45%N.
  (** The char at types.rs 2098. *)
  Definition underscore : char := 95%N.
  (** The char at options.rs 191 and in types.rs 1216-1224. *)
  Definition colon : char := 58%N.

  (** types.rs 1352-1386: [AccountTypeName]. *)
  Definition atn_initial (c : char) : bool := is_ascii_uppercase c.
  (** types.rs 1357-1359. *)
  Definition atn_subsequent (c : char) : bool := is_alphanumeric U c || (c =? hyphen)%N.
  (** types.rs 1362-1386. *)
  Definition account_type_name_try_from := name_try_from atn_initial atn_subsequent.

  (** types.rs 1465-1473, 1548-1572: [AccountName]. *)
  Definition an_initial (c : char) : bool :=
    is_ascii_uppercase c || is_ascii_digit c || (negb (is_ascii c) && u_alphabetic U c).
  (** types.rs 1470-1472. *)
  Definition an_subsequent (c : char) : bool := is_alphanumeric U c || (c =? hyphen)%N.
  (** types.rs 1548-1572. *)
  Definition account_name_try_from := name_try_from an_initial an_subsequent.

  (** types.rs 2092-2100, 2175-2201: [Key]. *)
  Definition key_initial (c : char) : bool := is_ascii_lowercase c.
  (** types.rs 2097-2099. *)
  Definition key_subsequent (c : char) : bool :=
    is_alphanumeric U c || (c =? hyphen)%N || (c =? underscore)%N.
  (** types.rs 2175-2199. *)
  Definition key_try_from := name_try_from key_initial key_subsequent.

  (** types.rs 2050-2056, 2076-2086: tag and link identifiers. *)
  Definition tag_link_char (c : char) : bool :=
    is_alphanumeric U c || mem N.eqb c [45%N; 95%N; 47%N; 46%N].
  (** types.rs 2076-2086, used at 1953-1960, 2005-2012. *)
  Definition tag_link_try_from (s : str) : result str (list char) :=
    match filter (fun c => negb (tag_link_char c)) s with
    | [] => Ok s
    | bad => Err bad
    end.

  (** First failure in a list of account names. (types.rs 1230-1233, 1330-1345.) *)
  Fixpoint check_account_names (l : list str) : option name_error :=
    match l with
    | [] => None
    | w :: ws => match account_name_try_from w with
                 | Err e => Some e
                 | Ok _ => check_account_names ws
                 end
    end.

  (** types.rs 1333-1345: [Subaccount::try_from].  [str::split] always yields
      a piece, so its [empty] branch is dead. *)
  Definition subaccount_try_from (s : str) : result str name_error :=
    match check_account_names (split_on colon s) with
    | Some e => Err e
    | None => match split_on colon s with [] => Err NameEmpty | _ => Ok s end
    end.
End Validators.

(** types.rs 1638-1644: [CurrencyErrorKind]. *)
Inductive currency_error :=
| CurrencyEmpty
| CurrencyInitial (c : char)
| CurrencyIntermediate (bad : list char)
| CurrencyFinal (c : char)
| CurrencyMissingLetter.

(** types.rs 1578-1595. *)
Definition cur_initial (c : char) : bool := is_ascii_uppercase c || (c =? 47)%N.
(** types.rs 1586-1590. *)
Definition cur_intermediate (c : char) : bool :=
  is_ascii_uppercase c || is_ascii_digit c || mem N.eqb c [39%N; 46%N; 95%N; 45%N].
(** types.rs 1592-1594. *)
Definition cur_final (c : char) : bool := is_ascii_uppercase c || is_ascii_digit c.

(** types.rs 1687-1724: [Currency::try_from].  The byte length [s.len()] is
    compared with a number of chars; [chars.next().unwrap()] panics when the
    iterator has been exhausted. *)
Definition currency_try_from (s : str) : outcome (result str currency_error) :=
  match s with
  | [] => Fine (Err CurrencyEmpty)
  | first :: rest =>
      let intermediate := if 2 <? blen s then firstn (blen s - 2) rest else [] in
      let rest' := if 2 <? blen s then skipn (blen s - 2) rest else rest in
      let last :=
        if 1 <? blen s then match rest' with c :: _ => Fine c | [] => Panic end
        else Fine first in
      match last with
      | Panic => Panic
      | Fine last =>
          Fine
            (if negb (cur_initial first) then Err (CurrencyInitial first)
             else if negb (cur_final last) then Err (CurrencyFinal last)
             else match filter (fun c => negb (cur_intermediate c)) intermediate with
                  | [] => if existsb is_ascii_uppercase s then Ok s else Err CurrencyMissingLetter
                  | bad => Err (CurrencyIntermediate bad)
                  end)
      end
  end.

(** ** Account type names *)

(** types.rs 2753-2757: [AccountTypeNames].  [name_by_type] is indexed by
    [account_type_index]; indexing out of range would panic. *)
Record account_type_names := mk_atns {
  name_by_type : list str;
  type_by_name : list (str * account_type)
}.

(** types.rs 2760-2762: [name]. *)
Definition atn_name (n : account_type_names) (t : account_type) : outcome str :=
  match nth_error (name_by_type n) (account_type_index t) with
  | Some s => Fine s
  | None => Panic
  end.

(** types.rs 2764-2766: [get]. *)
Definition atn_get (n : account_type_names) (s : str) : option account_type :=
  lookup str_eqb s (type_by_name n).

(** std: the assignment at types.rs 2779. *)
Fixpoint set_nth {A} (i : nat) (x : A) (l : list A) : list A :=
  match l, i with
  | [], _ => []
  | _ :: l', O => x :: l'
  | y :: l', S i' => y :: set_nth i' x l'
  end.

(** types.rs 2768-2795: [update]; [Err t] is [NameInUse(t)]. *)
Definition atn_update (n : account_type_names) (t : account_type) (name : str)
  : outcome (result account_type_names account_type) :=
  match lookup str_eqb name (type_by_name n) with
  | None =>
      let by_name := insert str_eqb name t (type_by_name n) in
      match nth_error (name_by_type n) (account_type_index t) with
      | None => Panic
      | Some old =>
          Fine (Ok (mk_atns (set_nth (account_type_index t) name (name_by_type n))
                            (remove_key str_eqb old by_name)))
      end
  | Some existing =>
      if account_type_eqb existing t then Fine (Ok n) else Fine (Err existing)
  end.

(** types.rs 2799-2832: [Default]. *)
Definition default_atns : account_type_names :=
  mk_atns
    [lit "Assets"; lit "Liabilities"; lit "Equity"; lit "Income"; lit "Expenses"]
    [(lit "Assets", Assets); (lit "Liabilities", Liabilities); (lit "Equity", Equity);
     (lit "Income", Income); (lit "Expenses", Expenses)].

(** types.rs 1275-1280: [AccountErrorKind].  [MissingColon] is dead because
    [str::split] always yields a first piece. *)
Inductive account_error :=
| AccMissingColon
| AccTypeName (e : name_error)
| AccName (e : name_error)
| AccUnknownType (name : str).

(** types.rs 1218-1245: [Account::new]. *)
Definition account_new (U : unicode) (s : str) (names : account_type_names)
  : result account account_error :=
  match split_on colon s with
  | [] => Err AccMissingColon
  | first :: rest =>
      match account_type_name_try_from U first with
      | Err e => Err (AccTypeName e)
      | Ok tn =>
          match check_account_names U rest with
          | Some e => Err (AccName e)
          | None =>
              match atn_get names tn with
              | Some t => Ok (mk_account t s)
              | None => Err (AccUnknownType tn)
              end
          end
      end
  end.

(** ** Metadata accessor *)

(** types.rs 641-648, for tags, links and keys. *)
Definition spanned_str_eqb : spanned str -> spanned str -> bool := spanned_eqb str_eqb.

(** types.rs 1826-1840: [Metadata::key_value]. *)
Definition key_value (m : metadata) (k : str) : option (spanned meta_value) :=
  match md_key_values m with
  | [] => None
  | (arbitrary, _) :: _ =>
      lookup spanned_str_eqb (mk_spanned k (span_of arbitrary)) (md_key_values m)
  end.

(** ** Errors and warnings *)

(** options.rs 260-273: [BadValueErrorKind].  The errors of rust_decimal and
    of [str::parse] are kept as the text which was to be parsed.
    [AccountTypeNames] is never made. *)
Inductive bad_value :=
| BadAccountTypeName (e : name_error)
| BadAccountName (e : name_error)
| BadCurrency (e : currency_error)
| BadBooking
| BadPluginMode
| BadDecimal (text : str)
| BadBool
| BadMissingColon
| BadTooManyColons
| BadInteger (text : str).

(** lib.rs 334-359: what [fmt_include_context] shows of the tags and metadata
    in force, in the order in which the hash maps are iterated over. *)
Record listing := mk_listing { ls_tags : list str; ls_meta : list (str * list meta_value) }.

(** The message and reason of an [ErrorOrWarning] (types.rs 41-49), as data;
    the texts are in [Messages]. *)
Inductive problem :=
| DuplicateTag (t : str)
| DuplicateLink (l : str)
| DuplicateKey (k : str)
| DuplicateCurrency (c : str)
| UnknownOption
| BadOptionValue (e : bad_value)
| NameInUse (t : account_type)
| InvalidPushmeta | InvalidPopmeta | InvalidPushtag | InvalidPoptag
| IncludeNoSuchFile
| IncludeUnreadable (e : str)
| IncludeGlobError (e : str)
| DuplicateInclude (here : listing) (first : option listing)
| DuplicateOption
| DuplicateOptionValue
| StringTooLong (is_default : bool) (max lines : N).

(** types.rs 41-48: [ErrorOrWarningImpl]; contexts (chumsky labels) are left
    out, and of the related elements only the spans are kept (what they are called
    follows from the problem). *)
Record report := mk_report { rp_problem : problem; rp_span : span; rp_related : list span }.
