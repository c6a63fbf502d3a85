(** * Options: option pragmas (src/options.rs) *)
From Coq Require Import String Ascii.
From Coq Require Import List NArith ZArith Arith Bool.
From Verif Require Import Base Path Types.
Import ListNotations.
Local Open Scope nat_scope.

(** options.rs 238-242: [BeancountOptionError]. *)
Inductive option_error :=
| OptUnknown
| OptBad (e : bad_value).

(** [Result] inside a computation that may panic. (std: [Result::map], as at options.rs 74.) *)
Definition mapr {A B} (f : A -> B) (x : outcome (result A option_error)) : outcome (result B option_error) :=
  match x with
  | Fine (Ok a) => Fine (Ok (f a))
  | Fine (Err e) => Fine (Err e)
  | Panic => Panic
  end.

(** [char::to_ascii_lowercase] and [str::eq_ignore_ascii_case].
    (std: behind [eq_ignore_ascii_case] at options.rs 219-221.) *)
Definition to_lower (c : char) : char := if is_ascii_uppercase c then (c + 32)%N else c.
(** std: [eq_ignore_ascii_case] at options.rs 219-221. *)
Definition eq_ignore_case (a b : str) : bool := str_eqb (map to_lower a) (map to_lower b).

(** options.rs 218-226: [parse_bool]. *)
Definition parse_bool (v : str) : result bool option_error :=
  if eq_ignore_case v (lit "true") then Ok true
  else if eq_ignore_case v (lit "false") then Ok false
  else Err (OptBad BadBool).

(** options.rs 228-236: [parse_zero_or_one_as_bool]. *)
Definition parse_zero_or_one (v : str) : result bool option_error :=
  if str_eqb v (lit "1") then Ok true
  else if str_eqb v (lit "0") then Ok false
  else Err (OptBad BadBool).

(** [Result::or]. (std: [Result::or] at options.rs 136-137.) *)
Definition or_else {A E} (x y : result A E) : result A E :=
  match x with Ok a => Ok a | Err _ => y end.

(** [str::parse::<usize>] on a 64 bit target: an optional '+', then one or
    more ASCII digits, below 2^64. *)
Fixpoint digits_value (acc : N) (s : str) : option N :=
  match s with
  | [] => Some acc
  | c :: s' => if is_ascii_digit c then digits_value (acc * 10 + (c - 48))%N s' else None
  end.
(** std: [parse::<usize>] at options.rs 140-144. *)
Definition parse_usize (s : str) : option N :=
  let digits := match s with c :: s' => if (c =? 43)%N then s' else s | [] => s end in
  match digits with
  | [] => None
  | _ => match digits_value 0 digits with
         | Some n => if (n <? 2 ^ 64)%N then Some n else None
         | None => None
         end
  end.

Section Parse.
  (** The Unicode tables and [Decimal::from_str] ([None] for its errors). *)
  Context (U : unicode) (dec_parse : str -> option decimal).

  (** options.rs 172-174: [parse_subaccount]. *)
  Definition parse_subaccount (v : str) : result str option_error :=
    match subaccount_try_from U v with
    | Ok s => Ok s
    | Err e => Err (OptBad (BadAccountName e))
    end.

  (** options.rs 176-180: [parse_account_type_name]. *)
  Definition parse_account_type_name (v : str) : result str option_error :=
    match account_type_name_try_from U v with
    | Ok s => Ok s
    | Err e => Err (OptBad (BadAccountTypeName e))
    end.

  (** options.rs 182-184: [parse_currency]. *)
  Definition parse_currency (v : str) : outcome (result str option_error) :=
    match currency_try_from v with
    | Panic => Panic
    | Fine (Ok c) => Fine (Ok c)
    | Fine (Err e) => Fine (Err (OptBad (BadCurrency e)))
    end.

  (** options.rs 48-58: [CurrencyOrAny::try_from]. *)
  Definition parse_currency_or_any (v : str) : outcome (result currency_or_any option_error) :=
    if str_eqb v (lit "*") then Fine (Ok AnyCurrency)
    else mapr OneCurrency (parse_currency v).

  (** options.rs 121-123, 198. *)
  Definition parse_decimal (v : str) : result decimal option_error :=
    match dec_parse v with
    | Some d => Ok d
    | None => Err (OptBad (BadDecimal v))
    end.

  (** options.rs 186-206: [parse_inferred_tolerance_default]. *)
  Definition parse_tolerance_default (v : str)
    : outcome (result (currency_or_any * decimal) option_error) :=
    match split_on colon v with
    | [] => Panic
    | f1 :: fs =>
        match parse_currency_or_any f1 with
        | Panic => Panic
        | Fine (Err e) => Fine (Err e)
        | Fine (Ok c) =>
            match fs with
            | [] => Fine (Err (OptBad BadMissingColon))
            | f2 :: fs' =>
                match parse_decimal f2 with
                | Err e => Fine (Err e)
                | Ok d =>
                    match fs' with
                    | [] => Fine (Ok (c, d))
                    | _ => Fine (Err (OptBad BadTooManyColons))
                    end
                end
            end
        end
    end.

  (** options.rs 208-210 and 212-215. *)
  Definition parse_booking (v : str) : result booking option_error :=
    match booking_try_from v with Some b => Ok b | None => Err (OptBad BadBooking) end.
  (** options.rs 212-215. *)
  Definition parse_plugin_mode (v : str) : result plugin_mode option_error :=
    match plugin_mode_try_from v with Some m => Ok m | None => Err (OptBad BadPluginMode) end.

  (** No code of its own: [map] with a variant where nothing panics, as at options.rs 125. *)
  Definition fine {A} (f : A -> option_variant) (x : result A option_error)
    : outcome (result option_variant option_error) := mapr f (Fine x).

  (** options.rs 128-132: the value of the "documents" option. *)
  Definition documents_path (source_path : option path) (v : str) : path :=
    match source_path with
    | None => v
    | Some p => match parent p with Some d => join d v | None => v end
    end.

  (** options.rs 70-152: the names and how their values are read. *)
  Definition option_value (name value : str) (source_path : option path)
    : outcome (result option_variant option_error) :=
    let is s := str_eqb name s in
    if is (lit "title") then Fine (Ok (O_Title value))
    else if is (lit "name_assets") then fine (O_AccountTypeName Assets) (parse_account_type_name value)
    else if is (lit "name_liabilities") then fine (O_AccountTypeName Liabilities) (parse_account_type_name value)
    else if is (lit "name_equity") then fine (O_AccountTypeName Equity) (parse_account_type_name value)
    else if is (lit "name_income") then fine (O_AccountTypeName Income) (parse_account_type_name value)
    else if is (lit "name_expenses") then fine (O_AccountTypeName Expenses) (parse_account_type_name value)
    else if is (lit "account_previous_balances") then fine (O_Subaccount PreviousBalances) (parse_subaccount value)
    else if is (lit "account_previous_earnings") then fine (O_Subaccount PreviousEarnings) (parse_subaccount value)
    else if is (lit "account_previous_conversions") then fine (O_Subaccount PreviousConversions) (parse_subaccount value)
    else if is (lit "account_current_earnings") then fine (O_Subaccount CurrentEarnings) (parse_subaccount value)
    else if is (lit "account_current_conversions") then fine (O_Subaccount CurrentConversions) (parse_subaccount value)
    else if is (lit "account_unrealized_gains") then fine (O_Subaccount UnrealizedGains) (parse_subaccount value)
    else if is (lit "account_rounding") then fine (O_Subaccount Rounding) (parse_subaccount value)
    else if is (lit "conversion_currency") then mapr O_ConversionCurrency (parse_currency value)
    else if is (lit "inferred_tolerance_default") then
      mapr (fun '(c, d) => O_InferredToleranceDefault c d) (parse_tolerance_default value)
    else if is (lit "inferred_tolerance_multiplier") then fine O_InferredToleranceMultiplier (parse_decimal value)
    else if is (lit "infer_tolerance_from_cost") then fine O_InferToleranceFromCost (parse_bool value)
    else if is (lit "documents") then Fine (Ok (O_Documents (documents_path source_path value)))
    else if is (lit "operating_currency") then mapr O_OperatingCurrency (parse_currency value)
    else if is (lit "render_commas") then fine O_RenderCommas (or_else (parse_bool value) (parse_zero_or_one value))
    else if is (lit "long_string_maxlines") then
      match parse_usize value with
      | Some n => Fine (Ok (O_LongStringMaxlines n))
      | None => Fine (Err (OptBad (BadInteger value)))
      end
    else if is (lit "booking_method") then fine O_BookingMethod (parse_booking value)
    else if is (lit "plugin_processing_mode") then fine O_PluginProcessingMode (parse_plugin_mode value)
    else Fine (Err OptUnknown).

  (** options.rs 62-161: [BeancountOption::parse]. *)
  Definition option_parse (name value : spanned str) (source_path : option path)
    : outcome (result beancount_option option_error) :=
    mapr (fun v => mk_option (mk_source (span_of name) (span_of value)) v)
      (option_value (item name) (item value) source_path).
End Parse.

(** options.rs 164-169 and 712-724: [BeancountOption::ignored], [Source::default]. *)
Definition default_span : span := mk_span 0 0 0.
(** options.rs 164-169. *)
Definition option_ignored : beancount_option := mk_option (mk_source default_span default_span) O_Ignored.

(** options.rs 675-678, 691-696: [Sourced], [sourced]. *)
Record sourced (A : Type) := mk_sourced { sd_spanned : spanned A; sd_source : option_source }.
Arguments mk_sourced {A} _ _.
Arguments sd_spanned {A} _.
Arguments sd_source {A} _.
(** options.rs 691-696. *)
Definition new_sourced {A} (x : A) (s : option_source) : sourced A :=
  mk_sourced (mk_spanned x (src_value s)) s.

(** options.rs 315-318: [ParserOptions]. *)
Record parser_options := mk_parser_options {
  po_names : account_type_names;
  po_maxlines : option (sourced N)
}.
(** options.rs 313-318: [ParserOptions::default]. *)
Definition default_parser_options : parser_options := mk_parser_options default_atns None.

(** options.rs 323-346: [ParserOptions::assimilate]; [Err t] is the error
    "name already in use for t". *)
Definition po_assimilate (po : parser_options) (o : beancount_option)
  : outcome (result (beancount_option * parser_options) account_type) :=
  match opt_variant o with
  | O_AccountTypeName t n =>
      match atn_update (po_names po) t n with
      | Panic => Panic
      | Fine (Err e) => Fine (Err e)
      | Fine (Ok names) =>
          Fine (Ok (mk_option (opt_source o) O_Assimilated, mk_parser_options names (po_maxlines po)))
      end
  | O_LongStringMaxlines n =>
      Fine (Ok (mk_option (opt_source o) O_Assimilated,
                mk_parser_options (po_names po) (Some (new_sourced n (opt_source o)))))
  | _ => Fine (Ok (o, po))
  end.

(** options.rs 320, 352-357: [ParserOptions::long_string_maxlines]. *)
Definition default_maxlines : N := 64.
(** options.rs 352-357, parsers.rs 1209. *)
Definition long_string_maxlines (po : parser_options) : N :=
  match po_maxlines po with
  | Some s => item (sd_spanned s)
  | None => default_maxlines
  end.

(** options.rs 373-392: [Options]; the seven account_* fields are one function. *)
Record options := mk_options {
  os_title : option (sourced str);
  os_subaccount : subaccount_option -> option (sourced str);
  os_conversion_currency : option (sourced str);
  os_tolerance_default : list (currency_or_any * (decimal * option_source));
  os_tolerance_multiplier : option (sourced decimal);
  os_tolerance_from_cost : option (sourced bool);
  os_documents : list (path * option_source);
  os_operating_currency : list (str * option_source);
  os_render_commas : option (sourced bool);
  os_booking_method : option (sourced booking);
  os_plugin_mode : option (sourced plugin_mode);
  os_parser_options : parser_options
}.

(** options.rs 395-416: [Options::new]. *)
Definition options_new (po : parser_options) : options :=
  mk_options None (fun _ => None) None [] None None [] [] None None None po.

(** No code of its own: equality of the options at options.rs 375-381. *)
Definition subaccount_eqb (a b : subaccount_option) : bool :=
  match a, b with
  | PreviousBalances, PreviousBalances | PreviousEarnings, PreviousEarnings
  | PreviousConversions, PreviousConversions | CurrentEarnings, CurrentEarnings
  | CurrentConversions, CurrentConversions | UnrealizedGains, UnrealizedGains
  | Rounding, Rounding => true
  | _, _ => false
  end.

(** options.rs 43: the derived [PartialEq]. *)
Definition currency_or_any_eqb (a b : currency_or_any) : bool :=
  match a, b with
  | OneCurrency x, OneCurrency y => str_eqb x y
  | AnyCurrency, AnyCurrency => true
  | _, _ => false
  end.

(** options.rs 727-730: [OptionError]. *)
Inductive dup_error := DupOption (first : span) | DupValue (first : span).

(** options.rs 502-516: [update_optional]. *)
Definition update_optional {A} (field : option (sourced A)) (v : A) (s : option_source)
  : result (option (sourced A)) dup_error :=
  match field with
  | None => Ok (Some (new_sourced v s))
  | Some old => Err (DupOption (src_name (sd_source old)))
  end.

(** options.rs 518-538: [update_hashmap]. *)
Definition update_hashmap {K V} (eqb : K -> K -> bool) (field : list (K * (V * option_source)))
    (k : K) (v : V) (s : option_source) : result (list (K * (V * option_source))) dup_error :=
  match lookup eqb k field with
  | None => Ok (insert eqb k (v, s) field)
  | Some (_, old) => Err (DupValue (src_value old))
  end.

(** options.rs 541-560: [update_unit_hashmap]. *)
Definition update_unit_hashmap {K} (eqb : K -> K -> bool) (field : list (K * option_source))
    (k : K) (s : option_source) : result (list (K * option_source)) dup_error :=
  match lookup eqb k field with
  | None => Ok (insert eqb k s field)
  | Some old => Err (DupValue (src_value old))
  end.

(** The assignment of the updated field, or the unchanged options and the error.
    (no code of its own: a field updated or an error, as at options.rs 424.) *)
Definition assign {A} (o : options) (set : A -> options) (r : result A dup_error)
  : options * option dup_error :=
  match r with
  | Ok a => (set a, None)
  | Err e => (o, Some e)
  end.

(** options.rs 418-500: [Options::assimilate]. *)
Definition assimilate_field (o : options) (opt : beancount_option) : options * option dup_error :=
  let '(mk_options ti su cc td tm tc doc oc rc bm pm po) := o in
  let s := opt_source opt in
  match opt_variant opt with
  | O_Title v => assign o (fun x => mk_options x su cc td tm tc doc oc rc bm pm po) (update_optional ti v s)
  | O_AccountTypeName _ _ => (o, None)
  | O_Subaccount w v =>
      assign o (fun x => mk_options ti (fun w' => if subaccount_eqb w' w then x else su w') cc td tm tc doc oc rc bm pm po)
        (update_optional (su w) v s)
  | O_ConversionCurrency v =>
      assign o (fun x => mk_options ti su x td tm tc doc oc rc bm pm po) (update_optional cc v s)
  | O_InferredToleranceDefault c d =>
      assign o (fun x => mk_options ti su cc x tm tc doc oc rc bm pm po) (update_hashmap currency_or_any_eqb td c d s)
  | O_InferredToleranceMultiplier v =>
      assign o (fun x => mk_options ti su cc td x tc doc oc rc bm pm po) (update_optional tm v s)
  | O_InferToleranceFromCost v =>
      assign o (fun x => mk_options ti su cc td tm x doc oc rc bm pm po) (update_optional tc v s)
  | O_Documents p =>
      assign o (fun x => mk_options ti su cc td tm tc x oc rc bm pm po) (update_unit_hashmap path_eqb doc p s)
  | O_OperatingCurrency v =>
      assign o (fun x => mk_options ti su cc td tm tc doc x rc bm pm po) (update_unit_hashmap str_eqb oc v s)
  | O_RenderCommas v =>
      assign o (fun x => mk_options ti su cc td tm tc doc oc x bm pm po) (update_optional rc v s)
  | O_LongStringMaxlines _ => (o, None)
  | O_BookingMethod v =>
      assign o (fun x => mk_options ti su cc td tm tc doc oc rc x pm po) (update_optional bm v s)
  | O_PluginProcessingMode v =>
      assign o (fun x => mk_options ti su cc td tm tc doc oc rc bm x po) (update_optional pm v s)
  | O_Assimilated | O_Ignored => (o, None)
  end.

(** options.rs 494-499: the error as reported. *)
Definition dup_report (s : option_source) (e : dup_error) : report :=
  match e with
  | DupOption first => mk_report DuplicateOption (src_name s) [first]
  | DupValue first => mk_report DuplicateOptionValue (src_value s) [first]
  end.

(** options.rs 418-500. *)
Definition options_assimilate (o : options) (opt : beancount_option) : options * option report :=
  let '(o', e) := assimilate_field o opt in
  (o', option_map (dup_report (opt_source opt)) e).

(** ** Accessors: options.rs 562-671 *)

(** options.rs 567, as in each accessor at 566-664. *)
Definition os_spanned {A} (f : option (sourced A)) : option (spanned A) := option_map sd_spanned f.

(** options.rs 607-615: [inferred_tolerance_default]. *)
Definition inferred_tolerance_default (o : options) (currency : str) : option decimal :=
  match lookup currency_or_any_eqb (OneCurrency currency) (os_tolerance_default o) with
  | Some (d, _) => Some d
  | None => option_map fst (lookup currency_or_any_eqb AnyCurrency (os_tolerance_default o))
  end.

(** options.rs 618-622. *)
Definition inferred_tolerance_default_fallback (o : options) : option decimal :=
  option_map fst (lookup currency_or_any_eqb AnyCurrency (os_tolerance_default o)).

(** options.rs 625-634. *)
Definition inferred_tolerance_defaults (o : options) : list (option str * decimal) :=
  map (fun '(c, (d, _)) => (match c with OneCurrency c => Some c | AnyCurrency => None end, d))
    (os_tolerance_default o).

(** options.rs 646-652. *)
Definition documents (o : options) : list path := map fst (os_documents o).
(** options.rs 650-652. *)
Definition operating_currency (o : options) : list str := map fst (os_operating_currency o).

(** options.rs 666-671. *)
Definition options_long_string_maxlines (o : options) : option (spanned N) :=
  os_spanned (po_maxlines (os_parser_options o)).

(** options.rs 562-564, 348-350. *)
Definition options_account_type_name (o : options) (t : account_type) : outcome str :=
  atn_name (po_names (os_parser_options o)) t.
