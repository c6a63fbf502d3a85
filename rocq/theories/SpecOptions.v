(** * Specification of option handling *)
From Coq Require Import String Ascii.
From Coq Require Import List NArith Arith Bool.
From Verif Require Import Base Path Types Options.
Import ListNotations.

(** What an option sets: one of the single-valued settings, or one entry of a
    keyed setting. *)
Inductive setting :=
| SetTitle | SetSubaccount (w : subaccount_option) | SetConversionCurrency
| SetToleranceMultiplier | SetToleranceFromCost | SetRenderCommas
| SetBookingMethod | SetPluginMode
| SetTolerance (c : currency_or_any) | SetDocuments (p : path) | SetOperatingCurrency (c : str).

Definition keyed (s : setting) : bool :=
  match s with SetTolerance _ | SetDocuments _ | SetOperatingCurrency _ => true | _ => false end.

(** [None]: names of account types and long_string_maxlines are used by the
    parser itself. *)
Definition setting_of (v : option_variant) : option setting :=
  match v with
  | O_Title _ => Some SetTitle
  | O_Subaccount w _ => Some (SetSubaccount w)
  | O_ConversionCurrency _ => Some SetConversionCurrency
  | O_InferredToleranceDefault c _ => Some (SetTolerance c)
  | O_InferredToleranceMultiplier _ => Some SetToleranceMultiplier
  | O_InferToleranceFromCost _ => Some SetToleranceFromCost
  | O_Documents p => Some (SetDocuments p)
  | O_OperatingCurrency c => Some (SetOperatingCurrency c)
  | O_RenderCommas _ => Some SetRenderCommas
  | O_BookingMethod _ => Some SetBookingMethod
  | O_PluginProcessingMode _ => Some SetPluginMode
  | O_AccountTypeName _ _ | O_LongStringMaxlines _ | O_Assimilated | O_Ignored => None
  end.

(** Two documents entries are the same if they are equal as paths. *)
Definition same_setting (a b : setting) : bool :=
  match a, b with
  | SetTitle, SetTitle | SetConversionCurrency, SetConversionCurrency
  | SetToleranceMultiplier, SetToleranceMultiplier | SetToleranceFromCost, SetToleranceFromCost
  | SetRenderCommas, SetRenderCommas | SetBookingMethod, SetBookingMethod
  | SetPluginMode, SetPluginMode => true
  | SetSubaccount x, SetSubaccount y => subaccount_eqb x y
  | SetTolerance x, SetTolerance y => currency_or_any_eqb x y
  | SetDocuments x, SetDocuments y => path_eqb x y
  | SetOperatingCurrency x, SetOperatingCurrency y => str_eqb x y
  | _, _ => false
  end.

Definition sets (s : setting) (o : beancount_option) : bool :=
  match setting_of (opt_variant o) with
  | Some s' => same_setting s s'
  | None => false
  end.

(** The report due for [o] after the options [earlier]: none unless one of
    them set the same thing; then one, at the name of a single-valued option
    or at the value of a keyed one, related to the first which set it. *)
Definition due_report (earlier : list beancount_option) (o : beancount_option) : option report :=
  match setting_of (opt_variant o) with
  | None => None
  | Some s =>
      match find (sets s) earlier with
      | None => None
      | Some first =>
          Some (if keyed s
                then mk_report DuplicateOptionValue (src_value (opt_source o)) [src_value (opt_source first)]
                else mk_report DuplicateOption (src_name (opt_source o)) [src_name (opt_source first)])
      end
  end.

Fixpoint due_reports (earlier opts : list beancount_option) : list (option report) :=
  match opts with
  | [] => []
  | o :: opts' => due_report earlier o :: due_reports (earlier ++ [o]) opts'
  end.

(** The options of one kind, with their sources, in order. *)
Fixpoint given {A} (f : option_variant -> option A) (opts : list beancount_option) : list (A * option_source) :=
  match opts with
  | [] => []
  | o :: opts' =>
      match f (opt_variant o) with
      | Some a => (a, opt_source o) :: given f opts'
      | None => given f opts'
      end
  end.

(** The first of them, spanned by where its value is. *)
Definition first_given {A} (f : option_variant -> option A) (opts : list beancount_option) : option (spanned A) :=
  match given f opts with
  | [] => None
  | (a, s) :: _ => Some (mk_spanned a (src_value s))
  end.

Definition last_given {A} (f : option_variant -> option A) (opts : list beancount_option) : option (spanned A) :=
  match rev (given f opts) with
  | [] => None
  | (a, s) :: _ => Some (mk_spanned a (src_value s))
  end.

(** Entries whose key has not been seen before. *)
Fixpoint first_entries {K X} (eqb : K -> K -> bool) (l : list (K * X)) : list (K * X) :=
  match l with
  | [] => []
  | (k, x) :: l' => (k, x) :: filter (fun e => negb (eqb k (fst e))) (first_entries eqb l')
  end.

Definition as_title v := match v with O_Title s => Some s | _ => None end.
Definition as_subaccount w v :=
  match v with O_Subaccount w' s => if subaccount_eqb w w' then Some s else None | _ => None end.
Definition as_conversion_currency v := match v with O_ConversionCurrency s => Some s | _ => None end.
Definition as_tolerance v := match v with O_InferredToleranceDefault c d => Some (c, d) | _ => None end.
Definition as_tolerance_for c v :=
  match v with
  | O_InferredToleranceDefault c' d => if currency_or_any_eqb c c' then Some d else None
  | _ => None
  end.
Definition as_tolerance_multiplier v := match v with O_InferredToleranceMultiplier d => Some d | _ => None end.
Definition as_tolerance_from_cost v := match v with O_InferToleranceFromCost b => Some b | _ => None end.
Definition as_documents v := match v with O_Documents p => Some p | _ => None end.
Definition as_operating_currency v := match v with O_OperatingCurrency c => Some c | _ => None end.
Definition as_render_commas v := match v with O_RenderCommas b => Some b | _ => None end.
Definition as_booking_method v := match v with O_BookingMethod b => Some b | _ => None end.
Definition as_plugin_mode v := match v with O_PluginProcessingMode m => Some m | _ => None end.
Definition as_maxlines v := match v with O_LongStringMaxlines n => Some n | _ => None end.

(** Running the option pragmas of a file in order, collecting what each reports. *)
Fixpoint assimilate_all (o : options) (opts : list beancount_option) : options * list (option report) :=
  match opts with
  | [] => (o, [])
  | x :: opts' =>
      let '(o1, r) := options_assimilate o x in
      let '(o2, rs) := assimilate_all o1 opts' in
      (o2, r :: rs)
  end.

(** ** How the text of an option is read *)
From Verif Require Import SpecTypes SpecPath.

Definition name_option (t : account_type) : str :=
  match t with
  | Assets => lit "name_assets" | Liabilities => lit "name_liabilities" | Equity => lit "name_equity"
  | Income => lit "name_income" | Expenses => lit "name_expenses"
  end.

Definition subaccount_name (w : subaccount_option) : str :=
  match w with
  | PreviousBalances => lit "account_previous_balances"
  | PreviousEarnings => lit "account_previous_earnings"
  | PreviousConversions => lit "account_previous_conversions"
  | CurrentEarnings => lit "account_current_earnings"
  | CurrentConversions => lit "account_current_conversions"
  | UnrealizedGains => lit "account_unrealized_gains"
  | Rounding => lit "account_rounding"
  end.

(** Equal up to ASCII case: the word [w] is in lower case. *)
Inductive spells : str -> str -> Prop :=
| spells_nil : spells [] []
| spells_same c s w : spells s w -> spells (c :: s) (c :: w)
| spells_upper c s w : lower c -> spells s w -> spells ((c - 32)%N :: s) (c :: w).

Definition bool_word (v : str) (b : bool) : Prop :=
  spells v (if b then lit "true" else lit "false").

(** The number written by decimal digits. *)
Definition decimal_value (ds : str) : N := fold_left (fun acc c => (acc * 10 + (c - 48))%N) ds 0%N.

Definition unsigned_number (v : str) (n : N) : Prop :=
  exists ds, (v = ds \/ v = 43%N :: ds) /\ ds <> [] /\ Forall digit ds /\ n = decimal_value ds /\ (n < 2 ^ 64)%N.

Definition tolerance_key (a : str) (c : currency_or_any) : Prop :=
  (a = lit "*" /\ c = AnyCurrency) \/ (currency_lang a /\ c = OneCurrency a).

Inductive reads (U : unicode) (dec_parse : str -> option decimal) (source_path : option path)
  : str -> str -> option_variant -> Prop :=
| reads_title v : reads U dec_parse source_path (lit "title") v (O_Title v)
| reads_name t v : account_type_name_lang U v ->
    reads U dec_parse source_path (name_option t) v (O_AccountTypeName t v)
| reads_subaccount w ws : ws <> [] -> Forall (account_name_lang U) ws ->
    reads U dec_parse source_path (subaccount_name w) (join_colon ws) (O_Subaccount w (join_colon ws))
| reads_conversion v : currency_lang v ->
    reads U dec_parse source_path (lit "conversion_currency") v (O_ConversionCurrency v)
| reads_tolerance a b c d : ~ In 58%N a -> ~ In 58%N b -> tolerance_key a c -> dec_parse b = Some d ->
    reads U dec_parse source_path (lit "inferred_tolerance_default") (a ++ 58%N :: b) (O_InferredToleranceDefault c d)
| reads_multiplier v d : dec_parse v = Some d ->
    reads U dec_parse source_path (lit "inferred_tolerance_multiplier") v (O_InferredToleranceMultiplier d)
| reads_from_cost v b : bool_word v b ->
    reads U dec_parse source_path (lit "infer_tolerance_from_cost") v (O_InferToleranceFromCost b)
| reads_documents v p :
    match source_path with
    | None => p = v
    | Some sp => match parent sp with Some dir => p = join dir v | None => p = v end
    end ->
    reads U dec_parse source_path (lit "documents") v (O_Documents p)
| reads_operating v : currency_lang v ->
    reads U dec_parse source_path (lit "operating_currency") v (O_OperatingCurrency v)
| reads_commas v b : bool_word v b \/ (v = lit "1" /\ b = true) \/ (v = lit "0" /\ b = false) ->
    reads U dec_parse source_path (lit "render_commas") v (O_RenderCommas b)
| reads_maxlines v n : unsigned_number v n ->
    reads U dec_parse source_path (lit "long_string_maxlines") v (O_LongStringMaxlines n)
| reads_booking v b : In (v, b)
    [(lit "STRICT", Strict); (lit "STRICT_WITH_SIZE", StrictWithSize); (lit "NONE", NoBooking);
     (lit "AVERAGE", Average); (lit "FIFO", Fifo); (lit "LIFO", Lifo); (lit "HIFO", Hifo)] ->
    reads U dec_parse source_path (lit "booking_method") v (O_BookingMethod b)
| reads_mode v m : In (v, m) [(lit "DEFAULT", ModeDefault); (lit "RAW", ModeRaw)] ->
    reads U dec_parse source_path (lit "plugin_processing_mode") v (O_PluginProcessingMode m).

(** Why the value of a known option is refused. *)
Inductive wrong (U : unicode) (dec_parse : str -> option decimal) : str -> str -> bad_value -> Prop :=
| wrong_name t v e : account_type_name_fault U v e -> wrong U dec_parse (name_option t) v (BadAccountTypeName e)
| wrong_subaccount w ws e : ws <> [] -> (forall x, In x ws -> ~ In 58%N x) -> first_fault U ws e ->
    wrong U dec_parse (subaccount_name w) (join_colon ws) (BadAccountName e)
| wrong_currency name v e : In name [lit "conversion_currency"; lit "operating_currency"] -> currency_fault v e ->
    wrong U dec_parse name v (BadCurrency e)
| wrong_tolerance_currency a bs e : (forall x, In x (a :: bs) -> ~ In 58%N x) -> a <> lit "*" -> currency_fault a e ->
    wrong U dec_parse (lit "inferred_tolerance_default") (join_colon (a :: bs)) (BadCurrency e)
| wrong_tolerance_missing a c : ~ In 58%N a -> tolerance_key a c ->
    wrong U dec_parse (lit "inferred_tolerance_default") a BadMissingColon
| wrong_tolerance_number a c b bs : (forall x, In x (a :: b :: bs) -> ~ In 58%N x) -> tolerance_key a c -> dec_parse b = None ->
    wrong U dec_parse (lit "inferred_tolerance_default") (join_colon (a :: b :: bs)) (BadDecimal b)
| wrong_tolerance_colons a c b d bs : (forall x, In x (a :: b :: bs) -> ~ In 58%N x) -> tolerance_key a c ->
    dec_parse b = Some d -> bs <> [] ->
    wrong U dec_parse (lit "inferred_tolerance_default") (join_colon (a :: b :: bs)) BadTooManyColons
| wrong_multiplier v : dec_parse v = None -> wrong U dec_parse (lit "inferred_tolerance_multiplier") v (BadDecimal v)
| wrong_from_cost v : (forall b, ~ bool_word v b) -> wrong U dec_parse (lit "infer_tolerance_from_cost") v BadBool
| wrong_commas v : (forall b, ~ bool_word v b) -> v <> lit "0" -> v <> lit "1" ->
    wrong U dec_parse (lit "render_commas") v BadBool
| wrong_maxlines v : (forall n, ~ unsigned_number v n) -> wrong U dec_parse (lit "long_string_maxlines") v (BadInteger v)
| wrong_booking v :
    ~ In v (map lit ["STRICT"; "STRICT_WITH_SIZE"; "NONE"; "AVERAGE"; "FIFO"; "LIFO"; "HIFO"]%string) ->
    wrong U dec_parse (lit "booking_method") v BadBooking
| wrong_mode v : ~ In v (map lit ["DEFAULT"; "RAW"]%string) -> wrong U dec_parse (lit "plugin_processing_mode") v BadPluginMode.

Definition option_names : list str :=
  map lit
  ["title"; "name_assets"; "name_liabilities"; "name_equity"; "name_income"; "name_expenses";
   "account_previous_balances"; "account_previous_earnings"; "account_previous_conversions";
   "account_current_earnings"; "account_current_conversions"; "account_unrealized_gains";
   "account_rounding"; "conversion_currency"; "inferred_tolerance_default";
   "inferred_tolerance_multiplier"; "infer_tolerance_from_cost"; "documents"; "operating_currency";
   "render_commas"; "long_string_maxlines"; "booking_method"; "plugin_processing_mode"]%string.
