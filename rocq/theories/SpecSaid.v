(** * Specification: all that the options of a ledger say *)
From Coq Require Import String Ascii.
From Coq Require Import List NArith Arith Bool.
From Verif Require Import Base Path Sources Types Options SpecOptions Token.
Import ListNotations.
Local Open Scope nat_scope.

(** The options which the parser itself goes by. *)
Definition rule_names : list str :=
  map lit ["name_assets"; "name_liabilities"; "name_equity"; "name_income"; "name_expenses"; "long_string_maxlines"]%string.

(** The tokens of the line of an option. *)
Definition option_line (name value : str) : list token := [T_Keyword K_Option; T_String name; T_String value; T_Eol].

(** The tokens of the line of a plugin. *)
Definition plugin_line (module : str) (config : option str) : list token :=
  T_Keyword K_Plugin :: T_String module :: match config with Some s => [T_String s; T_Eol] | None => [T_Eol] end.

Definition value_of {A} (x : option (sourced A)) : list A := match os_spanned x with Some v => [item v] | None => [] end.

(** Each value of each option of the result, those for the rules apart. *)
Definition said (o : options) : list option_variant :=
  map O_Title (value_of (os_title o)) ++
  flat_map (fun w => map (O_Subaccount w) (value_of (os_subaccount o w)))
    [PreviousBalances; PreviousEarnings; PreviousConversions; CurrentEarnings; CurrentConversions; UnrealizedGains; Rounding] ++
  map O_ConversionCurrency (value_of (os_conversion_currency o)) ++
  map (fun x => O_InferredToleranceDefault (fst x) (fst (snd x))) (os_tolerance_default o) ++
  map O_InferredToleranceMultiplier (value_of (os_tolerance_multiplier o)) ++
  map O_InferToleranceFromCost (value_of (os_tolerance_from_cost o)) ++
  map (fun x => O_Documents (fst x)) (os_documents o) ++
  map (fun x => O_OperatingCurrency (fst x)) (os_operating_currency o) ++
  map O_RenderCommas (value_of (os_render_commas o)) ++
  map O_BookingMethod (value_of (os_booking_method o)) ++
  map O_PluginProcessingMode (value_of (os_plugin_mode o)).

(** The same rules in the end. *)
Definition same_rules (o o' : options) : Prop :=
  (forall t, options_account_type_name o t = options_account_type_name o' t) /\
  option_map item (options_long_string_maxlines o) = option_map item (options_long_string_maxlines o').

(** [o] says [v] and all that [o'] says. *)
Definition says_besides (v : option_variant) (o o' : options) : Prop :=
  (exists a b, said o = a ++ v :: b /\ said o' = a ++ b) /\ same_rules o o'.

(** Both set the same, so that only one of them can be given. *)
Definition rivals (u v : option_variant) : Prop :=
  exists s s', setting_of u = Some s /\ setting_of v = Some s' /\ same_setting s s' = true.
