(** * Specification: other names of currencies, tags, links and keys, other dates and
    other strings *)
From Coq Require Import String Ascii.
From Coq Require Import List NArith Arith Bool.
From Verif Require Import Base Path Sources Types SpecTypes Token Lexer Grammar SpecGrammar SpecSort SpecRename Read Parse.
Import ListNotations.
Local Open Scope nat_scope.

(** How each currency, tag, link and metadata key is called instead, and which date
    and which string take the place of each. *)
Record naming := mk_naming { on_currency : str -> str; on_tag : str -> str; on_link : str -> str; on_key : str -> str; on_date : date -> date; on_string : str -> str }.

Definition injective (f : str -> str) : Prop := forall x y, f x = f y -> x = y.
(** Different names stay different; what may be written as such a name stays one,
    and nothing else becomes one. *)
Record faithful (U : unicode) (n : naming) : Prop := {
  fa_currency : injective (on_currency n) /\ (forall s, currency_lang s <-> currency_lang (on_currency n s)) /\
    (forall s, Forall ascii s -> Forall ascii (on_currency n s));
  fa_tag : injective (on_tag n) /\ forall s, tag_link_lang U s <-> tag_link_lang U (on_tag n s);
  fa_link : injective (on_link n) /\ forall s, tag_link_lang U s <-> tag_link_lang U (on_link n s);
  fa_key : injective (on_key n) /\ forall s, key_lang U s <-> key_lang U (on_key n s);
  fa_string : forall s, (on_string n s = [] <-> s = []) /\ lines_of (on_string n s) = lines_of s;
  fa_booking : forall b, on_string n (booking_name b) = booking_name b
}.

(** Of any two of the dates, the one which was earlier stays earlier. *)
Definition keeps_order (f : date -> date) (dates : list date) : Prop := forall x y, In x dates -> In y dates -> before x y -> before (f x) (f y).
(** What the options among the tokens say stays the same. *)
Definition keeps_options (f : str -> str) (ts : list token) : Prop := forall a s t b,
  ts = a ++ T_Keyword K_Option :: T_String s :: T_String t :: b -> f s = s /\ f t = t.
(** What the includes among the tokens say stays the same. *)
Definition keeps_includes (f : str -> str) (ts : list token) : Prop := forall a s b, ts = a ++ T_Keyword K_Include :: T_String s :: b -> f s = s.
(** The dates among tokens. *)
Definition dates_in (ts : list token) : list date := flat_map (fun t => match t with T_Date d => [d] | _ => [] end) ts.

Section Names.
  Context (n : naming).

  Definition name_token (t : token) : token :=
    match t with
    | T_Currency s => T_Currency (on_currency n s)
    | T_Tag s => T_Tag (on_tag n s)
    | T_Link s => T_Link (on_link n s)
    | T_Key s => T_Key (on_key n s)
    | T_Date d => T_Date (on_date n d)
    | T_String s => T_String (on_string n s)
    | _ => t
    end.

  (** The same with these in it called otherwise; the places are kept. *)
  Definition name_amount (a : amount) : amount := mk_amount (am_number a) (in_place (on_currency n) (am_currency a)).
  Definition name_amount_tol (a : amount_tol) : amount_tol := mk_amount_tol (in_place name_amount (at_amount a)) (at_tolerance a).
  Definition name_price (p : price_spec) : price_spec :=
    match p with
    | PS_Currency c => PS_Currency (on_currency n c)
    | PS_CurrencyAmount e c => PS_CurrencyAmount e (on_currency n c)
    | _ => p
    end.
  Definition name_cost (c : cost_spec) : cost_spec :=
    mk_cost_spec (cs_per_unit c) (cs_total c) (option_map (in_place (on_currency n)) (cs_currency c)) (option_map (in_place (on_date n)) (cs_date c)) (option_map (in_place (on_string n)) (cs_label c)) (cs_merge c).
  Definition name_value (v : meta_value) : meta_value :=
    match v with
    | MV_Amount a => MV_Amount (name_amount a)
    | MV_Simple (SV_Currency c) => MV_Simple (SV_Currency (on_currency n c))
    | MV_Simple (SV_Tag t) => MV_Simple (SV_Tag (on_tag n t))
    | MV_Simple (SV_Link l) => MV_Simple (SV_Link (on_link n l))
    | MV_Simple (SV_String s) => MV_Simple (SV_String (on_string n s))
    | MV_Simple (SV_Date d) => MV_Simple (SV_Date (on_date n d))
    | _ => v
    end.
  Definition name_metadata (m : metadata) : metadata :=
    mk_metadata (map (fun x => (in_place (on_key n) (fst x), in_place name_value (snd x))) (md_key_values m))
      (map (in_place (on_tag n)) (md_tags m)) (map (in_place (on_link n)) (md_links m)).
  Definition name_posting (p : posting) : posting :=
    mk_posting (po_flag p) (po_account p) (po_amount p) (option_map (in_place (on_currency n)) (po_currency p))
      (option_map (in_place name_cost) (po_cost_spec p)) (option_map (in_place name_price) (po_price p)) (in_place name_metadata (po_metadata p)).
  Definition name_variant (v : variant) : variant :=
    match v with
    | V_Transaction f p na ps => V_Transaction f (option_map (in_place (on_string n)) p) (option_map (in_place (on_string n)) na) (map (in_place name_posting) ps)
    | V_Price c a => V_Price (in_place (on_currency n) c) (in_place name_amount a)
    | V_Balance a t => V_Balance a (in_place name_amount_tol t)
    | V_Open a cs b => V_Open a (map (in_place (on_currency n)) cs) b
    | V_Commodity c => V_Commodity (in_place (on_currency n) c)
    | V_Custom t vs => V_Custom (in_place (on_string n) t) (map (in_place name_value) vs)
    | V_Document a s => V_Document a (in_place (on_string n) s)
    | V_Note a s => V_Note a (in_place (on_string n) s)
    | V_Event a s => V_Event (in_place (on_string n) a) (in_place (on_string n) s)
    | V_Query a s => V_Query (in_place (on_string n) a) (in_place (on_string n) s)
    | V_Close _ | V_Pad _ _ => v
    end.
  Definition name_directive (d : directive) : directive :=
    mk_directive (in_place (on_date n) (dir_date d)) (in_place name_metadata (dir_metadata d)) (name_variant (dir_variant d)).
  Definition name_plugin (p : plugin) : plugin :=
    mk_plugin (in_place (on_string n) (pl_module p)) (option_map (in_place (on_string n)) (pl_config p)).
End Names.

(** One text with the names, dates and strings of the other one called otherwise,
    but for what options and includes say. *)
Definition renamed (L : lexer_env) (n : naming) (c c' : str) : Prop :=
  exists ts ts', lex L c = Fine (Some ts) /\ lex L c' = Fine (Some ts') /\ map fst ts' = map (name_token n) (map fst ts) /\
    keeps_options (on_string n) (map fst ts) /\ keeps_includes (on_string n) (map fst ts).
(** The dates in the files. *)
Definition dates_in_files (L : lexer_env) (s : sources) : list date :=
  flat_map (fun x => match lex L (snd x) with Fine (Some ts) => dates_in (map fst ts) | _ => [] end) (content_iter s).
