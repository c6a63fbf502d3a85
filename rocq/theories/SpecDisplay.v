(** * Specification of displaying: what is displayed can be read again *)
From Coq Require Import String Ascii.
From Coq Require Import List NArith ZArith Arith Bool Permutation.
From Verif Require Import Base Types SpecTypes Decimal SpecDecimal Token SpecOptions Lexer SpecLexer Grammar SpecGrammar SpecExpr Display.
Import ListNotations.
Local Open Scope nat_scope.

(** ** What is relied on *)

(** A number which is not negative is shown by its digits, with as many after
    the point as its scale says. *)
Definition shows_decimals (show : decimal -> str) : Prop :=
  forall m s, (m < 2 ^ 96)%N -> s <= 28 ->
    exists i f, show (mk_dec false m s) = i ++ match f with [] => [] | _ => 46%N :: f end /\
      i <> [] /\ Forall digit i /\ Forall digit f /\ List.length f = s /\ decimal_value (i ++ f) = m.

(** A date is shown as year, month and day, with four, two and two digits. *)
Definition shows_dates (show : date -> str) : Prop :=
  forall y m d, (y <= 9999)%N -> calendar_date y m d ->
    exists ys ms ds, show (mk_date y m d) = ys ++ 45%N :: ms ++ 45%N :: ds /\
      List.length ys = 4 /\ List.length ms = 2 /\ List.length ds = 2 /\
      Forall digit ys /\ Forall digit ms /\ Forall digit ds /\
      decimal_value ys = y /\ decimal_value ms = m /\ decimal_value ds = d.

Record display_ok (D : display_env) : Prop := {
  do_decimal : shows_decimals (de_decimal D);
  do_date : shows_dates (de_date D);
  do_set : forall l, Permutation l (de_set_order D l);
  do_map : forall l, Permutation l (de_map_order D l)
}.

(** The text of several directives: each is followed by the end of its line. *)
Definition document (D : display_env) (ds : list directive) : str := flat_map (fun d => display_directive D d ++ [10%N]) ds.

(** ** The same, wherever it was written, and in whatever order sets are kept *)

Definition same_item {A} (x y : spanned A) : Prop := item x = item y.
Definition same_option {A} (R : A -> A -> Prop) (x y : option A) : Prop :=
  match x, y with
  | Some a, Some b => R a b
  | None, None => True
  | _, _ => False
  end.
(** The same elements, each as often. *)
Definition same_elements {A} (R : A -> A -> Prop) (l l' : list A) : Prop :=
  exists m, Permutation l m /\ Forall2 R m l'.

Definition alike_amount (a b : amount) : Prop :=
  same_item (am_number a) (am_number b) /\ same_item (am_currency a) (am_currency b).
Definition alike_amount_tol (a b : amount_tol) : Prop :=
  alike_amount (item (at_amount a)) (item (at_amount b)) /\ same_option same_item (at_tolerance a) (at_tolerance b).
Definition alike_meta_value (a b : meta_value) : Prop :=
  match a, b with
  | MV_Simple v, MV_Simple w => v = w
  | MV_Amount x, MV_Amount y => alike_amount x y
  | _, _ => False
  end.
Definition alike_metadata (a b : metadata) : Prop :=
  same_elements (fun x y => same_item (fst x) (fst y) /\ alike_meta_value (item (snd x)) (item (snd y)))
    (md_key_values a) (md_key_values b) /\
  same_elements same_item (md_tags a) (md_tags b) /\ same_elements same_item (md_links a) (md_links b).
Definition alike_cost (a b : cost_spec) : Prop :=
  same_option same_item (cs_per_unit a) (cs_per_unit b) /\ same_option same_item (cs_total a) (cs_total b) /\
  same_option same_item (cs_currency a) (cs_currency b) /\ same_option same_item (cs_date a) (cs_date b) /\
  same_option same_item (cs_label a) (cs_label b) /\ cs_merge a = cs_merge b.
Definition alike_posting (a b : posting) : Prop :=
  same_option same_item (po_flag a) (po_flag b) /\ same_item (po_account a) (po_account b) /\
  same_option same_item (po_amount a) (po_amount b) /\ same_option same_item (po_currency a) (po_currency b) /\
  same_option (fun x y => alike_cost (item x) (item y)) (po_cost_spec a) (po_cost_spec b) /\
  same_option same_item (po_price a) (po_price b) /\ alike_metadata (item (po_metadata a)) (item (po_metadata b)).

Inductive alike_variant : variant -> variant -> Prop :=
| alike_transaction f f' p p' n n' ps ps' : same_item f f' -> same_option same_item p p' -> same_option same_item n n' ->
    Forall2 (fun x y => alike_posting (item x) (item y)) ps ps' ->
    alike_variant (V_Transaction f p n ps) (V_Transaction f' p' n' ps')
| alike_price c c' a a' : same_item c c' -> alike_amount (item a) (item a') -> alike_variant (V_Price c a) (V_Price c' a')
| alike_balance a a' t t' : same_item a a' -> alike_amount_tol (item t) (item t') ->
    alike_variant (V_Balance a t) (V_Balance a' t')
| alike_open a a' cs cs' b b' : same_item a a' -> same_elements same_item cs cs' -> same_option same_item b b' ->
    alike_variant (V_Open a cs b) (V_Open a' cs' b')
| alike_close a a' : same_item a a' -> alike_variant (V_Close a) (V_Close a')
| alike_commodity c c' : same_item c c' -> alike_variant (V_Commodity c) (V_Commodity c')
| alike_pad a a' s s' : same_item a a' -> same_item s s' -> alike_variant (V_Pad a s) (V_Pad a' s')
| alike_document a a' s s' : same_item a a' -> same_item s s' -> alike_variant (V_Document a s) (V_Document a' s')
| alike_note a a' s s' : same_item a a' -> same_item s s' -> alike_variant (V_Note a s) (V_Note a' s')
| alike_event a a' s s' : same_item a a' -> same_item s s' -> alike_variant (V_Event a s) (V_Event a' s')
| alike_query a a' s s' : same_item a a' -> same_item s s' -> alike_variant (V_Query a s) (V_Query a' s')
| alike_custom t t' vs vs' : same_item t t' -> Forall2 (fun x y => alike_meta_value (item x) (item y)) vs vs' ->
    alike_variant (V_Custom t vs) (V_Custom t' vs').

Record alike (d d' : directive) : Prop := {
  al_date : same_item (dir_date d) (dir_date d');
  al_metadata : alike_metadata (item (dir_metadata d)) (item (dir_metadata d'));
  al_variant : alike_variant (dir_variant d) (dir_variant d')
}.

(** ** What is displayed so that it can be read again *)

(** No quote and no backslash. *)
Definition clean (s : str) : Prop := ~ In 34%N s /\ ~ In 92%N s.

Definition common_date (d : date) : Prop := calendar_date (d_year d) (d_month d) (d_day d) /\ (d_year d <= 9999)%N.
Definition common_number (d : decimal) : Prop := dec_neg d = false /\ (dec_mant d < 2 ^ 96)%N /\ dec_scale d <= 28.
Fixpoint common_numbers (e : expr) : Prop :=
  match e with
  | E_Value d => common_number d
  | E_Add a b | E_Sub a b | E_Mul a b | E_Div a b => common_numbers a /\ common_numbers b
  | E_Neg a | E_Paren a => common_numbers a
  end.

(** The sign in front of an expression. *)
Fixpoint starts_with_sign (e : expr) : Prop :=
  match e with
  | E_Neg _ => True
  | E_Add a _ | E_Sub a _ | E_Mul a _ | E_Div a _ => starts_with_sign a
  | _ => False
  end.

Definition optional {A} (P : A -> Prop) (o : option A) : Prop := match o with Some x => P x | None => True end.

Section Readable.
  Context (L : lexer_env) (E : grammar_env) (names : account_type -> str).

  Definition common_value (v : expr_value) : Prop :=
    left_assoc (ev_expr v) /\ common_numbers (ev_expr v) /\ worth (g_ops E) v.
  Definition common_currency (c : str) : Prop :=
    currency_text c /\ ~ In c [lit "TRUE"; lit "FALSE"; lit "NULL"] /\ currency_lang c.
  Definition common_account (a : account) : Prop :=
    account_text L (acc_name a) /\
    exists ws, acc_name a = join_colon (names (acc_type a) :: ws) /\ Forall (account_name_lang (g_unicode E)) ws.
  Definition common_label (s : str) : Prop := label s /\ tag_link_lang (g_unicode E) s.
  Definition common_key (s : str) : Prop := key_text s /\ key_lang (g_unicode E) s.
  Definition common_flag (f : flag) : Prop := match f with F_Letter c => upper c | _ => True end.
  Definition common_amount (a : amount) : Prop :=
    common_value (item (am_number a)) /\ common_currency (item (am_currency a)).

  (** Not for the total. *)
  Definition common_scoped (e : scoped_expr) : Prop :=
    match e with SE_PerUnit v => common_value v | SE_Total _ => False end.
  Definition common_price (p : price_spec) : Prop :=
    match p with
    | PS_Unspecified => True
    | PS_Currency c => common_currency c
    | PS_Amount e => common_scoped e
    | PS_CurrencyAmount e c => common_scoped e /\ common_currency c
    end.
  Definition common_cost (c : cost_spec) : Prop :=
    optional (fun v => common_value (item v)) (cs_per_unit c) /\ optional (fun v => common_value (item v)) (cs_total c) /\
    optional (fun v => common_currency (item v)) (cs_currency c) /\ optional (fun v => common_date (item v)) (cs_date c) /\
    optional (fun v => clean (item v)) (cs_label c).

  Definition common_simple (v : simple_value) : Prop :=
    match v with
    | SV_String s => clean s
    | SV_Currency c => common_currency c
    | SV_Account a => common_account a
    | SV_Tag t => common_label t
    | SV_Link l => common_label l
    | SV_Date d => common_date d
    | SV_Bool _ | SV_Null => True
    | SV_Expr v => common_value v
    end.
  Definition common_meta_value (v : meta_value) : Prop :=
    match v with MV_Simple v => common_simple v | MV_Amount a => common_amount a end.

  (** No tag, link or key twice. *)
  Record common_metadata (m : metadata) : Prop := {
    cm_keys : Forall (fun kv => common_key (item (fst kv)) /\ common_meta_value (item (snd kv))) (md_key_values m);
    cm_tags : Forall (fun t => common_label (item t)) (md_tags m);
    cm_links : Forall (fun t => common_label (item t)) (md_links m);
    cm_keys_once : NoDup (map (fun kv => item (fst kv)) (md_key_values m));
    cm_tags_once : NoDup (map item (md_tags m));
    cm_links_once : NoDup (map item (md_links m))
  }.
  Record common_posting (p : posting) : Prop := {
    cp_flag : optional (fun f => common_flag (item f)) (po_flag p);
    cp_account : common_account (item (po_account p));
    cp_amount : optional (fun v => common_value (item v)) (po_amount p);
    cp_currency : optional (fun c => common_currency (item c)) (po_currency p);
    cp_cost : optional (fun c => common_cost (item c)) (po_cost_spec p);
    cp_price : optional (fun c => common_price (item c)) (po_price p);
    cp_metadata : common_metadata (item (po_metadata p))
  }.

  (** A number is not followed by a currency, which would make it an amount,
      nor by a sign, which would continue it. *)
  Definition sign_first (v : meta_value) : Prop :=
    match v with
    | MV_Simple (SV_Expr e) => starts_with_sign (ev_expr e)
    | MV_Amount a => starts_with_sign (ev_expr (item (am_number a)))
    | _ => False
    end.
  Definition apart (v w : meta_value) : Prop :=
    (exists e, v = MV_Simple (SV_Expr e)) -> (forall c, w <> MV_Simple (SV_Currency c)) /\ ~ sign_first w.
  Fixpoint all_apart (vs : list meta_value) : Prop :=
    match vs with
    | v :: (w :: _) as r => apart v w /\ all_apart r
    | _ => True
    end.

  (** Without a tolerance. *)
  Definition common_variant (v : variant) : Prop :=
    match v with
    | V_Transaction f p n ps =>
        common_flag (item f) /\ optional (fun s => clean (item s) /\ item s <> []) p /\
        optional (fun s => clean (item s) /\ item s <> []) n /\ Forall (fun p => common_posting (item p)) ps
    | V_Price c a => common_currency (item c) /\ common_amount (item a)
    | V_Balance a t => common_account (item a) /\ common_amount (item (at_amount (item t))) /\ at_tolerance (item t) = None
    | V_Open a cs _ => common_account (item a) /\ Forall (fun c => common_currency (item c)) cs /\ NoDup (map item cs)
    | V_Close a => common_account (item a)
    | V_Commodity c => common_currency (item c)
    | V_Pad a s => common_account (item a) /\ common_account (item s)
    | V_Document a s | V_Note a s => common_account (item a) /\ clean (item s)
    | V_Event a s | V_Query a s => clean (item a) /\ clean (item s)
    | V_Custom t vs => clean (item t) /\ Forall (fun v => common_meta_value (item v)) vs /\ all_apart (map item vs)
    end.
  Record common (d : directive) : Prop := {
    co_date : common_date (item (dir_date d));
    co_metadata : common_metadata (item (dir_metadata d));
    co_variant : common_variant (dir_variant d)
  }.
End Readable.

(** ** What has been parsed

    What is relied on of [Decimal::from_str]: without a sign in the text the
    number is not negative, and any number has 96 bits and at most 28 digits
    after the point. *)
Definition decimals_fit (from_str : str -> result decimal str) : Prop :=
  forall s d, from_str s = Ok d -> ~ In 45%N s -> common_number d.

(** Of what has been parsed, all that is displayed so that it can be read
    again: there is no quote and no backslash in a string, no tolerance and no
    total price. *)
Definition showable_meta_value (v : meta_value) : Prop :=
  match v with MV_Simple (SV_String s) => clean s | _ => True end.
Definition showable_metadata (m : metadata) : Prop := Forall (fun kv => showable_meta_value (item (snd kv))) (md_key_values m).
Definition showable_price (p : price_spec) : Prop :=
  match p with PS_Amount (SE_Total _) | PS_CurrencyAmount (SE_Total _) _ => False | _ => True end.
Record showable_posting (p : posting) : Prop := {
  sp_cost : optional (fun c => optional (fun s => clean (item s)) (cs_label (item c))) (po_cost_spec p);
  sp_price : optional (fun c => showable_price (item c)) (po_price p);
  sp_metadata : showable_metadata (item (po_metadata p))
}.
Definition showable_variant (v : variant) : Prop :=
  match v with
  | V_Transaction _ p n ps =>
      optional (fun s => clean (item s)) p /\ optional (fun s => clean (item s)) n /\ Forall (fun p => showable_posting (item p)) ps
  | V_Balance _ t => at_tolerance (item t) = None
  | V_Document _ s | V_Note _ s => clean (item s)
  | V_Event a s | V_Query a s => clean (item a) /\ clean (item s)
  | V_Custom t vs => clean (item t) /\ Forall (fun v => showable_meta_value (item v)) vs
  | V_Price _ _ | V_Open _ _ _ | V_Close _ | V_Commodity _ | V_Pad _ _ => True
  end.
Definition showable (d : directive) : Prop := showable_metadata (item (dir_metadata d)) /\ showable_variant (dir_variant d).

(** There is an option in the file which sets the name of an account type. *)
Definition sets_names (I : input) : Prop := exists i name value,
  tok I i (T_Keyword K_Option) /\ tok I (S i) (T_String name) /\ tok I (S (S i)) (T_String value) /\
  In name (map lit ["name_assets"; "name_liabilities"; "name_equity"; "name_income"; "name_expenses"]%string).
