(** * How directives are displayed

    The [Display] implementations of types.rs as functions to text.  Errors of
    the formatter (a writer which fails) and format parameters (width and so
    on) are not modelled: this is [to_string()]. *)
From Coq Require Import String Ascii.
From Coq Require Import List NArith Arith Bool.
From Verif Require Import Base Types.
Import ListNotations.
Local Open Scope nat_scope.

(** What comes from other crates: [Display] of [rust_decimal::Decimal] and of
    [time::Date], and the order in which a hash set and a hash map are iterated
    over.
    (the [Display] of time, rust_decimal and chumsky used at types.rs 771-2750, and the order of [HashSet] and [HashMap].) *)
Record display_env := mk_display_env {
  de_decimal : decimal -> str;
  de_date : date -> str;
  de_set_order : list (spanned str) -> list (spanned str);
  de_map_order : list (spanned str * spanned meta_value) -> list (spanned str * spanned meta_value)
}.

(** format.rs 4-31: [format].  An [Option] is a container with at most one
    item. *)
Definition format {T} (container : list T) (mapper : T -> str) (separator : str) (prefix : option str) : str :=
  match container with
  | [] => []
  | x :: rest =>
      match prefix with Some p => p | None => [] end ++ mapper x ++ flat_map (fun y => separator ++ mapper y) rest
  end.
(** std: [IntoIterator for Option], for format.rs 34-44. *)
Definition option_list {T} (o : option T) : list T := match o with Some x => [x] | None => [] end.

(** format.rs 33-44: [simple_format]. *)
Definition simple_format {T} (container : list T) (display : T -> str) (prefix : option str) : str :=
  format container display [] prefix.

(** format.rs 62-68, 70-77, 79-80: [double_quoted], [key_value], [SPACE],
    [NEWLINE_INDENT]. *)
Definition quote : str := [34%N].
(** format.rs 62-68. *)
Definition double_quoted (s : str) : str := quote ++ s ++ quote.
(** format.rs 70-77. *)
Definition key_value (k v : str) : str := k ++ lit ": " ++ v.
(** format.rs 79. *)
Definition SPACE : str := lit " ".
(** format.rs 80. *)
Definition NEWLINE_INDENT : str := 10%N :: lit "  ".

(** types.rs 365-384: [Flag]. *)
Definition display_flag (f : flag) : str :=
  match f with
  | F_Asterisk => lit "*"
  | F_Exclamation => lit "!"
  | F_Ampersand => lit "&"
  | F_Hash => lit "#"
  | F_Question => lit "?"
  | F_Percent => lit "%"
  | F_Letter c => [39%N; c]
  end.

(** types.rs 429-432: [Booking], by strum in SCREAMING_SNAKE_CASE. *)
Definition display_booking (b : booking) : str :=
  match b with
  | Strict => lit "STRICT"
  | StrictWithSize => lit "STRICT_WITH_SIZE"
  | NoBooking => lit "NONE"
  | Average => lit "AVERAGE"
  | Fifo => lit "FIFO"
  | Lifo => lit "LIFO"
  | Hifo => lit "HIFO"
  end.

(** types.rs 1252-1256, 1627-1631, 1992-1996, 2026-2030, 2132-2136:
    [Account], [Currency], [Tag], [Link], [Key]. *)
Definition display_account (a : account) : str := acc_name a.
(** types.rs 1627-1631. *)
Definition display_currency (c : str) : str := c.
(** types.rs 1992-1996. *)
Definition display_tag (t : str) : str := 35%N :: t.
(** types.rs 2026-2030. *)
Definition display_link (l : str) : str := 94%N :: l.
(** types.rs 2132-2136. *)
Definition display_key (k : str) : str := k.

Section Display.
  Context (D : display_env).

  (** types.rs 2298-2311: [Expr]. *)
  Fixpoint display_expr (e : expr) : str :=
    match e with
    | E_Value d => de_decimal D d
    | E_Add a b => display_expr a ++ lit " + " ++ display_expr b
    | E_Sub a b => display_expr a ++ lit " - " ++ display_expr b
    | E_Mul a b => display_expr a ++ lit " * " ++ display_expr b
    | E_Div a b => display_expr a ++ lit " / " ++ display_expr b
    | E_Neg a => lit "-" ++ display_expr a
    | E_Paren a => lit "(" ++ display_expr a ++ lit ")"
    end.

  (** types.rs 2244-2248: [ExprValue]. *)
  Definition display_value (v : expr_value) : str := display_expr (ev_expr v).

  (** types.rs 2355-2364: [ScopedExprValue]. *)
  Definition display_scoped (e : scoped_expr) : str :=
    match e with
    | SE_PerUnit v => display_value v
    | SE_Total v => lit "# " ++ display_value v
    end.

  (** types.rs 2392-2396, 2424-2432: [Amount], [AmountWithTolerance]. *)
  Definition display_amount (a : amount) : str :=
    display_value (item (am_number a)) ++ lit " " ++ display_currency (item (am_currency a)).
  (** types.rs 2424-2433. *)
  Definition display_amount_tol (a : amount_tol) : str :=
    match at_tolerance a with
    | Some t => display_amount (item (at_amount a)) ++ lit " ~ " ++ de_decimal D (item t)
    | None => display_amount (item (at_amount a))
    end.

  (** types.rs 2528-2572: [CostSpec].  [sep] is compared with " ": it is what
      it was set to last. *)
  Definition display_cost (c : cost_spec) : str :=
    let sep := [] in
    let out := lit "{" in
    let '(out, sep) :=
      match cs_per_unit c with
      | Some v => (out ++ sep ++ display_value (item v), lit " ")
      | None => (out, sep)
      end in
    let '(out, sep) :=
      match cs_total c with
      | Some v => (out ++ sep ++ lit "# " ++ display_value (item v), lit " ")
      | None => (out, sep)
      end in
    let '(out, sep) :=
      match cs_currency c with
      | Some v => (out ++ sep ++ display_currency (item v), lit " ")
      | None => (out, sep)
      end in
    let sep := if str_eqb sep (lit " ") then lit ", " else sep in
    let '(out, sep) :=
      match cs_date c with
      | Some v => (out ++ sep ++ de_date D (item v), lit ", ")
      | None => (out, sep)
      end in
    let '(out, sep) :=
      match cs_label c with
      | Some v => (out ++ sep ++ quote ++ item v ++ quote, lit ", ")
      | None => (out, sep)
      end in
    let out := if cs_merge c then out ++ sep ++ lit "*" else out in
    out ++ lit "}".

  (** types.rs 2740-2750: [PriceSpec]. *)
  Definition display_price (p : price_spec) : str :=
    match p with
    | PS_Unspecified => []
    | PS_Currency c => display_currency c
    | PS_Amount e => display_scoped e
    | PS_CurrencyAmount e c => display_scoped e ++ lit " " ++ display_currency c
    end.

  (** types.rs 1931-1947, 1900-1909: [SimpleValue], [MetaValue]. *)
  Definition display_simple (v : simple_value) : str :=
    match v with
    | SV_String s => quote ++ s ++ quote
    | SV_Currency c => display_currency c
    | SV_Account a => display_account a
    | SV_Tag t => display_tag t
    | SV_Link l => display_link l
    | SV_Date d => de_date D d
    | SV_Bool b => if b then lit "TRUE" else lit "FALSE"
    | SV_Null => lit "NULL"
    | SV_Expr v => display_value v
    end.
  (** types.rs 1900-1909. *)
  Definition display_meta_value (v : meta_value) : str :=
    match v with
    | MV_Simple v => display_simple v
    | MV_Amount a => display_amount a
    end.

  (** types.rs 1852-1855, 1857-1860, 1862-1870, 1873-1879: [Metadata]. *)
  Definition fmt_tags_links_inline (m : metadata) : str :=
    format (de_set_order D (md_tags m)) (fun t => display_tag (item t)) SPACE (Some SPACE) ++
    format (de_set_order D (md_links m)) (fun l => display_link (item l)) SPACE (Some SPACE).
  (** types.rs 1857-1860. *)
  Definition fmt_tags_links_on_separate_lines (m : metadata) : str :=
    format (de_set_order D (md_tags m)) (fun t => display_tag (item t)) NEWLINE_INDENT (Some NEWLINE_INDENT) ++
    format (de_set_order D (md_links m)) (fun l => display_link (item l)) NEWLINE_INDENT (Some NEWLINE_INDENT).
  (** types.rs 1862-1870. *)
  Definition fmt_keys_values (m : metadata) : str :=
    format (de_map_order D (md_key_values m))
      (fun kv => key_value (display_key (item (fst kv))) (display_meta_value (item (snd kv)))) NEWLINE_INDENT (Some NEWLINE_INDENT).
  (** types.rs 1873-1879. *)
  Definition display_metadata (m : metadata) : str :=
    format (de_set_order D (md_tags m)) (fun t => display_tag (item t)) NEWLINE_INDENT (Some NEWLINE_INDENT) ++
    format (de_set_order D (md_links m)) (fun l => display_link (item l)) NEWLINE_INDENT (Some NEWLINE_INDENT) ++
    fmt_keys_values m.

  (** types.rs 1782-1802: [Posting]. *)
  Definition display_posting (p : posting) : str :=
    simple_format (option_list (po_flag p)) (fun f => display_flag (item f)) None ++
    match po_flag p with Some _ => lit " " | None => [] end ++ display_account (item (po_account p)) ++
    simple_format (option_list (po_amount p)) (fun v => display_value (item v)) (Some (lit " ")) ++
    simple_format (option_list (po_currency p)) (fun c => display_currency (item c)) (Some (lit " ")) ++
    simple_format (option_list (po_cost_spec p)) (fun c => display_cost (item c)) (Some (lit " ")) ++
    simple_format (option_list (po_price p)) (fun c => display_price (item c)) (Some (lit " @ ")) ++
    display_metadata (item (po_metadata p)).

  (** types.rs 832-853, 882-890, 917-925, 953-960, 985-990, 1005-1010,
      1026-1031, 1052-1057, 1079-1084, 1105-1114, 1135-1140, 1161-1167: the
      [fmt] of each variant. *)
  Definition fmt_variant (v : variant) (date_ : date) (m : metadata) : str :=
    let d := de_date D date_ in
    match v with
    | V_Transaction fl payee narration postings =>
        d ++ lit " " ++ display_flag (item fl) ++
        format (option_list payee) (fun s => double_quoted (item s)) (lit " ") (Some (lit " ")) ++
        format (option_list narration) (fun s => double_quoted (item s)) (lit " ") (Some (lit " ")) ++
        match payee, narration with Some _, None => lit " """"" | _, _ => [] end ++
        fmt_tags_links_inline m ++ fmt_keys_values m ++
        format postings (fun p => display_posting (item p)) NEWLINE_INDENT (Some NEWLINE_INDENT)
    | V_Price c a =>
        d ++ lit " price " ++ display_currency (item c) ++ lit " " ++ display_amount (item a) ++
        fmt_tags_links_inline m ++ fmt_keys_values m
    | V_Balance a t =>
        d ++ lit " balance " ++ display_account (item a) ++ lit " " ++ display_amount_tol (item t) ++
        fmt_tags_links_inline m ++ fmt_keys_values m
    | V_Open a cs b =>
        d ++ lit " open " ++ display_account (item a) ++
        format (de_set_order D cs) (fun c => display_currency (item c)) (lit ",") (Some (lit " ")) ++
        format (option_list b) (fun b => double_quoted (display_booking (item b))) (lit " ") (Some (lit " ")) ++
        fmt_tags_links_inline m ++ fmt_keys_values m
    | V_Close a =>
        d ++ lit " close " ++ display_account (item a) ++ fmt_tags_links_inline m ++ fmt_keys_values m
    | V_Commodity c =>
        d ++ lit " commodity " ++ display_currency (item c) ++ fmt_tags_links_inline m ++ fmt_keys_values m
    | V_Pad a s =>
        d ++ lit " pad " ++ display_account (item a) ++ lit " " ++ display_account (item s) ++
        fmt_tags_links_inline m ++ fmt_keys_values m
    | V_Document a p =>
        d ++ lit " document " ++ display_account (item a) ++ lit " " ++ double_quoted (item p) ++
        fmt_tags_links_inline m ++ fmt_keys_values m
    | V_Note a s =>
        d ++ lit " note " ++ display_account (item a) ++ lit " " ++ double_quoted (item s) ++
        fmt_tags_links_inline m ++ fmt_keys_values m
    | V_Event a s =>
        d ++ lit " event " ++ double_quoted (item a) ++ lit " " ++ double_quoted (item s) ++
        fmt_tags_links_inline m ++ fmt_keys_values m
    | V_Query a s =>
        d ++ lit " query " ++ double_quoted (item a) ++ lit " " ++ double_quoted (item s) ++
        fmt_tags_links_inline m ++ fmt_keys_values m
    | V_Custom t vs =>
        d ++ lit " custom " ++ double_quoted (item t) ++
        format vs (fun v => display_meta_value (item v)) SPACE (Some SPACE) ++
        fmt_tags_links_on_separate_lines m ++ fmt_keys_values m
    end.

  (** types.rs 771-790: [Directive]. *)
  Definition display_directive (d : directive) : str :=
    fmt_variant (dir_variant d) (item (dir_date d)) (item (dir_metadata d)).
End Display.

(** types.rs 1199-1207: [Plugin]. *)
Definition display_plugin (p : plugin) : str :=
  lit "plugin " ++ double_quoted (item (pl_module p)) ++
  match pl_config p with Some c => lit " " ++ double_quoted (item c) | None => [] end ++ [10%N].
