(** * Grammar: the parsers of src/parsers.rs, up to directives

    Those which may change the options are in [Parse]. *)
From Coq Require Import String Ascii.
From Coq Require Import List NArith ZArith Arith Bool.
From Verif Require Import Base Path Types Options Decimal Cost Token Peg.
Import ListNotations.
Local Open Scope nat_scope.

(** What is used of other crates: the Unicode tables, decimal arithmetic,
    [Decimal::from_str] ([None] for its errors), and the order in which a
    [HashSet] is iterated over.
    (the tables of Unicode, the arithmetic of rust_decimal, and the orders of [HashSet] at parsers.rs 1239, 1276; what parsers.rs 1172-1178 and options.rs 121-123 rely on.) *)
Record grammar_env := {
  g_unicode : unicode;
  g_ops : dec_ops;
  g_decimal : str -> option decimal;
  g_order : list (spanned str) -> list (spanned str)
}.

(** The tokens of one source. (lib.rs 280-284 and 670-672: the tokens of a source, with its id and its end.) *)
Record input := mk_input { in_source : nat; in_tokens : list rtoken; in_len : nat }.

(** lexer.rs 15: the derived [PartialEq for Token], as [just] uses it. *)
Definition token_eq_dec (a b : token) : {a = b} + {a <> b}.
Proof. repeat (decide equality). Defined.

(** ** Collecting without repetitions *)

(** [HashSet::get]. (std: [HashSet::get] at parsers.rs 1240, 1277.) *)
Definition find_same (x : spanned str) (l : list (spanned str)) : option (spanned str) :=
  find (spanned_str_eqb x) l.

(** Insert unless there already, which is an error at the place of the new one
    (parsers.rs 366-378, 734-757, 1040-1067). *)
Definition insert_once (dup : str -> problem) (s : list (spanned str) * list report) (x : spanned str)
  : list (spanned str) * list report :=
  let (l, es) := s in
  if mem spanned_str_eqb x l then (l, es ++ [mk_report (dup (item x)) (span_of x) []])
  else (l ++ [x], es).

(** parsers.rs 1235-1259, 1272-1298: the loops of [merge_tags] and [merge_links]; an error
    is at the place of the one which was there before. *)
Definition merge_once (dup : str -> problem) (s : list (spanned str) * list report) (x : spanned str)
  : list (spanned str) * list report :=
  let (l, es) := s in
  match find_same x l with
  | None => (l ++ [x], es)
  | Some y => (l, es ++ [mk_report (dup (item x)) (span_of y) []])
  end.

(** parsers.rs 763-767: [Metadatum]. *)
Inductive metadatum :=
| MD_KeyValue (kv : spanned meta_key_value)
| MD_Tag (t : spanned str)
| MD_Link (l : spanned str).

(** parsers.rs 713-758: the function folded by [metadata]. *)
Definition collate (s : metadata * list report) (x : metadatum) : metadata * list report :=
  let '(mk_metadata kvs tags links, es) := s in
  match x with
  | MD_KeyValue kv =>
      let key := mkv_key (item kv) in
      match lookup spanned_str_eqb key kvs with
      | Some _ => (fst s, es ++ [mk_report (DuplicateKey (item key)) (span_of key) []])
      | None => (mk_metadata (insert spanned_str_eqb key (mkv_value (item kv)) kvs) tags links, es)
      end
  | MD_Tag t =>
      let (tags', es') := insert_once DuplicateTag (tags, es) t in (mk_metadata kvs tags' links, es')
  | MD_Link l =>
      let (links', es') := insert_once DuplicateLink (links, es) l in (mk_metadata kvs tags links', es')
  end.

Section Grammar.
  Context (E : grammar_env) (I : input) (po : parser_options).
  Let toks := in_tokens I.

  (** chumsky: [select_ref!], as at parsers.rs 1146. *)
  Definition sel {A} (f : token -> option A) : parser A := select toks f.
  (** chumsky: [just], as at parsers.rs 97. *)
  Definition just (t : token) : parser token := sel (fun x => if token_eq_dec x t then Some x else None).
  (** chumsky: [just] of a keyword, as at parsers.rs 251. *)
  Definition keyword_ (k : keyword) : parser token := just (T_Keyword k).
  (** chumsky: [repeated().collect()], as at parsers.rs 172. *)
  Definition rep {A} (p : parser A) : parser (list A) := many toks p.
  (** chumsky: [map_with(spanned_extra)], types.rs 564-574, as at parsers.rs 208. *)
  Definition spn {A} (p : parser A) : parser (spanned A) := sp (in_source I) toks (in_len I) p.

  (** [choice((just(Token::Eol).ignored(), end()))].
      (parsers.rs 123, 228, 256, 797: [choice((just(Token::Eol).ignored(), end()))].) *)
  Definition eol : parser unit := choice [pmap (fun _ => tt) (just T_Eol); at_end toks].

  (** ** Leaves *)

  (** parsers.rs 384-400: [account]. *)
  Definition p_account : parser account :=
    try_map (fun s => Fine (account_new (g_unicode E) s (po_names po)))
      (sel (fun t => match t with T_Account s => Some s | _ => None end)).

  (** parsers.rs 1142-1194: [tag], [link], [key], [currency], [date], [decimal]. *)
  Definition p_tag : parser str :=
    try_map (fun s => Fine (tag_link_try_from (g_unicode E) s)) (sel (fun t => match t with T_Tag s => Some s | _ => None end)).
  (** parsers.rs 1151-1157. *)
  Definition p_link : parser str :=
    try_map (fun s => Fine (tag_link_try_from (g_unicode E) s)) (sel (fun t => match t with T_Link s => Some s | _ => None end)).
  (** parsers.rs 1162-1169. *)
  Definition p_key : parser str :=
    try_map (fun s => Fine (key_try_from (g_unicode E) s)) (sel (fun t => match t with T_Key s => Some s | _ => None end)).
  (** parsers.rs 1172-1178. *)
  Definition p_currency : parser str :=
    try_map currency_try_from (sel (fun t => match t with T_Currency s => Some s | _ => None end)).
  (** parsers.rs 1181-1186. *)
  Definition p_date : parser date := sel (fun t => match t with T_Date d => Some d | _ => None end).
  (** parsers.rs 1189-1194. *)
  Definition p_decimal : parser decimal := sel (fun t => match t with T_Number d => Some d | _ => None end).

  (** parsers.rs 1208-1229: the warning for a string, if it is too long. *)
  Definition string_warning (s : str) (where_ : span) : list report :=
    let lines := (N.of_nat (List.length (filter (N.eqb newline) s)) + 1)%N in
    let max := match po_maxlines po with Some n => item (sd_spanned n) | None => default_maxlines end in
    if (max <? lines)%N then
      match po_maxlines po with
      | Some n => [mk_report (StringTooLong false max lines) where_ [src_value (sd_source n)]]
      | None => [mk_report (StringTooLong true max lines) where_ []]
      end
    else [].

  (** parsers.rs 1197-1232: [string]. *)
  Definition p_string : parser str := fun i =>
    match spn (sel (fun t => match t with T_String s => Some s | _ => None end)) i with
    | Got s j ws es => Got (item s) j (ws ++ string_warning (item s) (span_of s)) es
    | Not ws => Not ws
    | Crash => Crash
    | Loop => Loop
    end.

  (** parsers.rs 1073-1078: [bool]. *)
  Definition p_bool : parser bool :=
    choice [pmap (fun _ => true) (just T_True); pmap (fun _ => false) (just T_False)].

  (** parsers.rs 639-650: [flag]; 631-636: [txn] ([Flag::default()] is the asterisk, types.rs 350). *)
  Definition p_flag : parser flag :=
    choice [sel (fun t => match t with T_Flag f => Some f | _ => None end);
            pmap (fun _ => F_Asterisk) (just T_Asterisk);
            pmap (fun _ => F_Hash) (just T_Hash)].
  (** parsers.rs 631-636. *)
  Definition p_txn : parser flag := choice [pmap (fun _ => F_Asterisk) (keyword_ K_Txn); p_flag].

  (** parsers.rs 402-408: [booking]. *)
  Definition p_booking : parser booking :=
    try_map (fun s => Fine match booking_try_from s with Some b => Ok b | None => Err tt end) p_string.

  (** ** Expressions *)

  (** parsers.rs 1097-1103: [parens] or [number], given the parser of expressions. *)
  Definition p_primary (p : parser expr) : parser expr :=
    alt (sel (fun t => match t with T_Number d => Some (E_Value d) | _ => None end))
        (pmap E_Paren (just T_Lparen ;; x <- p ;; just T_Rparen ;; ret x)).
  (** parsers.rs 1106-1115: [factor]. *)
  Definition p_factor (p : parser expr) : parser expr :=
    negated <- opt (choice [just T_Minus; just T_Plus]) ;;
    x <- p_primary p ;;
    ret (match negated with Some T_Minus => E_Neg x | _ => x end).
  (** parsers.rs 1118-1126: [product]. *)
  Definition p_product_rest (p : parser expr) : parser ((expr -> expr -> expr) * expr) :=
    op <- choice [pmap (fun _ => E_Mul) (just T_Asterisk); pmap (fun _ => E_Div) (just T_Slash)] ;;
    rhs <- p_factor p ;; ret (op, rhs).
  (** parsers.rs 1118-1126. *)
  Definition p_product (p : parser expr) : parser expr :=
    foldl toks (p_factor p) (p_product_rest p) (fun lhs x => fst x lhs (snd x)).
  (** parsers.rs 1129-1137. *)
  Definition p_sum_rest (p : parser expr) : parser ((expr -> expr -> expr) * expr) :=
    op <- choice [pmap (fun _ => E_Add) (just T_Plus); pmap (fun _ => E_Sub) (just T_Minus)] ;;
    rhs <- p_product p ;; ret (op, rhs).
  (** parsers.rs 1129-1137. *)
  Definition p_sum (p : parser expr) : parser expr :=
    foldl toks (p_product p) (p_sum_rest p) (fun lhs x => fst x lhs (snd x)).
  (** parsers.rs 1089-1139: [expr]; [n] bounds the depth of parentheses.  Each
      parenthesis takes a token. *)
  Fixpoint expr_n (n : nat) : parser expr :=
    match n with
    | O => fun _ => Loop
    | S n' => p_sum (expr_n n')
    end.
  (** parsers.rs 1089-1139. *)
  Definition p_expr : parser expr := fun i => expr_n (S (List.length toks - i)) i.

  (** parsers.rs 1081-1086: [expr_value]. *)
  Definition p_expr_value : parser expr_value := pmap_out (expr_value_from (g_ops E)) p_expr.

  (** ** Amounts *)

  (** parsers.rs 834-843: [amount]. *)
  Definition p_amount : parser amount :=
    number <- spn p_expr_value ;; currency <- spn p_currency ;; ret (mk_amount number currency).

  (** parsers.rs 845-865: [amount_with_tolerance]. *)
  Definition p_amount_with_tolerance : parser amount_tol :=
    choice
      [pmap (fun a => mk_amount_tol a None) (spn p_amount);
       map_span (in_source I) toks (in_len I)
         (fun '(number, tolerance, currency) s =>
            mk_amount_tol (mk_spanned (mk_amount number currency) s) (Some tolerance))
         (number <- spn p_expr_value ;; just T_Tilde ;; tolerance <- spn p_decimal ;;
          currency <- spn p_currency ;; ret (number, tolerance, currency))].

  (** parsers.rs 893-909: [compound_expr]. *)
  Definition p_compound_expr : parser compound_expr :=
    choice
      [per_unit <- p_expr_value ;; just T_Hash ;; total <- p_expr_value ;; ret (CE_Both per_unit total);
       per_unit <- p_expr_value ;; just T_Hash ;; ret (CE_PerUnit per_unit);
       pmap CE_PerUnit p_expr_value;
       just T_Hash ;; pmap CE_Total p_expr_value].

  (** parsers.rs 878-891: [compound_amount]. *)
  Definition p_compound_amount : parser compound_amount :=
    choice
      [a <- p_compound_expr ;; c <- p_currency ;; ret (CA_CurrencyAmount a c);
       pmap CA_Amount p_compound_expr;
       opt (just T_Hash) ;; pmap CA_Currency p_currency].

  (** parsers.rs 924-951: [price_annotation]. *)
  Definition scope (v : expr_value) (is_total : bool) : scoped_expr :=
    if is_total then SE_Total v else SE_PerUnit v.
  (** parsers.rs 940-951. *)
  Definition p_price_annotation : parser price_spec :=
    is_total <- choice [pmap (fun _ => false) (just T_At); pmap (fun _ => true) (just T_AtAt)] ;;
    a <- opt p_expr_value ;;
    c <- opt p_currency ;;
    ret (match a, c with
         | Some a, Some c => PS_CurrencyAmount (scope a is_total) c
         | Some a, None => PS_Amount (scope a is_total)
         | None, Some c => PS_Currency c
         | None, None => PS_Unspecified
         end).

  (** parsers.rs 1012-1024: [cost_comp]. *)
  Definition p_cost_comp : parser cost_comp :=
    choice [pmap CC_Amount p_compound_amount; pmap CC_Date p_date; pmap CC_Label p_string;
            pmap (fun _ => CC_Merge) (just T_Asterisk)].

  (** parsers.rs 955-999: [cost_spec]. *)
  Definition p_cost_spec : parser cost_spec :=
    try_map (fun comps => Fine (cost_of comps))
      (just T_Lcurl ;;
       comps <- opt (head <- spn p_cost_comp ;;
                     tail <- rep (just T_Comma ;; spn p_cost_comp) ;; ret (head, tail)) ;;
       just T_Rcurl ;; ret comps).

  (** ** Metadata *)

  (** parsers.rs 815-832: [simple_value]. *)
  Definition p_simple_value : parser simple_value :=
    choice
      [pmap SV_String p_string; pmap SV_Currency p_currency; pmap SV_Account p_account; pmap SV_Tag p_tag;
       pmap SV_Link p_link; pmap SV_Date p_date; pmap SV_Bool p_bool; pmap (fun _ => SV_Null) (just T_Null);
       pmap SV_Expr p_expr_value].

  (** parsers.rs 804-812: [meta_value]. *)
  Definition p_meta_value : parser meta_value :=
    choice [pmap MV_Amount p_amount; pmap MV_Simple p_simple_value].

  (** parsers.rs 770-781: [meta_key_value]. *)
  Definition p_meta_key_value : parser meta_key_value :=
    key <- spn p_key ;; just T_Colon ;;
    value <- spn (opt p_meta_value) ;;
    ret (mk_mkv key (mk_spanned (match item value with Some v => v | None => MV_Simple SV_Null end) (span_of value))).

  (** parsers.rs 784-801: [metadatum_line]. *)
  Definition p_metadatum_line : parser metadatum :=
    just T_Indent ;;
    x <- choice [pmap MD_KeyValue (spn p_meta_key_value); pmap MD_Tag (spn p_tag); pmap MD_Link (spn p_link)] ;;
    eol ;; ret x.

  (** parsers.rs 702-760: [metadata]. *)
  Definition p_metadata : parser metadata :=
    validate (fun l => fold_left collate l (empty_metadata, [])) (rep p_metadatum_line).

  (** parsers.rs 1028-1070: [tags_links]. *)
  Definition p_tags_links : parser (list (spanned str) * list (spanned str)) :=
    validate
      (fun l => fold_left (fun '(tags, links, es) x =>
         match x with
         | inl t => let (tags', es') := insert_once DuplicateTag (tags, es) t in (tags', links, es')
         | inr k => let (links', es') := insert_once DuplicateLink (links, es) k in (tags, links', es')
         end) l ([], [], []))
      (rep (choice [pmap inl (spn p_tag); pmap inr (spn p_link)])).

  (** parsers.rs 1234-1298: the metadata of a directive with the tags and the
      links of its first line merged in. *)
  Definition merged (md : spanned metadata) (tl : list (spanned str) * list (spanned str))
    : spanned metadata * list report :=
    let (tags, es) := fold_left (merge_once DuplicateTag) (g_order E (fst tl)) (md_tags (item md), []) in
    let (links, es') := fold_left (merge_once DuplicateLink) (g_order E (snd tl)) (md_links (item md), []) in
    (mk_spanned (mk_metadata (md_key_values (item md)) tags links) (span_of md), es ++ es').

  (** The [validate] closures which make the directives.
      (parsers.rs 259-267 and the like: tags and links merged, and the directive.) *)
  Definition make (x : spanned date * variant * (list (spanned str) * list (spanned str)) * spanned metadata)
    : directive * list report :=
    let '(date, v, tl, md) := x in
    let (md', es) := merged md tl in (mk_directive date md' v, es).

  (** ** Transactions *)

  (** parsers.rs 653-699: [posting]. *)
  Definition spanned_option {A} (x : spanned (option A)) : option (spanned A) :=
    match item x with Some a => Some (mk_spanned a (span_of x)) | None => None end.
  (** parsers.rs 653-699. *)
  Definition p_posting : parser (spanned posting) :=
    just T_Indent ;;
    x <- spn (flag <- opt (spn p_flag) ;;
              account <- spn p_account ;;
              amount <- opt (spn p_expr_value) ;;
              currency <- opt (spn p_currency) ;;
              cost <- pmap spanned_option (spn (opt p_cost_spec)) ;;
              price <- pmap spanned_option (spn (opt p_price_annotation)) ;;
              ret (mk_posting flag account amount currency cost price)) ;;
    eol ;;
    md <- spn p_metadata ;;
    ret (mk_spanned (item x md) (span_of x)).

  (** parsers.rs 231-242: [replace_some_empty_with_none]. *)
  Definition some_nonempty (s : option (spanned str)) : option (spanned str) :=
    match s with
    | Some x => match item x with [] => None | _ => s end
    | None => None
    end.

  (** parsers.rs 203-229: [transaction_header_line]. *)
  Definition p_transaction_header :
    parser (spanned date * spanned flag * (option (spanned str) * option (spanned str)) * (list (spanned str) * list (spanned str))) :=
    date <- spn p_date ;;
    flag <- spn p_txn ;;
    s1 <- opt (spn p_string) ;;
    s2 <- opt (spn p_string) ;;
    tl <- p_tags_links ;;
    eol ;;
    ret (date, flag,
         let '(payee, narration) := match s1, s2 with Some s, None => (None, Some s) | _, _ => (s1, s2) end in
         (some_nonempty payee, some_nonempty narration), tl).

  (** parsers.rs 165-193: [transaction]. *)
  Definition p_transaction : parser directive :=
    validate make
      (h <- p_transaction_header ;;
       md <- spn p_metadata ;;
       postings <- rep p_posting ;;
       ret (let '(date, flag, (payee, narration), tl) := h in
            (date, V_Transaction flag payee narration postings, tl, md))).

  (** ** The other directives *)

  (** The shape they share: date, keyword, fields, tags and links, end of
      line, metadata. (parsers.rs 249-268, 278-297 and the like: a directive but for its fields.) *)
  Definition p_line (k : keyword) (fields : parser variant) : parser directive :=
    validate make
      (date <- spn p_date ;; keyword_ k ;; v <- fields ;; tl <- p_tags_links ;; eol ;;
       md <- spn p_metadata ;; ret (date, v, tl, md)).

  (** parsers.rs 244-271: [price]. *)
  Definition p_price : parser directive :=
    p_line K_Price (c <- spn p_currency ;; a <- spn p_amount ;; ret (V_Price c a)).

  (** parsers.rs 273-300: [balance]. *)
  Definition p_balance : parser directive :=
    p_line K_Balance (a <- spn p_account ;; t <- spn p_amount_with_tolerance ;; ret (V_Balance a t)).

  (** parsers.rs 352-382: [currency_list]; the first is checked last. *)
  Definition p_currency_list : parser (list (spanned str)) :=
    pmap (fun o => match o with Some l => l | None => [] end)
      (opt (validate (fun '(first, l) => fold_left (insert_once DuplicateCurrency) (l ++ [first]) ([], []))
        (first <- spn p_currency ;; l <- rep (just T_Comma ;; spn p_currency) ;; ret (first, l)))).

  (** parsers.rs 302-350: [open] and [open_header_line]. *)
  Definition p_open : parser directive :=
    p_line K_Open (a <- spn p_account ;; cs <- p_currency_list ;; b <- opt (spn p_booking) ;; ret (V_Open a cs b)).

  (** parsers.rs 410-435: [close]. *)
  Definition p_close : parser directive := p_line K_Close (pmap V_Close (spn p_account)).

  (** parsers.rs 438-462: [commodity]. *)
  Definition p_commodity : parser directive := p_line K_Commodity (pmap V_Commodity (spn p_currency)).

  (** parsers.rs 465-490: [pad]. *)
  Definition p_pad : parser directive :=
    p_line K_Pad (a <- spn p_account ;; s <- spn p_account ;; ret (V_Pad a s)).

  (** parsers.rs 493-518: [document]. *)
  Definition p_document : parser directive :=
    p_line K_Document (a <- spn p_account ;; s <- spn p_string ;; ret (V_Document a s)).

  (** parsers.rs 521-546: [note]. *)
  Definition p_note : parser directive :=
    p_line K_Note (a <- spn p_account ;; s <- spn p_string ;; ret (V_Note a s)).

  (** parsers.rs 549-577: [event]. *)
  Definition p_event : parser directive :=
    p_line K_Event (a <- spn p_string ;; b <- spn p_string ;; ret (V_Event a b)).

  (** parsers.rs 580-605: [query]. *)
  Definition p_query : parser directive :=
    p_line K_Query (a <- spn p_string ;; b <- spn p_string ;; ret (V_Query a b)).

  (** parsers.rs 608-628: [custom]; it has no tags and links. *)
  Definition p_custom : parser directive :=
    date <- spn p_date ;; keyword_ K_Custom ;; type_ <- spn p_string ;; values <- rep (spn p_meta_value) ;;
    eol ;; md <- spn p_metadata ;; ret (mk_directive date md (V_Custom type_ values)).

  (** parsers.rs 65-87: [directive]. *)
  Definition p_directive : parser directive :=
    choice
      [p_transaction;
       choice [p_price; p_balance; p_open; p_close; p_commodity; p_pad; p_document; p_note; p_event; p_query; p_custom]].

  (** ** Pragmas, but for options *)

  (** parsers.rs 90-117: the alternatives of [pragma]. *)
  Definition p_pushtag : parser pragma := pmap P_Pushtag (spn (keyword_ K_Pushtag ;; p_tag)).
  (** parsers.rs 100-102. *)
  Definition p_poptag : parser pragma := pmap P_Poptag (spn (keyword_ K_Poptag ;; p_tag)).
  (** parsers.rs 103-105. *)
  Definition p_pushmeta : parser pragma := pmap P_Pushmeta (keyword_ K_Pushmeta ;; p_meta_key_value).
  (** parsers.rs 106-109. *)
  Definition p_popmeta : parser pragma :=
    pmap P_Popmeta (spn (keyword_ K_Popmeta ;; k <- p_key ;; just T_Colon ;; ret k)).
  (** parsers.rs 110-111. *)
  Definition p_include : parser pragma := pmap P_Include (keyword_ K_Include ;; spn p_string).
  (** parsers.rs 113-121. *)
  Definition p_plugin : parser pragma :=
    pmap P_Plugin (keyword_ K_Plugin ;; m <- spn p_string ;; c <- opt (spn p_string) ;; ret (mk_plugin m c)).

  (** parsers.rs 135-137: the tokens of [option]. *)
  Definition p_option_tokens : parser (spanned str * spanned str) :=
    keyword_ K_Option ;; n <- spn p_string ;; v <- spn p_string ;; ret (n, v).

  (** parsers.rs 24-38: [includes]. *)
  Definition p_includes : parser (list str) :=
    pmap (flat_map (fun o => match o with Some s => [s] | None => [] end))
      (rep (alt (keyword_ K_Include ;; pmap Some p_string) (sel (fun _ => Some None)))).
End Grammar.
