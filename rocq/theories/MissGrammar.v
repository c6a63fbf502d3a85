(** * MissGrammar: the grammar, with what failing parsers say (src/parsers.rs)

    These are the definitions of [Grammar] once more, over the combinators of
    [Miss].  That the results are the same is proved in [MissErased]. *)
From Coq Require Import String Ascii.
From Coq Require Import List NArith ZArith Arith Bool.
From Verif Require Import Base Types Options Decimal Cost Token Peg Grammar Messages Miss.
Import ListNotations.
Local Open Scope nat_scope.

(** [strum::ParseError::VariantNotFound], for parsers.rs 407 and types.rs 428-442. *)
Definition display_booking_error (_ : unit) : str := lit "Matching variant not found".

Section Grammar.
  Context (E : grammar_env) (I : input) (po : parser_options).
  Let toks := in_tokens I.

  (** chumsky: [select_ref!], as at parsers.rs 1146. *)
  Definition msel {A} (f : token -> option A) : mparser A := mselect (in_source I) toks (in_len I) f.
  (** chumsky: [just], as at parsers.rs 97. *)
  Definition mjust (t : token) : mparser token := msel (fun x => if token_eq_dec x t then Some x else None).
  (** chumsky: [just] of a keyword, as at parsers.rs 251. *)
  Definition mkeyword (k : keyword) : mparser token := mjust (T_Keyword k).
  (** chumsky: [repeated().collect()], as at parsers.rs 172. *)
  Definition mrep {A} (p : mparser A) : mparser (list A) := mmany toks p.
  (** chumsky: [map_with(spanned_extra)], types.rs 564-574, as at parsers.rs 208. *)
  Definition mspn {A} (p : mparser A) : mparser (spanned A) := msp (in_source I) toks (in_len I) p.

  (** chumsky: [try_map] with [Rich::custom], as at parsers.rs 1147. *)
  Definition mtry {A B X} (show : X -> str) (f : A -> outcome (result B X)) (p : mparser A) : mparser B :=
    mtry_map (in_source I) toks (in_len I) show f p.

  (** [choice((just(Token::Eol).ignored(), end()))].
      (parsers.rs 123, 228, 256, 797: [choice((just(Token::Eol).ignored(), end()))].) *)
  Definition meol : mparser unit := mchoice [mmap (fun _ => tt) (mjust T_Eol); mat_end (in_source I) toks (in_len I)].

  (** ** Leaves *)

  (** parsers.rs 384-400: [account]. *)
  Definition q_account : mparser account :=
    mtry (display_account_error (po_names po)) (fun s => Fine (account_new (g_unicode E) s (po_names po)))
      (msel (fun t => match t with T_Account s => Some s | _ => None end)).

  (** parsers.rs 1142-1194: [tag], [link], [key], [currency], [date], [decimal]. *)
  Definition q_tag : mparser str :=
    mtry display_tag_link_error (fun s => Fine (tag_link_try_from (g_unicode E) s)) (msel (fun t => match t with T_Tag s => Some s | _ => None end)).
  (** parsers.rs 1151-1157. *)
  Definition q_link : mparser str :=
    mtry display_tag_link_error (fun s => Fine (tag_link_try_from (g_unicode E) s)) (msel (fun t => match t with T_Link s => Some s | _ => None end)).
  (** parsers.rs 1162-1169. *)
  Definition q_key : mparser str :=
    mtry display_key_error (fun s => Fine (key_try_from (g_unicode E) s)) (msel (fun t => match t with T_Key s => Some s | _ => None end)).
  (** parsers.rs 1172-1178. *)
  Definition q_currency : mparser str :=
    mtry display_currency_error currency_try_from (msel (fun t => match t with T_Currency s => Some s | _ => None end)).
  (** parsers.rs 1181-1186. *)
  Definition q_date : mparser date := msel (fun t => match t with T_Date d => Some d | _ => None end).
  (** parsers.rs 1189-1194. *)
  Definition q_decimal : mparser decimal := msel (fun t => match t with T_Number d => Some d | _ => None end).

  (** parsers.rs 1197-1232: [string]. *)
  Definition q_string : mparser str := fun i =>
    let (r, m) := mspn (msel (fun t => match t with T_String s => Some s | _ => None end)) i in
    (match r with
     | Got s j ws es => Got (item s) j (ws ++ string_warning po (item s) (span_of s)) es
     | Not ws => Not ws
     | Crash => Crash
     | Loop => Loop
     end, m).

  (** parsers.rs 1073-1078: [bool]. *)
  Definition q_bool : mparser bool :=
    mchoice [mmap (fun _ => true) (mjust T_True); mmap (fun _ => false) (mjust T_False)].

  (** parsers.rs 639-650: [flag]; 631-636: [txn] ([Flag::default()] is the asterisk, types.rs 350). *)
  Definition q_flag : mparser flag :=
    mchoice [msel (fun t => match t with T_Flag f => Some f | _ => None end);
            mmap (fun _ => F_Asterisk) (mjust T_Asterisk);
            mmap (fun _ => F_Hash) (mjust T_Hash)].
  (** parsers.rs 631-636. *)
  Definition q_txn : mparser flag := mchoice [mmap (fun _ => F_Asterisk) (mkeyword K_Txn); q_flag].

  (** parsers.rs 402-408: [booking]. *)
  Definition q_booking : mparser booking :=
    mtry display_booking_error (fun s => Fine match booking_try_from s with Some b => Ok b | None => Err tt end) q_string.

  (** ** Expressions *)

  (** parsers.rs 1097-1103: [parens] or [number], given the parser of expressions. *)
  Definition q_primary (p : mparser expr) : mparser expr :=
    malt (msel (fun t => match t with T_Number d => Some (E_Value d) | _ => None end))
        (mmap E_Paren (mjust T_Lparen ;;; x <-- p ;;; mjust T_Rparen ;;; mret x)).
  (** parsers.rs 1106-1115: [factor]. *)
  Definition q_factor (p : mparser expr) : mparser expr :=
    negated <-- mopt (mchoice [mjust T_Minus; mjust T_Plus]) ;;;
    x <-- q_primary p ;;;
    mret (match negated with Some T_Minus => E_Neg x | _ => x end).
  (** parsers.rs 1118-1126: [product]. *)
  Definition q_product_rest (p : mparser expr) : mparser ((expr -> expr -> expr) * expr) :=
    op <-- mchoice [mmap (fun _ => E_Mul) (mjust T_Asterisk); mmap (fun _ => E_Div) (mjust T_Slash)] ;;;
    rhs <-- q_factor p ;;; mret (op, rhs).
  (** parsers.rs 1118-1126. *)
  Definition q_product (p : mparser expr) : mparser expr :=
    mfoldl toks (q_factor p) (q_product_rest p) (fun lhs x => fst x lhs (snd x)).
  (** parsers.rs 1129-1137. *)
  Definition q_sum_rest (p : mparser expr) : mparser ((expr -> expr -> expr) * expr) :=
    op <-- mchoice [mmap (fun _ => E_Add) (mjust T_Plus); mmap (fun _ => E_Sub) (mjust T_Minus)] ;;;
    rhs <-- q_product p ;;; mret (op, rhs).
  (** parsers.rs 1129-1137. *)
  Definition q_sum (p : mparser expr) : mparser expr :=
    mfoldl toks (q_product p) (q_sum_rest p) (fun lhs x => fst x lhs (snd x)).
  (** parsers.rs 1089-1139: [expr]; [n] bounds the depth of parentheses.  Each
      parenthesis takes a token. *)
  Fixpoint mexpr_n (n : nat) : mparser expr :=
    match n with
    | O => fun _ => (Loop, None)
    | S n' => q_sum (mexpr_n n')
    end.
  (** parsers.rs 1089-1139. *)
  Definition q_expr : mparser expr := fun i => mexpr_n (S (List.length toks - i)) i.

  (** parsers.rs 1081-1086: [expr_value]. *)
  Definition q_expr_value : mparser expr_value := mmap_out (expr_value_from (g_ops E)) q_expr.

  (** ** Amounts *)

  (** parsers.rs 834-843: [amount]. *)
  Definition q_amount : mparser amount :=
    number <-- mspn q_expr_value ;;; currency <-- mspn q_currency ;;; mret (mk_amount number currency).

  (** parsers.rs 845-865: [amount_with_tolerance]. *)
  Definition q_amount_with_tolerance : mparser amount_tol :=
    mchoice
      [mmap (fun a => mk_amount_tol a None) (mspn q_amount);
       mmap_span (in_source I) toks (in_len I)
         (fun '(number, tolerance, currency) s =>
            mk_amount_tol (mk_spanned (mk_amount number currency) s) (Some tolerance))
         (number <-- mspn q_expr_value ;;; mjust T_Tilde ;;; tolerance <-- mspn q_decimal ;;;
          currency <-- mspn q_currency ;;; mret (number, tolerance, currency))].

  (** parsers.rs 893-909: [compound_expr]. *)
  Definition q_compound_expr : mparser compound_expr :=
    mchoice
      [per_unit <-- q_expr_value ;;; mjust T_Hash ;;; total <-- q_expr_value ;;; mret (CE_Both per_unit total);
       per_unit <-- q_expr_value ;;; mjust T_Hash ;;; mret (CE_PerUnit per_unit);
       mmap CE_PerUnit q_expr_value;
       mjust T_Hash ;;; mmap CE_Total q_expr_value].

  (** parsers.rs 878-891: [compound_amount]. *)
  Definition q_compound_amount : mparser compound_amount :=
    mchoice
      [a <-- q_compound_expr ;;; c <-- q_currency ;;; mret (CA_CurrencyAmount a c);
       mmap CA_Amount q_compound_expr;
       mopt (mjust T_Hash) ;;; mmap CA_Currency q_currency].

  (** parsers.rs 924-951: [price_annotation]. *)
  Definition q_price_annotation : mparser price_spec :=
    is_total <-- mchoice [mmap (fun _ => false) (mjust T_At); mmap (fun _ => true) (mjust T_AtAt)] ;;;
    a <-- mopt q_expr_value ;;;
    c <-- mopt q_currency ;;;
    mret (match a, c with
         | Some a, Some c => PS_CurrencyAmount (scope a is_total) c
         | Some a, None => PS_Amount (scope a is_total)
         | None, Some c => PS_Currency c
         | None, None => PS_Unspecified
         end).

  (** parsers.rs 1012-1024: [cost_comp]. *)
  Definition q_cost_comp : mparser cost_comp :=
    mchoice [mmap CC_Amount q_compound_amount; mmap CC_Date q_date; mmap CC_Label q_string;
            mmap (fun _ => CC_Merge) (mjust T_Asterisk)].

  (** parsers.rs 955-999: [cost_spec]. *)
  Definition q_cost_spec : mparser cost_spec :=
    mtry display_cost_errors (fun comps => Fine (cost_of comps))
      (mjust T_Lcurl ;;;
       comps <-- mopt (head <-- mspn q_cost_comp ;;;
                     tail <-- mrep (mjust T_Comma ;;; mspn q_cost_comp) ;;; mret (head, tail)) ;;;
       mjust T_Rcurl ;;; mret comps).

  (** ** Metadata *)

  (** parsers.rs 815-832: [simple_value]. *)
  Definition q_simple_value : mparser simple_value :=
    mchoice
      [mmap SV_String q_string; mmap SV_Currency q_currency; mmap SV_Account q_account; mmap SV_Tag q_tag;
       mmap SV_Link q_link; mmap SV_Date q_date; mmap SV_Bool q_bool; mmap (fun _ => SV_Null) (mjust T_Null);
       mmap SV_Expr q_expr_value].

  (** parsers.rs 804-812: [meta_value]. *)
  Definition q_meta_value : mparser meta_value :=
    mchoice [mmap MV_Amount q_amount; mmap MV_Simple q_simple_value].

  (** parsers.rs 770-781: [meta_key_value]. *)
  Definition q_meta_key_value : mparser meta_key_value :=
    key <-- mspn q_key ;;; mjust T_Colon ;;;
    value <-- mspn (mopt q_meta_value) ;;;
    mret (mk_mkv key (mk_spanned (match item value with Some v => v | None => MV_Simple SV_Null end) (span_of value))).

  (** parsers.rs 784-801: [metadatum_line]. *)
  Definition q_metadatum_line : mparser metadatum :=
    mjust T_Indent ;;;
    x <-- mchoice [mmap MD_KeyValue (mspn q_meta_key_value); mmap MD_Tag (mspn q_tag); mmap MD_Link (mspn q_link)] ;;;
    meol ;;; mret x.

  (** parsers.rs 702-760: [metadata]. *)
  Definition q_metadata : mparser metadata :=
    mvalidate (fun l => fold_left collate l (empty_metadata, [])) (mrep q_metadatum_line).

  (** parsers.rs 1028-1070: [tags_links]. *)
  Definition q_tags_links : mparser (list (spanned str) * list (spanned str)) :=
    mvalidate
      (fun l => fold_left (fun '(tags, links, es) x =>
         match x with
         | inl t => let (tags', es') := insert_once DuplicateTag (tags, es) t in (tags', links, es')
         | inr k => let (links', es') := insert_once DuplicateLink (links, es) k in (tags, links', es')
         end) l ([], [], []))
      (mrep (mchoice [mmap inl (mspn q_tag); mmap inr (mspn q_link)])).

  (** ** Transactions *)

  (** parsers.rs 653-699: [posting]. *)
  Definition q_posting : mparser (spanned posting) :=
    mjust T_Indent ;;;
    x <-- mspn (flag <-- mopt (mspn q_flag) ;;;
              account <-- mspn q_account ;;;
              amount <-- mopt (mspn q_expr_value) ;;;
              currency <-- mopt (mspn q_currency) ;;;
              cost <-- mmap spanned_option (mspn (mopt q_cost_spec)) ;;;
              price <-- mmap spanned_option (mspn (mopt q_price_annotation)) ;;;
              mret (mk_posting flag account amount currency cost price)) ;;;
    meol ;;;
    md <-- mspn q_metadata ;;;
    mret (mk_spanned (item x md) (span_of x)).

  (** parsers.rs 203-229: [transaction_header_line]. *)
  Definition q_transaction_header :
    mparser (spanned date * spanned flag * (option (spanned str) * option (spanned str)) * (list (spanned str) * list (spanned str))) :=
    date <-- mspn q_date ;;;
    flag <-- mspn q_txn ;;;
    s1 <-- mopt (mspn q_string) ;;;
    s2 <-- mopt (mspn q_string) ;;;
    tl <-- q_tags_links ;;;
    meol ;;;
    mret (date, flag,
         let '(payee, narration) := match s1, s2 with Some s, None => (None, Some s) | _, _ => (s1, s2) end in
         (some_nonempty payee, some_nonempty narration), tl).

  (** parsers.rs 165-193: [transaction]. *)
  Definition q_transaction : mparser directive :=
    mvalidate (make E)
      (h <-- q_transaction_header ;;;
       md <-- mspn q_metadata ;;;
       postings <-- mrep q_posting ;;;
       mret (let '(date, flag, (payee, narration), tl) := h in
            (date, V_Transaction flag payee narration postings, tl, md))).

  (** ** The other directives *)

  (** The shape they share: date, keyword, fields, tags and links, end of
      line, metadata. (parsers.rs 249-268, 278-297 and the like: a directive but for its fields.) *)
  Definition q_line (k : keyword) (fields : mparser variant) : mparser directive :=
    mvalidate (make E)
      (date <-- mspn q_date ;;; mkeyword k ;;; v <-- fields ;;; tl <-- q_tags_links ;;; meol ;;;
       md <-- mspn q_metadata ;;; mret (date, v, tl, md)).

  (** parsers.rs 244-271: [price]. *)
  Definition q_price : mparser directive :=
    q_line K_Price (c <-- mspn q_currency ;;; a <-- mspn q_amount ;;; mret (V_Price c a)).

  (** parsers.rs 273-300: [balance]. *)
  Definition q_balance : mparser directive :=
    q_line K_Balance (a <-- mspn q_account ;;; t <-- mspn q_amount_with_tolerance ;;; mret (V_Balance a t)).

  (** parsers.rs 352-382: [currency_list]; the first is checked last. *)
  Definition q_currency_list : mparser (list (spanned str)) :=
    mmap (fun o => match o with Some l => l | None => [] end)
      (mopt (mvalidate (fun '(first, l) => fold_left (insert_once DuplicateCurrency) (l ++ [first]) ([], []))
        (first <-- mspn q_currency ;;; l <-- mrep (mjust T_Comma ;;; mspn q_currency) ;;; mret (first, l)))).

  (** parsers.rs 302-350: [open] and [open_header_line]. *)
  Definition q_open : mparser directive :=
    q_line K_Open (a <-- mspn q_account ;;; cs <-- q_currency_list ;;; b <-- mopt (mspn q_booking) ;;; mret (V_Open a cs b)).

  (** parsers.rs 410-435: [close]. *)
  Definition q_close : mparser directive := q_line K_Close (mmap V_Close (mspn q_account)).

  (** parsers.rs 438-462: [commodity]. *)
  Definition q_commodity : mparser directive := q_line K_Commodity (mmap V_Commodity (mspn q_currency)).

  (** parsers.rs 465-490: [pad]. *)
  Definition q_pad : mparser directive :=
    q_line K_Pad (a <-- mspn q_account ;;; s <-- mspn q_account ;;; mret (V_Pad a s)).

  (** parsers.rs 493-518: [document]. *)
  Definition q_document : mparser directive :=
    q_line K_Document (a <-- mspn q_account ;;; s <-- mspn q_string ;;; mret (V_Document a s)).

  (** parsers.rs 521-546: [note]. *)
  Definition q_note : mparser directive :=
    q_line K_Note (a <-- mspn q_account ;;; s <-- mspn q_string ;;; mret (V_Note a s)).

  (** parsers.rs 549-577: [event]. *)
  Definition q_event : mparser directive :=
    q_line K_Event (a <-- mspn q_string ;;; b <-- mspn q_string ;;; mret (V_Event a b)).

  (** parsers.rs 580-605: [query]. *)
  Definition q_query : mparser directive :=
    q_line K_Query (a <-- mspn q_string ;;; b <-- mspn q_string ;;; mret (V_Query a b)).

  (** parsers.rs 608-628: [custom]; it has no tags and links. *)
  Definition q_custom : mparser directive :=
    date <-- mspn q_date ;;; mkeyword K_Custom ;;; type_ <-- mspn q_string ;;; values <-- mrep (mspn q_meta_value) ;;;
    meol ;;; md <-- mspn q_metadata ;;; mret (mk_directive date md (V_Custom type_ values)).

  (** parsers.rs 65-87: [directive]. *)
  Definition q_directive : mparser directive :=
    mchoice
      [q_transaction;
       mchoice [q_price; q_balance; q_open; q_close; q_commodity; q_pad; q_document; q_note; q_event; q_query; q_custom]].

  (** ** Pragmas, but for options *)

  (** parsers.rs 90-117: the alternatives of [pragma]. *)
  Definition q_pushtag : mparser pragma := mmap P_Pushtag (mspn (mkeyword K_Pushtag ;;; q_tag)).
  (** parsers.rs 100-102. *)
  Definition q_poptag : mparser pragma := mmap P_Poptag (mspn (mkeyword K_Poptag ;;; q_tag)).
  (** parsers.rs 103-105. *)
  Definition q_pushmeta : mparser pragma := mmap P_Pushmeta (mkeyword K_Pushmeta ;;; q_meta_key_value).
  (** parsers.rs 106-109. *)
  Definition q_popmeta : mparser pragma :=
    mmap P_Popmeta (mspn (mkeyword K_Popmeta ;;; k <-- q_key ;;; mjust T_Colon ;;; mret k)).
  (** parsers.rs 110-111. *)
  Definition q_include : mparser pragma := mmap P_Include (mkeyword K_Include ;;; mspn q_string).
  (** parsers.rs 113-121. *)
  Definition q_plugin : mparser pragma :=
    mmap P_Plugin (mkeyword K_Plugin ;;; m <-- mspn q_string ;;; c <-- mopt (mspn q_string) ;;; mret (mk_plugin m c)).

  (** parsers.rs 135-137: the tokens of [option]. *)
  Definition q_option_tokens : mparser (spanned str * spanned str) :=
    mkeyword K_Option ;;; n <-- mspn q_string ;;; v <-- mspn q_string ;;; mret (n, v).

End Grammar.
