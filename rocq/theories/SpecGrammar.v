(** * Specification of the grammar

    What the tokens from position [i] up to position [j] say.  Of [Grammar]
    only the two records of arguments and the type [metadatum] are used.
    [names] are the names of the account types at this point. *)
From Coq Require Import String Ascii.
From Coq Require Import List NArith ZArith Arith Bool.
From Verif Require Import Base Types SpecTypes Decimal SpecDecimal Cost SpecCost Token Grammar.
Import ListNotations.
Local Open Scope nat_scope.

(** ** Repetitions

    Each item has a label (what the error for it would say) and a place;
    items whose label was seen before are repeated, the others are kept. *)
Section Dedup.
  Context {A : Type} (label : A -> problem) (place : A -> span).

  Inductive dedup : list problem -> list A -> list A -> list A -> Prop :=
  | dedup_nil seen : dedup seen [] [] []
  | dedup_new seen x l kept again : ~ In (label x) seen ->
      dedup (label x :: seen) l kept again -> dedup seen (x :: l) (x :: kept) again
  | dedup_old seen x l kept again : In (label x) seen ->
      dedup seen l kept again -> dedup seen (x :: l) kept (x :: again).

  (** The error for a repeated item. *)
  Definition repeated (x : A) : report := mk_report (label x) (place x) [].
End Dedup.

(** What [new] adds to [old], none of which is repeated in itself: the items
    not there yet; for the others there is an error at the place where the
    item already was. *)
Inductive merges (dup : str -> problem) (old new result : list (spanned str)) (es : list report) : Prop :=
| merges_ fresh again :
    dedup (fun x => dup (item x)) (map (fun x => dup (item x)) old) new fresh again ->
    result = old ++ fresh ->
    Forall2 (fun x e => exists y, In y old /\ item y = item x /\ e = mk_report (dup (item x)) (span_of y) []) again es ->
    merges dup old new result es.

Definition metadatum_label (m : metadatum) : problem :=
  match m with
  | MD_KeyValue kv => DuplicateKey (item (mkv_key (item kv)))
  | MD_Tag t => DuplicateTag (item t)
  | MD_Link l => DuplicateLink (item l)
  end.
Definition metadatum_place (m : metadatum) : span :=
  match m with
  | MD_KeyValue kv => span_of (mkv_key (item kv))
  | MD_Tag t => span_of t
  | MD_Link l => span_of l
  end.
Definition key_values_in (l : list metadatum) : list (spanned str * spanned meta_value) :=
  flat_map (fun m => match m with MD_KeyValue kv => [(mkv_key (item kv), mkv_value (item kv))] | _ => [] end) l.
Definition tags_in (l : list metadatum) : list (spanned str) :=
  flat_map (fun m => match m with MD_Tag t => [t] | _ => [] end) l.
Definition links_in (l : list metadatum) : list (spanned str) :=
  flat_map (fun m => match m with MD_Link t => [t] | _ => [] end) l.

(** Metadata made of single items, and the errors for the repeated ones. *)
Inductive collects (l : list metadatum) : metadata -> list report -> Prop :=
| collects_ kept again : dedup metadatum_label [] l kept again ->
    collects l (mk_metadata (key_values_in kept) (tags_in kept) (links_in kept))
      (map (repeated metadatum_label metadatum_place) again).

(** ** Sequences *)

(** No errors come with it. *)
Definition silent {A} (R : nat -> nat -> A -> Prop) (i j : nat) (a : A) (es : list report) : Prop :=
  R i j a /\ es = [].

(** One after the other, to nowhere in between. *)
Inductive star {A} (R : nat -> nat -> A -> list report -> Prop) : nat -> nat -> list A -> list report -> Prop :=
| star_nil i : star R i i [] []
| star_cons i j k a l es es' : R i j a es -> star R j k l es' -> star R i k (a :: l) (es ++ es').

(** It or nothing. *)
Inductive maybe {A} (R : nat -> nat -> A -> Prop) (i : nat) : nat -> option A -> Prop :=
| maybe_not : maybe R i i None
| maybe_so j a : R i j a -> maybe R i j (Some a).

(** A single string is the narration, of two the first is the payee; empty
    ones do not count. *)
Inductive unless_empty (s : spanned str) : option (spanned str) -> Prop :=
| is_empty : item s = [] -> unless_empty s None
| is_not_empty : item s <> [] -> unless_empty s (Some s).
Inductive titles : list (spanned str) -> option (spanned str) -> option (spanned str) -> Prop :=
| titles_none : titles [] None None
| titles_narration s n : unless_empty s n -> titles [s] None n
| titles_both s t p n : unless_empty s p -> unless_empty t n -> titles [s; t] p n.

Definition booking_name (b : booking) : str :=
  match b with
  | Strict => lit "STRICT"
  | StrictWithSize => lit "STRICT_WITH_SIZE"
  | NoBooking => lit "NONE"
  | Average => lit "AVERAGE"
  | Fifo => lit "FIFO"
  | Lifo => lit "LIFO"
  | Hifo => lit "HIFO"
  end.

(** The value an expression stands for (see [C20]). *)
Definition worth (ops : dec_ops) (v : expr_value) : Prop :=
  exists d s, computes ops (ev_expr v) d /\ max_places (ev_expr v) s /\ ev_value v = op_rescale ops d s.

Section Readings.
  Context (E : grammar_env) (I : input) (names : account_type -> str).

  Definition tok (i : nat) (t : token) : Prop := exists r, nth_error (in_tokens I) i = Some (t, r).
  Definition finished (i : nat) : Prop := nth_error (in_tokens I) i = None.

  (** The place of the tokens from [i] up to [j]: from the start of the first
      to the end of the last.  Where there is none: from the start of the
      token after it, to the end of the one before it, or the end of input. *)
  Definition text_from (i : nat) : nat :=
    match nth_error (in_tokens I) i with Some (_, (a, _)) => a | None => in_len I end.
  Definition text_upto (j : nat) : nat :=
    match j with
    | O => in_len I
    | S k => match nth_error (in_tokens I) k with Some (_, (_, b)) => b | None => in_len I end
    end.
  Definition text (i j : nat) : span := mk_span (in_source I) (text_from i) (text_upto j).
  Definition written {A} (R : nat -> nat -> A -> Prop) (i j : nat) (x : spanned A) : Prop :=
    R i j (item x) /\ span_of x = text i j.

  (** The end of a line. *)
  Inductive line_end : nat -> nat -> Prop :=
  | line_end_eol i : tok i T_Eol -> line_end i (S i)
  | line_end_input i : finished i -> line_end i i.

  (** ** Single tokens *)
  Inductive account_at (i : nat) : nat -> account -> Prop :=
  | account_ t ws : tok i (T_Account (join_colon (names t :: ws))) ->
      Forall (account_name_lang (g_unicode E)) ws ->
      account_at i (S i) (mk_account t (join_colon (names t :: ws))).
  Inductive currency_at (i : nat) : nat -> str -> Prop :=
  | currency_ s : tok i (T_Currency s) -> currency_lang s -> currency_at i (S i) s.
  Inductive tag_at (i : nat) : nat -> str -> Prop :=
  | tag_ s : tok i (T_Tag s) -> tag_link_lang (g_unicode E) s -> tag_at i (S i) s.
  Inductive link_at (i : nat) : nat -> str -> Prop :=
  | link_ s : tok i (T_Link s) -> tag_link_lang (g_unicode E) s -> link_at i (S i) s.
  Inductive key_at (i : nat) : nat -> str -> Prop :=
  | key_ s : tok i (T_Key s) -> key_lang (g_unicode E) s -> key_at i (S i) s.
  Inductive date_at (i : nat) : nat -> date -> Prop :=
  | date_ d : tok i (T_Date d) -> date_at i (S i) d.
  Inductive number_at (i : nat) : nat -> decimal -> Prop :=
  | number_ d : tok i (T_Number d) -> number_at i (S i) d.
  Inductive string_at (i : nat) : nat -> str -> Prop :=
  | string_ s : tok i (T_String s) -> string_at i (S i) s.
  Inductive booking_at (i : nat) : nat -> booking -> Prop :=
  | booking_ b : tok i (T_String (booking_name b)) -> booking_at i (S i) b.
  Inductive bool_at (i : nat) : nat -> bool -> Prop :=
  | bool_true : tok i T_True -> bool_at i (S i) true
  | bool_false : tok i T_False -> bool_at i (S i) false.
  Inductive flag_at (i : nat) : nat -> flag -> Prop :=
  | flag_ f : tok i (T_Flag f) -> flag_at i (S i) f
  | flag_asterisk : tok i T_Asterisk -> flag_at i (S i) F_Asterisk
  | flag_hash : tok i T_Hash -> flag_at i (S i) F_Hash.
  Inductive txn_at (i : nat) : nat -> flag -> Prop :=
  | txn_keyword : tok i (T_Keyword K_Txn) -> txn_at i (S i) F_Asterisk
  | txn_flag j f : flag_at i j f -> txn_at i j f.

  (** ** Expressions *)
  Inductive sum : nat -> nat -> expr -> Prop :=
  | sum_one i j e : product i j e -> sum i j e
  | sum_add i j k a b : sum i j a -> tok j T_Plus -> product (S j) k b -> sum i k (E_Add a b)
  | sum_sub i j k a b : sum i j a -> tok j T_Minus -> product (S j) k b -> sum i k (E_Sub a b)
  with product : nat -> nat -> expr -> Prop :=
  | product_one i j e : factor i j e -> product i j e
  | product_mul i j k a b : product i j a -> tok j T_Asterisk -> factor (S j) k b -> product i k (E_Mul a b)
  | product_div i j k a b : product i j a -> tok j T_Slash -> factor (S j) k b -> product i k (E_Div a b)
  with factor : nat -> nat -> expr -> Prop :=
  | factor_plain i j e : primary i j e -> factor i j e
  | factor_plus i j e : tok i T_Plus -> primary (S i) j e -> factor i j e
  | factor_minus i j e : tok i T_Minus -> primary (S i) j e -> factor i j (E_Neg e)
  with primary : nat -> nat -> expr -> Prop :=
  | primary_number i d : tok i (T_Number d) -> primary i (S i) (E_Value d)
  | primary_parens i j e : tok i T_Lparen -> sum (S i) j e -> tok j T_Rparen -> primary i (S j) (E_Paren e).

  Definition value_at (i j : nat) (v : expr_value) : Prop := sum i j (ev_expr v) /\ worth (g_ops E) v.

  (** Where an expression may start: not after an operator or an opening
      parenthesis, and not with a sign if a number or a closing parenthesis is
      before it.  There it would be a part of another one. *)
  Definition ends_expr (t : token) : Prop := t = T_Rparen \/ exists d, t = T_Number d.
  Definition may_start (i : nat) : Prop :=
    forall k t, i = S k -> tok k t ->
      ~ In t [T_Plus; T_Minus; T_Asterisk; T_Slash; T_Lparen] /\
      (ends_expr t -> ~ tok i T_Plus /\ ~ tok i T_Minus).

  (** ** Amounts *)
  Inductive amount_at (i k : nat) (a : amount) : Prop :=
  | amount_ j : written value_at i j (am_number a) -> written currency_at j k (am_currency a) -> amount_at i k a.

  Inductive amount_tol_at (i k : nat) : amount_tol -> Prop :=
  | amount_tol_without a : written amount_at i k a -> amount_tol_at i k (mk_amount_tol a None)
  | amount_tol_with n t c j m : written value_at i j n -> tok j T_Tilde -> written number_at (S j) m t ->
      written currency_at m k c ->
      amount_tol_at i k (mk_amount_tol (mk_spanned (mk_amount n c) (text i k)) (Some t)).

  Inductive compound_expr_at (i : nat) : nat -> compound_expr -> Prop :=
  | compound_both j k p t : value_at i j p -> tok j T_Hash -> value_at (S j) k t -> compound_expr_at i k (CE_Both p t)
  | compound_per_unit j p : value_at i j p -> compound_expr_at i j (CE_PerUnit p)
  | compound_per_unit_hash j p : value_at i j p -> tok j T_Hash -> compound_expr_at i (S j) (CE_PerUnit p)
  | compound_total j t : tok i T_Hash -> value_at (S i) j t -> compound_expr_at i j (CE_Total t).

  Inductive compound_amount_at (i : nat) : nat -> compound_amount -> Prop :=
  | compound_with_currency j k e c : compound_expr_at i j e -> currency_at j k c ->
      compound_amount_at i k (CA_CurrencyAmount e c)
  | compound_bare j e : compound_expr_at i j e -> compound_amount_at i j (CA_Amount e)
  | compound_currency j c : currency_at i j c -> compound_amount_at i j (CA_Currency c)
  | compound_hash_currency j c : tok i T_Hash -> currency_at (S i) j c -> compound_amount_at i j (CA_Currency c).

  (** '@' is per unit, '@@' is the total. *)
  Inductive price_sign (i : nat) : (expr_value -> scoped_expr) -> Prop :=
  | price_at_sign : tok i T_At -> price_sign i SE_PerUnit
  | price_at_at_sign : tok i T_AtAt -> price_sign i SE_Total.
  Inductive price_at (i : nat) : nat -> price_spec -> Prop :=
  | price_bare sc : price_sign i sc -> price_at i (S i) PS_Unspecified
  | price_amount sc j v : price_sign i sc -> value_at (S i) j v -> price_at i j (PS_Amount (sc v))
  | price_currency sc j c : price_sign i sc -> currency_at (S i) j c -> price_at i j (PS_Currency c)
  | price_both sc j k v c : price_sign i sc -> value_at (S i) j v -> currency_at j k c ->
      price_at i k (PS_CurrencyAmount (sc v) c).

  Inductive cost_comp_at (i : nat) : nat -> cost_comp -> Prop :=
  | comp_amount j a : compound_amount_at i j a -> cost_comp_at i j (CC_Amount a)
  | comp_date j d : date_at i j d -> cost_comp_at i j (CC_Date d)
  | comp_label j s : string_at i j s -> cost_comp_at i j (CC_Label s)
  | comp_merge : tok i T_Asterisk -> cost_comp_at i (S i) CC_Merge.
  (** At least one, with commas between them. *)
  Inductive separated {A} (R : nat -> nat -> A -> Prop) : nat -> nat -> list A -> Prop :=
  | separated_one i j x : R i j x -> separated R i j [x]
  | separated_more i j k x l : R i j x -> tok j T_Comma -> separated R (S j) k l -> separated R i k (x :: l).
  Inductive cost_at (i : nat) : nat -> cost_spec -> Prop :=
  | cost_empty c : tok i T_Lcurl -> tok (S i) T_Rcurl -> spells_cost [] c -> cost_at i (S (S i)) c
  | cost_ j l c : tok i T_Lcurl -> separated (written cost_comp_at) (S i) j l -> tok j T_Rcurl ->
      spells_cost l c -> cost_at i (S j) c.

  (** ** Metadata *)
  Inductive simple_value_at (i : nat) : nat -> simple_value -> Prop :=
  | simple_string j s : string_at i j s -> simple_value_at i j (SV_String s)
  | simple_currency j c : currency_at i j c -> simple_value_at i j (SV_Currency c)
  | simple_account j a : account_at i j a -> simple_value_at i j (SV_Account a)
  | simple_tag j t : tag_at i j t -> simple_value_at i j (SV_Tag t)
  | simple_link j l : link_at i j l -> simple_value_at i j (SV_Link l)
  | simple_date j d : date_at i j d -> simple_value_at i j (SV_Date d)
  | simple_bool j b : bool_at i j b -> simple_value_at i j (SV_Bool b)
  | simple_null : tok i T_Null -> simple_value_at i (S i) SV_Null
  | simple_expr j v : value_at i j v -> simple_value_at i j (SV_Expr v).
  Inductive meta_value_at (i j : nat) : meta_value -> Prop :=
  | meta_amount a : amount_at i j a -> meta_value_at i j (MV_Amount a)
  | meta_simple v : simple_value_at i j v -> meta_value_at i j (MV_Simple v).

  (** Nothing after the colon is [Null]. *)
  Inductive key_value_at (i : nat) : nat -> meta_key_value -> Prop :=
  | key_value_ j k key v : written key_at i j key -> tok j T_Colon -> written meta_value_at (S j) k v ->
      key_value_at i k (mk_mkv key v)
  | key_null j key : written key_at i j key -> tok j T_Colon ->
      key_value_at i (S j) (mk_mkv key (mk_spanned (MV_Simple SV_Null) (text (S j) (S j)))).

  Inductive mark_at (i j : nat) : metadatum -> Prop :=
  | mark_tag t : written tag_at i j t -> mark_at i j (MD_Tag t)
  | mark_link l : written link_at i j l -> mark_at i j (MD_Link l).
  Inductive metadatum_at (i j : nat) : metadatum -> Prop :=
  | metadatum_key_value kv : written key_value_at i j kv -> metadatum_at i j (MD_KeyValue kv)
  | metadatum_mark m : mark_at i j m -> metadatum_at i j m.
  Inductive metadata_line (i k : nat) (m : metadatum) : Prop :=
  | metadata_line_ j : tok i T_Indent -> metadatum_at (S i) j m -> line_end j k -> metadata_line i k m.
  Inductive metadata_at (i j : nat) (md : spanned metadata) (es : list report) : Prop :=
  | metadata_ l : star (silent metadata_line) i j l [] -> collects l (item md) es -> span_of md = text i j ->
      metadata_at i j md es.

  (** ** Postings *)
  Inductive posting_at (i : nat) : nat -> spanned posting -> list report -> Prop :=
  | posting_ a b c d e f g j flag account amount currency cost price md es :
      tok i T_Indent ->
      maybe (written flag_at) (S i) a flag ->
      written account_at a b account ->
      maybe (written value_at) b c amount ->
      maybe (written currency_at) c d currency ->
      maybe (written cost_at) d e cost ->
      maybe (written price_at) e f price ->
      line_end f g ->
      metadata_at g j md es ->
      posting_at i j (mk_spanned (mk_posting flag account amount currency cost price md) (text (S i) f)) es.

  (** ** Directives *)

  (** The order in which the hash set of the currencies is filled: the first
      one last. *)
  Inductive currencies_at (i : nat) : nat -> list (spanned str) -> list report -> Prop :=
  | currencies_none : currencies_at i i [] []
  | currencies_ j first rest kept again : separated (written currency_at) i j (first :: rest) ->
      dedup (fun x => DuplicateCurrency (item x)) [] (rest ++ [first]) kept again ->
      currencies_at i j kept (map (repeated (fun x => DuplicateCurrency (item x)) span_of) again).

  (** What comes between the keyword and the tags and links. *)
  Inductive fields_at (i : nat) : keyword -> nat -> variant -> list report -> Prop :=
  | fields_price j k c a : written currency_at i j c -> written amount_at j k a ->
      fields_at i K_Price k (V_Price c a) []
  | fields_balance j k a t : written account_at i j a -> written amount_tol_at j k t ->
      fields_at i K_Balance k (V_Balance a t) []
  | fields_open j k l a cs b es : written account_at i j a -> currencies_at j k cs es ->
      maybe (written booking_at) k l b -> fields_at i K_Open l (V_Open a cs b) es
  | fields_close j a : written account_at i j a -> fields_at i K_Close j (V_Close a) []
  | fields_commodity j c : written currency_at i j c -> fields_at i K_Commodity j (V_Commodity c) []
  | fields_pad j k a s : written account_at i j a -> written account_at j k s ->
      fields_at i K_Pad k (V_Pad a s) []
  | fields_document j k a s : written account_at i j a -> written string_at j k s ->
      fields_at i K_Document k (V_Document a s) []
  | fields_note j k a s : written account_at i j a -> written string_at j k s ->
      fields_at i K_Note k (V_Note a s) []
  | fields_event j k a s : written string_at i j a -> written string_at j k s ->
      fields_at i K_Event k (V_Event a s) []
  | fields_query j k a s : written string_at i j a -> written string_at j k s ->
      fields_at i K_Query k (V_Query a s) [].

  (** The metadata with the tags and the links of the first line; the order of
      hash sets is unknown. *)
  Inductive joined (md : spanned metadata) (marks : list metadatum) : spanned metadata -> list report -> list report -> Prop :=
  | joined_ kept again tags links es es' :
      dedup metadatum_label [] marks kept again ->
      merges DuplicateTag (md_tags (item md)) (g_order E (tags_in kept)) tags es ->
      merges DuplicateLink (md_links (item md)) (g_order E (links_in kept)) links es' ->
      joined md marks (mk_spanned (mk_metadata (md_key_values (item md)) tags links) (span_of md))
        (map (repeated metadatum_label metadatum_place) again) (es ++ es').

  (** Each value of a custom directive is the longest one. *)
  Definition longest {A} (R : nat -> nat -> A -> Prop) (i j : nat) (a : A) : Prop :=
    R i j a /\ forall k b, R i k b -> k <= j.

  Inductive directive_at (i : nat) : nat -> directive -> list report -> Prop :=
  | directive_transaction a b c d e f j date flag strings payee narration marks md md' postings es1 es2 es3 es4 :
      written date_at i a date ->
      written txn_at a b flag ->
      star (silent (written string_at)) b c strings [] ->
      titles strings payee narration ->
      star (silent mark_at) c d marks [] ->
      line_end d e ->
      metadata_at e f md es2 ->
      star posting_at f j postings es3 ->
      joined md marks md' es1 es4 ->
      directive_at i j (mk_directive date md' (V_Transaction flag payee narration postings)) (es1 ++ es2 ++ es3 ++ es4)
  | directive_line a b c d j k date v marks md md' es1 es2 es3 es4 :
      written date_at i a date ->
      tok a (T_Keyword k) ->
      fields_at (S a) k b v es1 ->
      star (silent mark_at) b c marks [] ->
      line_end c d ->
      metadata_at d j md es3 ->
      joined md marks md' es2 es4 ->
      directive_at i j (mk_directive date md' v) (es1 ++ es2 ++ es3 ++ es4)
  | directive_custom a b c d j date type_ values md es :
      written date_at i a date ->
      tok a (T_Keyword K_Custom) ->
      written string_at (S a) b type_ ->
      star (silent (longest (written meta_value_at))) b c values [] ->
      line_end c d ->
      metadata_at d j md es ->
      directive_at i j (mk_directive date md (V_Custom type_ values)) es.
End Readings.

(** ** Warnings *)

Definition lines_of (s : str) : N := N.of_nat (S (count_occ N.eq_dec s 10%N)).

(** The warning for each string from [i] up to [j] with more lines than
    allowed.  [limit] is the number allowed and where that is said, if it is. *)
Definition allowed (limit : option (N * span)) : N := match limit with Some (n, _) => n | None => 64%N end.
Definition too_long (limit : option (N * span)) (lines : N) (where_ : span) : report :=
  mk_report (StringTooLong (match limit with Some _ => false | None => true end) (allowed limit) lines) where_
    (match limit with Some (_, p) => [p] | None => [] end).
Definition long_strings (limit : option (N * span)) (I : input) (i j : nat) : list report :=
  flat_map (fun k =>
    match nth_error (in_tokens I) k with
    | Some (T_String s, (a, b)) =>
        if (lines_of s <=? allowed limit)%N then [] else [too_long limit (lines_of s) (mk_span (in_source I) a b)]
    | _ => []
    end) (seq i (j - i)).
