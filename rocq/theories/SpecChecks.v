(** * Specification of the example programs *)
From Coq Require Import String Ascii.
From Coq Require Import List NArith ZArith QArith Arith Bool Permutation.
From Verif Require Import Base Types Decimal SpecDecimal SortM SpecSort Report.
Import ListNotations.
Local Open Scope nat_scope.

(** [says k what sp reason ctx rel n]: [n] is an error or a warning, as [k]
    says, about the element [what] at [sp], in the contexts [ctx] and related
    to [rel]. *)
Record says (k : kind) (what : str) (sp : span) (reason : str) (ctx rel : list (str * span)) (n : notice) : Prop := {
  sa_kind : nt_kind n = k;
  sa_message : nt_message n = match k with K_Error => lit "invalid " | K_Warning => lit "questionable " end ++ what;
  sa_span : nt_span n = sp;
  sa_reason : nt_reason n = reason;
  sa_contexts : contexts n = ctx;
  sa_related : related n = rel
}.

(** ** Amounts *)

Definition has_amount (p : spanned posting) : Prop := exists a, po_amount (item p) = Some a.
(** [as_] are the amounts of the postings, which all have one. *)
Definition all_amounts (ps : list (spanned posting)) (as_ : list (spanned expr_value)) : Prop :=
  Forall2 (fun p a => po_amount (item p) = Some a) ps as_.
(** [l] are those without an amount, in some order. *)
Definition lacking (ps l : list (spanned posting)) : Prop :=
  exists given, Permutation ps (given ++ l) /\ Forall has_amount given /\ Forall (fun p => po_amount (item p) = None) l.

(** What the amounts add up to, exactly. *)
Fixpoint exact_sum (l : list (spanned expr_value)) : Q :=
  match l with [] => 0%Q | a :: l' => (dec_value (ev_value (item a)) + exact_sum l')%Q end.
(** No sum of some of them is too large or too precise. *)
Definition sums_fit (l : list (spanned expr_value)) : Prop :=
  Forall (fun a => dec_valid (ev_value (item a))) l /\
  forall some rest, Permutation l (some ++ rest) -> representable (exact_sum some).

(** What is documented of [itertools::partition]: those with an amount are
    placed before those without, and counted. *)
Definition partitions (partition : list (spanned posting) -> list (spanned posting) * nat) : Prop :=
  forall ps, exists given lack, partition ps = (given ++ lack, List.length given) /\ Permutation ps (given ++ lack) /\
    Forall has_amount given /\ Forall (fun p => po_amount (item p) = None) lack.

Definition type_of_directive (v : variant) : str :=
  match v with
  | V_Transaction _ _ _ _ => lit "transaction" | V_Price _ _ => lit "price" | V_Balance _ _ => lit "balance"
  | V_Open _ _ _ => lit "open" | V_Close _ => lit "close" | V_Commodity _ => lit "commodity" | V_Pad _ _ => lit "pad"
  | V_Document _ _ => lit "document" | V_Note _ _ => lit "note" | V_Event _ _ => lit "event" | V_Query _ _ => lit "query"
  | V_Custom _ _ => lit "custom"
  end.
Definition the_directive (d : spanned directive) : str * span := (type_of_directive (dir_variant (item d)), span_of d).
Definition the_posting (p : spanned posting) : str * span := (lit "posting", span_of p).
Definition the_amount (a : spanned expr_value) : str * span := (lit "amount", span_of a).
Definition the_account (a : spanned account) : str * span := (lit "account", span_of a).
Definition saying (k : kind) (e : str * span) := says k (fst e) (snd e).

Definition is_transaction (d : spanned directive) (ps : list (spanned posting)) : Prop :=
  exists fl payee narration, dir_variant (item d) = V_Transaction fl payee narration ps.

(** The error for amounts which do not add up to zero: it is at one of them,
    related to the others, and tells the sum. *)
Definition tells_sum (show : decimal -> str) (d : spanned directive) (last_ : spanned expr_value) (others : list (spanned expr_value)) (n : notice) : Prop :=
  exists total, (dec_value total == exact_sum (others ++ [last_]))%Q /\
    saying K_Error (the_amount last_) (lit "sum is " ++ show total ++ lit ", expected zero") [the_directive d] (map the_amount others) n.

(** What check-postings-balance.rs has to say about a directive: errors, and
    warnings. *)
Inductive balance_verdict (show : decimal -> str) (d : spanned directive) : list notice -> list notice -> Prop :=
| bv_other : (forall ps, ~ is_transaction d ps) -> balance_verdict show d [] []
| bv_empty n : is_transaction d [] -> saying K_Warning (the_directive d) (lit "no postings") [] [] n ->
    balance_verdict show d [] [n]
| bv_many ps l n : is_transaction d ps -> lacking ps l -> 2 <= List.length l ->
    saying K_Error (the_directive d) (lit "multiple postings without amount specified") [] (map the_posting l) n ->
    balance_verdict show d [n] []
| bv_inferred ps p : is_transaction d ps -> lacking ps [p] -> balance_verdict show d [] []
| bv_balanced ps as_ : is_transaction d ps -> ps <> [] -> all_amounts ps as_ -> (exact_sum as_ == 0)%Q -> balance_verdict show d [] []
| bv_unbalanced ps as_ last_ others n : is_transaction d ps -> all_amounts ps as_ -> ~ (exact_sum as_ == 0)%Q ->
    Permutation as_ (others ++ [last_]) -> tells_sum show d last_ others n ->
    balance_verdict show d [n] [].

(** ** Accounts *)

Definition opens (k : str) (d : spanned directive) : Prop :=
  exists a cs b, dir_variant (item d) = V_Open a cs b /\ acc_name (item a) = k.
Definition closes (k : str) (d : spanned directive) : Prop :=
  exists a, dir_variant (item d) = V_Close a /\ acc_name (item a) = k.

(** Among the directives [l]: *)
Definition never_opened (k : str) (l : list (spanned directive)) : Prop := forall d, In d l -> ~ opens k d.
(** [o] is the first to open [k]; *)
Definition opened_by (k : str) (l : list (spanned directive)) (o : spanned directive) : Prop :=
  exists a b, l = a ++ o :: b /\ opens k o /\ never_opened k a.
(** [c] is the first to close [k] after it has been opened. *)
Definition closed_by (k : str) (l : list (spanned directive)) (c : spanned directive) : Prop :=
  exists a b, l = a ++ c :: b /\ closes k c /\ (exists o, In o a /\ opens k o) /\
    forall x y z, a = x ++ y :: z -> closes k y -> never_opened k x.

Inductive status (k : str) (l : list (spanned directive)) : option (spanned directive * option (spanned directive)) -> Prop :=
| is_unknown : never_opened k l -> status k l None
| is_open o : opened_by k l o -> (forall c, ~ closed_by k l c) -> status k l (Some (o, None))
| is_closed o c : opened_by k l o -> closed_by k l c -> status k l (Some (o, Some c)).

(** What check.rs has to say about a posting to an account. *)
Inductive posting_verdict (before : list (spanned directive)) (d : spanned directive) (p : spanned posting) : list notice -> Prop :=
| pv_unknown n : status (acc_name (item (po_account (item p)))) before None ->
    saying K_Error (the_account (po_account (item p))) (lit "no such account") [the_posting p; the_directive d] [] n ->
    posting_verdict before d p [n]
| pv_closed o c n : status (acc_name (item (po_account (item p)))) before (Some (o, Some c)) ->
    saying K_Error (the_account (po_account (item p))) (lit "account is closed") [the_posting p; the_directive d] [the_directive c] n ->
    posting_verdict before d p [n]
| pv_open o : status (acc_name (item (po_account (item p)))) before (Some (o, None)) -> posting_verdict before d p [].

(** About the amounts of a transaction: only if all postings have one. *)
Inductive amounts_verdict (show : decimal -> str) (d : spanned directive) (ps : list (spanned posting)) : list notice -> Prop :=
| av_some_lack p : In p ps -> po_amount (item p) = None -> amounts_verdict show d ps []
| av_balanced as_ : all_amounts ps as_ -> (exact_sum as_ == 0)%Q -> amounts_verdict show d ps []
| av_unbalanced others last_ n : all_amounts ps (others ++ [last_]) -> ~ (exact_sum (others ++ [last_]) == 0)%Q ->
    tells_sum show d last_ others n -> amounts_verdict show d ps [n].

(** What check.rs has to say about a directive, after those [before] it. *)
Inductive check_verdict (show : decimal -> str) (before : list (spanned directive)) (d : spanned directive) : list notice -> list notice -> Prop :=
| cv_transaction ps es ess : is_transaction d ps -> amounts_verdict show d ps es -> Forall2 (posting_verdict before d) ps ess ->
    check_verdict show before d (es ++ concat ess) []
| cv_open k : opens k d -> status k before None -> check_verdict show before d [] []
| cv_open_again k o n : opens k d -> status k before (Some (o, None)) ->
    saying K_Warning (the_directive d) (lit "duplicate open") [] [the_directive o] n -> check_verdict show before d [] [n]
| cv_open_closed k o c n : opens k d -> status k before (Some (o, Some c)) ->
    saying K_Error (the_directive d) (lit "account was closed") [] [the_directive c] n -> check_verdict show before d [n] []
| cv_close_unknown a n : dir_variant (item d) = V_Close a -> status (acc_name (item a)) before None ->
    saying K_Error (the_account a) (lit "no such account") [the_directive d] [] n -> check_verdict show before d [n] []
| cv_close k o : closes k d -> status k before (Some (o, None)) -> check_verdict show before d [] []
| cv_close_again k o c n : closes k d -> status k before (Some (o, Some c)) ->
    saying K_Error (the_directive d) (lit "account already closed") [] [the_directive c] n -> check_verdict show before d [n] []
| cv_other : (forall ps, ~ is_transaction d ps) -> (forall k, ~ opens k d) -> (forall k, ~ closes k d) -> check_verdict show before d [] [].

(** One directive after the other. *)
Inductive check_verdicts (show : decimal -> str) : list (spanned directive) -> list (spanned directive) -> list notice -> list notice -> Prop :=
| cvs_end before : check_verdicts show before [] [] []
| cvs_next before d ds es ws es' ws' : check_verdict show before d es ws -> check_verdicts show (before ++ [d]) ds es' ws' ->
    check_verdicts show before (d :: ds) (es ++ es') (ws ++ ws').
Inductive balance_verdicts (show : decimal -> str) : list (spanned directive) -> list notice -> list notice -> Prop :=
| bvs_end : balance_verdicts show [] [] []
| bvs_next d ds es ws es' ws' : balance_verdict show d es ws -> balance_verdicts show ds es' ws' ->
    balance_verdicts show (d :: ds) (es ++ es') (ws ++ ws').

(** ** By date *)

(** Not after. *)
Definition by_date (x y : spanned directive) : Prop := ~ before (item (dir_date (item y))) (item (dir_date (item x))).
Definition dated_before (x y : spanned directive) : Prop := before (item (dir_date (item x))) (item (dir_date (item y))).

(** All amounts of all transactions can be added up. *)
Definition sums_fit_in (ds : list (spanned directive)) : Prop :=
  forall d ps as_, In d ds -> is_transaction d ps -> all_amounts ps as_ -> sums_fit as_.

(** ** Printing *)

(** Each directive as it is displayed, and an empty line below it. *)
Inductive printed (show_directive : directive -> str) : list (spanned directive) -> str -> Prop :=
| printed_none : printed show_directive [] []
| printed_next d ds rest : printed show_directive ds rest ->
    printed show_directive (d :: ds) (show_directive (item d) ++ [10%N; 10%N] ++ rest).
