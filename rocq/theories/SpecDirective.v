(** * Specification of whole directives, and of parts of them *)
From Coq Require Import String Ascii.
From Coq Require Import List NArith ZArith Arith Bool Permutation.
From Verif Require Import Base Types SpecTypes Options Decimal SpecDecimal Cost SpecCost Token Grammar SpecGrammar.
Import ListNotations.
Local Open Scope nat_scope.

(** What is relied on: ASCII characters are what they are, [names] are the
    names of the account types which the options give, and are possible ones,
    and a hash set is iterated over in some order. *)
Record well_set (E : grammar_env) (po : parser_options) (names : account_type -> str) : Prop := {
  wset_unicode : unicode_ok (g_unicode E);
  wset_named : named (po_names po) names;
  wset_names : forall t, account_type_name_lang (g_unicode E) (names t);
  wset_order : forall l, Permutation l (g_order E l)
}.

(** Where nothing panics: the currencies are ASCII (see [C18]) and all the
    expressions have values (see [C20]).  Parts of expressions need not. *)
Record computable (E : grammar_env) (I : input) : Prop := {
  com_ascii : forall i s, tok I i (T_Currency s) -> Forall ascii s;
  com_worth : forall i j e, may_start I i -> longest (sum I) i j e -> exists v, worth (g_ops E) v /\ ev_expr v = e
}.

(** How many lines a string may have, and where that is said. *)
Definition line_limit (po : parser_options) : option (N * span) :=
  match po_maxlines po with
  | Some n => Some (item (sd_spanned n), src_value (sd_source n))
  | None => None
  end.

Section Whole.
  Context (E : grammar_env) (I : input) (names : account_type -> str).

  (** A directive, and no more of it follows. *)
  Definition whole_at (i j : nat) (d : directive) (es : list report) : Prop :=
    directive_at E I names i j d es /\
    (forall k m, ~ metadata_line E I names j k m) /\
    (forall flag payee narration postings, dir_variant d = V_Transaction flag payee narration postings ->
       forall k a es', ~ posting_at E I names j k a es').

  (** ** The lines of a transaction *)

  (** The line of a posting; its metadata is not on it. *)
  Inductive posting_line (i : nat) : nat -> spanned posting -> Prop :=
  | posting_line_ a b c d e f g flag account amount currency cost price md :
      tok I i T_Indent ->
      maybe (written I (flag_at I)) (S i) a flag ->
      written I (account_at E I names) a b account ->
      maybe (written I (value_at E I)) b c amount ->
      maybe (written I (currency_at I)) c d currency ->
      maybe (written I (cost_at E I)) d e cost ->
      maybe (written I (price_at E I)) e f price ->
      line_end I f g ->
      posting_line i g (mk_spanned (mk_posting flag account amount currency cost price md) (text I (S i) f)).

  Inductive body_line := BL_Metadatum (m : metadatum) | BL_Posting (p : spanned posting).
  Inductive body_line_at (i j : nat) : body_line -> Prop :=
  | body_metadatum m : metadata_line E I names i j m -> body_line_at i j (BL_Metadatum m)
  | body_posting p : posting_line i j p -> body_line_at i j (BL_Posting p).

  (** The metadata lines which come first, and for each posting those which
      come right after it. *)
  Fixpoint metadata_first (ls : list body_line) : list metadatum :=
    match ls with BL_Metadatum m :: r => m :: metadata_first r | _ => [] end.
  Fixpoint postings_with (ls : list body_line) : list (spanned posting * list metadatum) :=
    match ls with
    | [] => []
    | BL_Metadatum _ :: r => postings_with r
    | BL_Posting p :: r => (p, metadata_first r) :: postings_with r
    end.
End Whole.

(** ** Repetitions, by counting *)

Definition problem_dec (a b : problem) : {a = b} + {a <> b}.
Proof. repeat (decide equality). Defined.

(** [kept] are the items which come first with their labels.  For each label
    there is one error less than there are items, each at the place of an item
    whose label came before. *)
Record once_each {A} (label : A -> problem) (place : A -> span) (items kept : list A) (es : list report) : Prop := {
  oe_once : NoDup (map label kept);
  oe_all : forall p, In p (map label kept) <-> In p (map label items);
  oe_first : forall x, In x kept -> exists before after, items = before ++ x :: after /\ ~ In (label x) (map label before);
  oe_count : forall p, count_occ problem_dec (map rp_problem es) p = pred (count_occ problem_dec (map label items) p);
  oe_place : forall e, In e es -> exists before x after, items = before ++ x :: after /\ In (label x) (map label before) /\
    e = mk_report (label x) (place x) [];
  oe_none : es = [] <-> NoDup (map label items)
}.
