(** * C71: a syntax error names what is found at its place *)
From Coq Require Import String Ascii.
From Coq Require Import List NArith ZArith Arith Bool Lia.
From Verif Require Import Base BaseFacts Text Path Sources Types SpecTypes Options Decimal SpecDecimal Pragma Read SpecRead ReadFacts P_Read Token Lexer SpecLexer P_Lexer P_Lex Peg Grammar Parse SpecParse
  Display SpecDisplay P_Display P_RoundTrip Report Messages Shown SpecShown P_Shown Miss MissParse SpecMiss SpecMissText MissMessages P_Grammar P_File P_Parse P_Miss.
Import ListNotations.
Local Open Scope nat_scope.

Section Text.
  Context (L : lexer_env) (U : unicode_ok (le_unicode L)) (RD : reads_decimals (le_decimal L)) (DF : decimals_fit (le_decimal L)).
  Context (E : grammar_env) (M : message_env) (Dok : display_ok (me_display M)) (show_time : time -> str).
  Context (expected : nat -> nat -> str) (contexts : nat -> nat -> list (str * span)).
  Context (glob_with : str -> result (list glob_item) str) (canonicalize : path -> option path) (read : path -> result str str).
  Context (canonicalize' : path -> option path).
  Context (fuel : nat) (root : option path) (content : str) (s : sources).
  Context (Reads : reads_to (includes_of L) glob_with canonicalize read fuel root content s).

  (** Each syntax error of a ledger is about one of its files, and says what is
      there; its message is made of what it says and its contexts.  The other
      errors are as they are without the places of syntax errors, and none is
      left out. *)
  Theorem C71_says : forall toks es ws,
    parser_new L s = Fine (Some toks) -> mparse E canonicalize' s toks = Fine (Some (MFailure es ws)) ->
    let told := merrors_of M show_time expected contexts toks (MFailure es ws) in
    List.length told = List.length es /\
    (forall i r, nth_error es i = Some (MC_Report r) -> nth_error told i = Some (notice_of M r)) /\
    forall i src p x, nth_error es i = Some (MC_Syntax src p x) ->
      exists n file c ts, nth_error told i = Some n /\ In (src, file, c) (content_iter s) /\ lex L c = Fine (Some ts) /\
        nt_kind n = K_Error /\ sp_source (nt_span n) = src /\
        nt_message n = me_message M (nt_reason n) (contexts src p) /\ Report.contexts n = contexts src p /\ Report.related n = [] /\
        says L E (fun names => exists po, in_force E (content_iter s) toks po /\ names = po_names po) c ts (expected src p) n.
  Proof.
    intros toks es ws Pn H told. split; [apply map_length|]. split; [intros i r Hr; exact (map_nth_error _ _ _ Hr)|].
    intros i src p x Hi. pose proof (nth_error_In _ _ Hi) as Hx.
    assert (Ht : nth_error told i = Some (mnotice M show_time expected contexts toks (MC_Syntax src p x))) by exact (map_nth_error _ _ _ Hi).
    remember (mnotice M show_time expected contexts toks (MC_Syntax src p x)) as n eqn:En.
    destruct (C70_place _ _ _ _ _ _ _ _ _ H Hx) as (file & c & ts & Hin & Nt & Lp & La & Sp & Cu).
    pose proof (C30_parser L U glob_with canonicalize read fuel root content s Reads) as X. rewrite Pn in X. destruct (X _ _ _ Hin) as (ts' & Lx & Nt').
    rewrite Nt in Nt'. injection Nt' as <-. exists n, file, c, ts. split; [exact Ht|]. split; [exact Hin|]. split; [exact Lx|]. split; [subst n; reflexivity|].
    assert (Qn : nt_span n = place (input_of src c ts) (ms_at x)) by (subst n; cbn; exact Sp).
    assert (Qm : nt_message n = me_message M (nt_reason n) (contexts src p) /\ Report.contexts n = contexts src p /\ Report.related n = []) by (subst n; auto).
    destruct Qm as (Qm & Qc & Ql).
    assert (Qr : nt_reason n = display_miss M show_time expected ts src p x) by (subst n; cbn; rewrite (nth_error_nth _ _ _ Nt); reflexivity).
    clear Ht En. unfold place in Qn. cbn [in_tokens in_source in_len input_of] in Qn.
    destruct (nth_error ts (ms_at x)) as [[t [a b]]|] eqn:N.
    - split; [rewrite Qn; reflexivity|]. do 3 (split; [assumption|]). apply nth_error_In in N as I. destruct (C59_token_names L U RD DF (me_display M) Dok show_time _ _ _ _ _ Lx I) as (m & G & Sh).
      destruct (ms_custom x) as [text|] eqn:C.
      + destruct (Cu _ eq_refl) as (t' & r & po & N' & Fo & Re). injection N' as <- _.
        apply (says_why _ _ _ _ _ _ _ m t (po_names po)); try (rewrite Qn; cbn; assumption); [eauto|]. rewrite Qr. unfold display_miss. rewrite C. exact Re.
      + eapply (says_found _ _ _ _ _ _ _ m t); try (rewrite Qn; cbn; assumption); [exact Sh|]. rewrite Qr. unfold display_miss, display_found. rewrite C, N.
        rewrite <- !app_assoc. cbn [lit map List.app]. reflexivity.
    - split; [rewrite Qn; reflexivity|]. do 3 (split; [assumption|]). destruct (ms_custom x) as [text|] eqn:C.
      + destruct (Cu _ eq_refl) as (t' & r & po & N' & Fo & Re). discriminate.
      + eapply says_end; [rewrite Qn; reflexivity|]. rewrite Qr. unfold display_miss, display_found. rewrite C, N. reflexivity.
  Qed.
End Text.

(** ** Examples *)

Definition ex_reasons (content : str) : list (str * span) :=
  match ex_mrun content with
  | Some (_, toks, r) =>
      map (fun n => (nt_reason n, nt_span n))
        (merrors_of (mk_message_env ex_display (fun s => s) (fun s => s) (fun _ _ => ([], [], mk_span 0 0 0, [])) (fun _ => []) (fun s _ => s))
           ex_time (fun _ _ => lit "something else") (fun _ _ => []) toks r)
  | None => []
  end.
Example C71_ex_found : ex_reasons (lit "2024-01-01 open close") = [(lit "found 'close' expected something else", mk_span 0 16 21)].
Proof. vm_compute. reflexivity. Qed.
Example C71_ex_eol : ex_reasons (lit "2024-01-01 open" ++ [10%N]) = [(lit "found '\n' expected something else", mk_span 0 15 16)].
Proof. vm_compute. reflexivity. Qed.
Example C71_ex_why : ex_reasons (lit "2024-01-01 open Assets:Cash ""foo""") = [(lit "Matching variant not found", mk_span 0 28 33)].
Proof. vm_compute. reflexivity. Qed.
Example C71_ex_end : ex_reasons (lit "2024-01-01 open Assets:Cash" ++ [10%N] ++ lit "   ") = [(lit "found end of input expected something else", mk_span 0 31 31)].
Proof. vm_compute. reflexivity. Qed.
Print Assumptions C71_says.
