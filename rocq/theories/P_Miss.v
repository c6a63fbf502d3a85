(** * C70: syntax errors are where the text goes wrong *)
From Coq Require Import String Ascii.
From Coq Require Import List NArith ZArith Arith Bool Lia.
From Verif Require Import Base Text Path Sources Types SortM Options Pragma Read Token Lexer Decimal Cost Peg PegFacts Grammar GrammarSafe Parse Messages Miss MissGrammar MissParse
  MissErased SpecMiss MissPlace MissFile MissPrefix MissFirst MissLedger P_Lexer P_Grammar P_File P_Parse.
Import ListNotations.
Local Open Scope nat_scope.

(** Leave out what the syntax errors say, and the results are those of [parse]:
    so all that is proved about [parse] is true here, and the error to be
    reported is always there. *)
Theorem C70_results : forall E canonicalize s toks,
  match mparse E canonicalize s toks with
  | Fine (Some r) => Fine (Some (plain_result r))
  | Fine None => Fine None
  | Panic => Panic
  end = parse E canonicalize s toks.
Proof.
  intros E canonicalize s toks. unfold mparse, parse, mparse_declarations, parse_declarations.
  change (@nil complaint) with (map plainly []). rewrite <- all_erased.
  destruct (mparse_all E toks (content_iter s) [] [] default_pstate) as [[[[outputs es] st]|]|]; cbn [erased_all]; try reflexivity.
  destruct (pragma_pass canonicalize (included_globs s) (error_paths s) (root_path s) outputs (options_new (ps_options st))) as [[[ds [[os' plugins] pes]]|]|]; try reflexivity.
  destruct (sort_directives ds) as [[directives|]|]; try reflexivity.
  assert (X : map plainly es ++ map C_Report pes = map plainly (es ++ map MC_Report pes)) by (rewrite map_app, map_map; reflexivity). rewrite X.
  destruct (es ++ map MC_Report pes); reflexivity.
Qed.

(** How the errors are made. *)
Lemma mparse_errors E canonicalize s toks es ws : mparse E canonicalize s toks = Fine (Some (MFailure es ws)) ->
  exists outputs errors st pes, mparse_all E toks (content_iter s) [] [] default_pstate = Fine (Some (outputs, errors, st)) /\ es = errors ++ map MC_Report pes.
Proof.
  unfold mparse, mparse_declarations. destruct (mparse_all E toks (content_iter s) [] [] default_pstate) as [[[[outputs errors] st]|]|]; [|discriminate|discriminate].
  destruct (pragma_pass canonicalize (included_globs s) (error_paths s) (root_path s) outputs (options_new (ps_options st))) as [[[ds [[os' plugins] pes]]|]|]; [|discriminate|discriminate].
  destruct (sort_directives ds) as [[directives|]|]; [|discriminate|discriminate]. intro H. exists outputs, errors, st, pes. split; [reflexivity|].
  destruct (errors ++ map MC_Report pes) as [|e l]; [discriminate|]. injection H as <- _. reflexivity.
Qed.
Lemma mparse_done E canonicalize s toks r : mparse E canonicalize s toks = Fine (Some r) ->
  exists outputs errors st pes, mparse_all E toks (content_iter s) [] [] default_pstate = Fine (Some (outputs, errors, st)) /\
    (errors = [] \/ exists ws, r = MFailure (errors ++ map MC_Report pes) ws).
Proof.
  unfold mparse, mparse_declarations. destruct (mparse_all E toks (content_iter s) [] [] default_pstate) as [[[[outputs errors] st]|]|]; [|discriminate|discriminate].
  destruct (pragma_pass canonicalize (included_globs s) (error_paths s) (root_path s) outputs (options_new (ps_options st))) as [[[ds [[os' plugins] pes]]|]|]; [|discriminate|discriminate].
  destruct (sort_directives ds) as [[directives|]|]; [|discriminate|discriminate]. intro H. exists outputs, errors, st, pes. split; [reflexivity|].
  destruct errors as [|e l]; [left; reflexivity|]. right. cbn [List.app] in *. injection H as <-. eauto.
Qed.

(** Every syntax error of a ledger is about one of its files, at a token of that
    file or at its end, not before the token where the declaration begins; the
    span reported is that of the token; and if the error has a text of its own
    then the token is one which that text is true of, with the names of the
    account types in force. *)
Theorem C70_place : forall E canonicalize s toks es ws src p x,
  mparse E canonicalize s toks = Fine (Some (MFailure es ws)) -> In (MC_Syntax src p x) es ->
  exists file content ts,
    In (src, file, content) (content_iter s) /\ nth_error toks src = Some ts /\
    p < List.length ts /\ p <= ms_at x <= List.length ts /\
    ms_span x = place (input_of src content ts) (ms_at x) /\
    (forall text, ms_custom x = Some text -> exists t r po,
       nth_error ts (ms_at x) = Some (t, r) /\ in_force E (content_iter s) toks po /\ refused E (po_names po) t text).
Proof.
  intros E canonicalize s toks es ws src p x H Hx. destruct (mparse_errors _ _ _ _ _ _ H) as (outputs & errors & st & pes & R & ->).
  pose proof (all_placed E toks (content_iter s) _ [] [] default_pstate _ _ _ (incl_refl _) (in_force_default _ _ _) (Forall_nil _) R) as W.
  apply in_app_or in Hx as [Hx|Hx]; [|apply in_map_iff in Hx as (? & X & _); discriminate].
  rewrite Forall_forall in W. destruct (W _ Hx) as (id & f & content & ts & A & B & C & D & (P1 & P2 & P3)).
  cbn [in_source input_of] in C. subst src. exists f, content, ts. auto 10.
Qed.

(** Whatever comes after the token where the first syntax error is, the error
    stays: if another ledger has the same files up to that one, and that file has
    the same tokens up to and with that token, then the first syntax error is the
    same, with the same errors before it. *)
Theorem C70_prefix : forall E canonicalize canonicalize' s s' toks toks' pre post post' id f c c' ts ts' es ws rs p x r',
  NoDup (map (fun c => fst (fst c)) (content_iter s)) ->
  content_iter s = pre ++ (id, f, c) :: post -> content_iter s' = pre ++ (id, f, c') :: post' ->
  (forall id f c, In (id, f, c) pre -> nth_error toks id = nth_error toks' id) ->
  nth_error toks id = Some ts -> nth_error toks' id = Some ts' ->
  mparse E canonicalize s toks = Fine (Some (MFailure es ws)) -> first_error es rs id p x ->
  alike_up_to (S (ms_at x)) (input_of id c ts) (input_of id c' ts') ->
  mparse E canonicalize' s' toks' = Fine (Some r') ->
  exists es' ws', r' = MFailure es' ws' /\ first_error es' rs id p x.
Proof.
  intros E canonicalize canonicalize' s s' toks toks' pre post post' id f c c' ts ts' es ws rs p x r' Nd Cs Cs' Pre Hts Hts' H F Al H'.
  destruct (mparse_errors _ _ _ _ _ _ H) as (outputs & errors & st & pes & R & ->).
  destruct (mparse_done _ _ _ _ _ H') as (outputs' & errors' & st' & pes' & R' & D).
  destruct (first_error_app _ _ _ _ _ _ F) as [F1|(_ & rs2 & _ & F2)]; [|exfalso; exact (told_no_first _ _ _ _ _ (plainly_told pes) F2)].
  rewrite Cs in R, Nd. rewrite Cs' in R'.
  assert (Nid : ~ In id (map (fun c => fst (fst c)) post)).
  { rewrite map_app in Nd. cbn [map fst] in Nd. apply NoDup_remove_2 in Nd. intro X. apply Nd. apply in_or_app. right. exact X. }
  pose proof (all_first E toks toks' pre post post' id f c c' ts ts' Pre Hts Hts' Nid _ _ _ _ _ _ _ _ _ R F1 Al R') as F'.
  destruct D as [->|(ws' & ->)]; [destruct F' as ([|? ?] & X & _); destruct rs; discriminate|].
  exists (errors' ++ map MC_Report pes'), ws'. split; [reflexivity|]. apply first_error_more. exact F'.
Qed.
(** So no such ledger parses. *)
Theorem C70_no_repair : forall E canonicalize canonicalize' s s' toks toks' pre post post' id f c c' ts ts' es ws rs p x,
  NoDup (map (fun c => fst (fst c)) (content_iter s)) ->
  content_iter s = pre ++ (id, f, c) :: post -> content_iter s' = pre ++ (id, f, c') :: post' ->
  (forall id f c, In (id, f, c) pre -> nth_error toks id = nth_error toks' id) ->
  nth_error toks id = Some ts -> nth_error toks' id = Some ts' ->
  mparse E canonicalize s toks = Fine (Some (MFailure es ws)) -> first_error es rs id p x ->
  alike_up_to (S (ms_at x)) (input_of id c ts) (input_of id c' ts') ->
  forall ds opts plugins ws', parse E canonicalize' s' toks' <> Fine (Some (Success ds opts plugins ws')).
Proof.
  intros E canonicalize canonicalize' s s' toks toks' pre post post' id f c c' ts ts' es ws rs p x Nd Cs Cs' Pre Hts Hts' H F Al ds opts plugins ws' Q.
  rewrite <- C70_results in Q. destruct (mparse E canonicalize' s' toks') as [[r'|]|] eqn:H'; [|discriminate|discriminate].
  destruct (C70_prefix _ _ _ _ _ _ _ _ _ _ _ _ _ _ _ _ _ _ _ _ _ _ Nd Cs Cs' Pre Hts Hts' H F Al H') as (es' & ws2 & -> & _). discriminate.
Qed.

(** ** Examples *)

Definition ex_mrun (content : str) : option (sources * list (list rtoken) * mparsed_as) :=
  match read_with_includes (includes_of P_Lexer.ex_env) ex_glob ex_canonicalize ex_read 5 None content with
  | Some s => match parser_new P_Lexer.ex_env s with
              | Fine (Some toks) => match mparse P_Grammar.ex_env ex_canonicalize s toks with Fine (Some r) => Some (s, toks, r) | _ => None end
              | _ => None
              end
  | None => None
  end.
Definition ex_syntax (content : str) : list (nat * miss) :=
  match ex_mrun content with
  | Some (_, _, MFailure es _) => flat_map (fun c => match c with MC_Syntax _ p x => [(p, x)] | _ => [] end) es
  | _ => []
  end.

(** The account is of no known type: the error is at the account, with a text of
    its own. *)
Example C70_ex_account : ex_syntax (lit "2024-01-01 open Asset:Cash") =
  [(0, mk_miss 2 (mk_span 0 16 26) (Some (lit "unknown account type Asset, must be one of Assets, Liabilities, Equity, Income, Expenses")))].
Proof. vm_compute. reflexivity. Qed.
(** A keyword where the account should be; the same, with something else after it. *)
Example C70_ex_keyword : ex_syntax (lit "2024-01-01 open close") = [(0, mk_miss 2 (mk_span 0 16 21) None)] /\
  ex_syntax (lit "2024-01-01 open close Assets:Cash" ++ [10%N] ++ lit "2024-01-01 open Assets:Cash") = [(0, mk_miss 2 (mk_span 0 16 21) None)].
Proof. split; vm_compute; reflexivity. Qed.
(** The declaration is read without the metadata, and what is reported is what is
    wrong in them. *)
Example C70_ex_metadata : ex_syntax (lit "2024-01-01 open Assets:Cash" ++ [10%N] ++ lit "  name: close" ++ [10%N]) = [(4, mk_miss 7 (mk_span 0 36 41) None)].
Proof. vm_compute. reflexivity. Qed.

(** The hypotheses of [C70_prefix] are met by those two texts. *)
Definition ex_short : str := lit "2024-01-01 open close".
Definition ex_long : str := lit "2024-01-01 open close Assets:Cash" ++ [10%N] ++ lit "2024-01-01 open Assets:Cash".
Lemma ex_mrun_inv content s toks r : ex_mrun content = Some (s, toks, r) -> mparse P_Grammar.ex_env ex_canonicalize s toks = Fine (Some r).
Proof.
  unfold ex_mrun. destruct (read_with_includes _ _ _ _ _ _ _) as [s1|]; [|discriminate]. destruct (parser_new P_Lexer.ex_env s1) as [[toks1|]|]; [|discriminate|discriminate].
  destruct (mparse P_Grammar.ex_env ex_canonicalize s1 toks1) as [[r1|]|] eqn:M; [|discriminate|discriminate]. intro H. injection H as <- <- <-. exact M.
Qed.
Example C70_ex_prefix : exists s s' toks toks' c c' ts ts' es ws p x r',
  NoDup (map (fun c => fst (fst c)) (content_iter s)) /\ content_iter s = [(0, None, c)] /\ content_iter s' = [(0, None, c')] /\ c <> c' /\
  nth_error toks 0 = Some ts /\ nth_error toks' 0 = Some ts' /\
  mparse P_Grammar.ex_env ex_canonicalize s toks = Fine (Some (MFailure es ws)) /\ first_error es [] 0 p x /\
  alike_up_to (S (ms_at x)) (input_of 0 c ts) (input_of 0 c' ts') /\
  mparse P_Grammar.ex_env ex_canonicalize s' toks' = Fine (Some r').
Proof.
  assert (A : exists s toks ts es ws p x, ex_mrun ex_short = Some (s, toks, MFailure (MC_Syntax 0 p x :: es) ws) /\ content_iter s = [(0, None, ex_short)] /\
     nth_error toks 0 = Some ts /\ ms_at x = 2 /\ map Some (firstn 3 ts) = map (nth_error ts) [0; 1; 2] /\ List.length ts = 4 /\
     firstn 3 ts = [(T_Date (mk_date 2024 1 1), (0, 10)); (T_Keyword K_Open, (11, 15)); (T_Keyword K_Close, (16, 21))]).
  { do 7 eexists. split; [vm_compute; reflexivity|]. vm_compute. repeat split. }
  assert (B : exists s toks ts r, ex_mrun ex_long = Some (s, toks, r) /\ content_iter s = [(0, None, ex_long)] /\
     nth_error toks 0 = Some ts /\ map Some (firstn 3 ts) = map (nth_error ts) [0; 1; 2] /\
     firstn 3 ts = [(T_Date (mk_date 2024 1 1), (0, 10)); (T_Keyword K_Open, (11, 15)); (T_Keyword K_Close, (16, 21))]).
  { do 4 eexists. split; [vm_compute; reflexivity|]. vm_compute. repeat split. }
  destruct A as (s & toks & ts & es & ws & p & x & A1 & A2 & A3 & A4 & A5 & A6 & A7). destruct B as (s' & toks' & ts' & r' & B1 & B2 & B3 & B5 & B7).
  exists s, s', toks, toks', ex_short, ex_long, ts, ts', (MC_Syntax 0 p x :: es), ws, p, x, r'. rewrite A2, B2.
  split; [repeat constructor; intros []|]. split; [reflexivity|]. split; [reflexivity|]. split; [discriminate|]. split; [exact A3|]. split; [exact B3|].
  split; [eapply ex_mrun_inv; exact A1|]. split; [exists es; split; [reflexivity|constructor]|]. split; [|eapply ex_mrun_inv; exact B1].
  rewrite A4. rewrite A7 in A5. rewrite B7 in B5.
  split; cbn [in_source in_tokens in_len input_of]; [reflexivity| |rewrite A6; lia].
  intros k Hk. pose proof (f_equal (fun l => nth_error l k) (eq_trans (eq_sym A5) B5)) as X. cbn beta in X. rewrite !nth_error_map in X.
  destruct k as [|[|[|k]]]; [..|lia]; cbn [nth_error option_map] in X |- *; injection X as X; exact X.
Qed.

Print Assumptions C70_results.
Print Assumptions C70_place.
Print Assumptions C70_prefix.
Print Assumptions C70_no_repair.
