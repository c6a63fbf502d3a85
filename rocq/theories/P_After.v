(** * C79: a correct ledger in front of a text changes none of its errors *)
From Coq Require Import String Ascii.
From Coq Require Import List NArith ZArith Arith Bool Lia Permutation.
From Verif Require Import Base BaseFacts Text Path PathFacts Sources Types SpecTypes TypesFacts P_Types SortM SpecSort P_Sort Options SpecOptions OptionsFacts P_Options
  Pragma SpecPragma PragmaRun P_Pragma Read SpecRead ReadFacts P_Read
  Token Lexer SpecLexer P_Lexer Peg PegFacts Grammar SpecExpr SpecGrammar SpecDirective SpecDisplay SpecLedger SpecAlike P_Grammar
  Parse SpecParse SpecWhole ParseFacts ParseOnce ParseFile P_File P_Includes P_Parse IncludeTokens P_Order P_Complete AlikeRead AlikeFile AlikeWalk AlikeOptions SortFacts Sim SimFile SimCopy SpecPaste Paste P_Paste SpecLayout P_Words P_Newline SpecAppend Append AppendText P_Append
  SpecLocal Local P_Local SpecSwap P_Swap TextLines P_Text P_SaidText SimShift SpecAfter After.
Import SpecPragma Read.
Import ListNotations.
Local Open Scope nat_scope.
Local Notation ended := SpecAppend.ended.

Section Declared.
  Context (E : grammar_env) (I : input) (root : option path).
  Lemma seeks_from r i f r' : seeks E I root r i f r' -> match f with Some (_, _, d, _) => exists r0 i0 j es0 r1, declares E I root r0 i0 j d es0 r1 | None => True end.
  Proof. induction 1 as [|r i j d r' _ D|]; [exact Logic.I| |assumption]. do 5 eexists. exact D. Qed.
  Lemma declared_from r i ds es ws k r' : declared E I root r i ds es ws k r' -> Forall (fun d => exists r0 i0 j es0 r1, declares E I root r0 i0 j d es0 r1) (map snd ds).
  Proof.
    induction 1 as [|r i j d es r1 ds es' ws k r' D _ IH|r i i' j d w r1 r2 ds es' ws k r' _ _ Sk _ IH]; cbn [map snd]; constructor; auto; [eauto 8|].
    exact (seeks_from _ _ _ _ Sk).
  Qed.
  Lemma declares_plain r i j d es r1 : without K_Include (map fst (in_tokens I)) -> declares E I root r i j d es r1 -> is_include (item d) = false.
  Proof.
    intros No D. destruct D as [x e W|k q H L0|k o' e r2 H L0]; try reflexivity. destruct H as [| | | |j' s' [z Tk] W|]; try reflexivity.
    exfalso. apply nth_error_In in Tk. apply No. exact (in_map fst _ _ Tk).
  Qed.
  Lemma declares_no_option r i j d es r1 : without K_Option (map fst (in_tokens I)) -> declares E I root r i j d es r1 -> options_of [here root d] = [].
  Proof.
    intros No D. destruct D as [x e W|k q H L0|k o' e r2 [x b name value o2 e' r3 Tk W W' Ef] L0]; cbn; try reflexivity.
    - destruct H; reflexivity.
    - exfalso. destruct Tk as [z Tk]. apply nth_error_In in Tk. apply No. exact (in_map fst _ _ Tk).
  Qed.
  Lemma read_plain r out es ws r' : without K_Include (map fst (in_tokens I)) -> file_reads E I root r out es ws r' ->
    Forall (fun d => is_include (item d) = false) match out with Some ds => ds | None => [] end.
  Proof.
    intros No H. destruct H as [ds e w k r1 D F|ds e w k r1 D F]; [|constructor]. eapply Forall_impl; [|eapply declared_from; exact D].
    cbn beta. intros d (r0 & i0 & j & es0 & r2 & X). eapply declares_plain; eassumption.
  Qed.
  Lemma read_no_option r out es ws r' : without K_Option (map fst (in_tokens I)) -> file_reads E I root r out es ws r' ->
    options_of (map (here root) match out with Some ds => ds | None => [] end) = [].
  Proof.
    intros No H. destruct H as [ds e w k r1 D F|ds e w k r1 D F]; [|reflexivity]. pose proof (declared_from _ _ _ _ _ _ _ D) as X.
    induction X as [|d l (r0 & i0 & j & es0 & r2 & Y) X IH]; [reflexivity|]. pose proof (declares_no_option _ _ _ _ _ _ No Y) as Z.
    unfold options_of in *. cbn [map flat_map] in *. rewrite IH, app_nil_r in *. exact Z.
  Qed.
End Declared.

Lemma alike_declared_plain ds ds' : Forall2 (alike_declared any) ds ds' -> Forall (fun d => is_include (item d) = false) ds -> Forall (fun d => is_include (item d) = false) ds'.
Proof.
  induction 1 as [|d d' ds ds' A F IH]; intro N; constructor; inversion N as [|? ? N1 N2]; subst; auto.
  destruct A as [x y Q Q' _|p p' Q Q' P]; rewrite Q in N1; rewrite Q'; [reflexivity|]. destruct P; try reflexivity; discriminate.
Qed.

Section After.
  Context (L : lexer_env) (E : grammar_env) (En : environment_ok E) (U : unicode_ok (le_unicode L)).
  Context (canonicalize : path -> option path) (root : option path).
  Context (Cano : forall p q c d, same_path p q -> canonicalize p = Some c -> canonicalize q = Some d -> same_path c d).
  Context (Root : forall p, root = Some p -> canonicalize p <> None).

  (** When a text without includes is not a ledger, and before it is put one
      which is a success, has no includes, sets no rules, and only one of the two has
      options, then what comes out has just the same errors, each syntax error
      further on by the tokens put in front; and the warnings of both. *)
  Theorem C79_after : forall a b c ta tb tc dsA optsA psA wsA es ws,
    lex L a = Fine (Some ta) -> lex L b = Fine (Some tb) -> lex L c = Fine (Some tc) ->
    map fst tc = map fst ta ++ map fst tb -> ended (map fst ta) -> hd_error (map fst tb) <> Some T_Indent ->
    fine_content L E 0 a -> fine_content L E 0 b ->
    without K_Include (map fst ta) -> without K_Include (map fst tb) ->
    ~ sets_rules (input_of 0 a ta) -> without K_Option (map fst ta) \/ without K_Option (map fst tb) ->
    ledger_is L E canonicalize root a (Success dsA optsA psA wsA) -> ledger_is L E canonicalize root b (Failure es ws) ->
    exists es' ws', ledger_is L E canonicalize root c (Failure es' ws') /\
      same_elements (same_complaint (List.length ta)) es es' /\ Permutation (map rp_problem (wsA ++ ws)) (map rp_problem ws').
  Proof.
    intros a b c ta tb tc dsA optsA psA wsA es ws Lxa Lxb Lxc Tc Ed Hd Fa Fb Na Nb Nr On Ha Hb.
    destruct Fa as (t & X & Ca & Oa). rewrite Lxa in X. injection X as <-. destruct Fb as (t & X & Cb & Obb). rewrite Lxb in X. injection X as <-.
    set (A := input_of 0 a ta) in *. set (B := input_of 0 b tb) in *. set (J := input_of 0 c tc).
    pose proof (joined_computable A B J Tc Ed E Ca Cb) as Cc. pose proof (joined_fine_options A B J Tc Ed Oa Obb) as Oc.
    destruct (alone_success L E En U canonicalize root Cano Root a ta Lxa Ca Oa Na _ _ _ _ Ha) as (da & rA & poA & yA & TA & NpA & DuA & LeA & YA & SoA & ObA & -> & ->).
    assert (rA = initial_rules) as ->.
    { eapply (tiles_settled E En _ _ _ _ _ _ _ _ Ca Oa (obeyed E En)); [|exact TA]. intros x _ (n & v & Sr). apply Nr. exists x, n, v. exact Sr. }
    destruct (copied_on E En root c tc a ta da wsA initial_rules initial_rules Cc Oc Ca Oa Na (obeyed E En) (obeyed E En) TA NpA) as [CaA RdA]. fold J in RdA.
    assert (R0 : rest_at J 0 (map fst ta ++ map fst tb)) by (split; [apply Nat.le_0_l|cbn; exact Tc]).
    destruct (RdA initial_rules 0 (map fst tb) (map fst tb) (kin_initial E En) R0 (lined_closes _ _ Ed) Hd) as (da' & wsA' & k & r1 & RuA & Rk & K1 & AlA & PeA).
    assert (Ln : List.length tc = List.length ta + List.length tb) by (rewrite <- (map_length fst tc), Tc, app_length, !map_length; reflexivity).
    assert (k = List.length ta) as ->.
    { destruct Rk as [Lk Q]. apply (f_equal (@List.length _)) in Q. cbn in Lk, Q. rewrite !map_length, skipn_length in Q. lia. }
    set (n := List.length ta) in *.
    assert (Ns : forall x, x < n -> ~ sets_rule_at J x).
    { intros x Hx (nm & v & T0 & T1 & T2 & Hin). apply Nr. exists x, nm, v.
      destruct (joined_next A B J Tc Ed _ _ Hx T0 ltac:(discriminate)) as [H1 T0']. destruct (joined_next A B J Tc Ed _ _ H1 T1 ltac:(discriminate)) as [H2 T1'].
      destruct (joined_next A B J Tc Ed _ _ H2 T2 ltac:(discriminate)) as [H3 T2']. auto. }
    assert (r1 = initial_rules) as -> by (eapply (runs_settled E En J); [exact Cc|exact Oc|exact (obeyed E En)| |exact RuA]; intros x Hx; apply Ns; lia).
    assert (Ti : ~ tok J n T_Indent).
    { intro T. replace n with (n + 0) in T by lia. apply (tok_rest _ _ _ _ _ Rk) in T. apply Hd. destruct (map fst tb); [discriminate|exact T]. }
    (* the two runs *)
    apply (ledger_by_steps L E canonicalize root b tb Lxb Nb) in Hb. unfold ledger_steps in Hb. fold B in Hb.
    assert (Ob0 : obeys E (ps_options default_pstate) initial_rules) by (split; cbn; [exact named_default|intro t; apply default_names_valid; apply En|reflexivity]).
    destruct (C39_file E B root En Cb Obb default_pstate initial_rules Ob0) as (out & es1 & ws1 & r' & s1 & Pf & Fr & Ob1 & _). rewrite Pf in Hb.
    destruct (shift_file E (env_order _ En) B J n eq_refl root (fun i => eq_trans (rest_tok _ _ _ Rk i) (nth_error_map _ _ _)) En Cb Obb Cc Oc Ln
      initial_rules da' wsA' initial_rules out es1 s1 default_pstate RuA Ti Ns Ob0 Ob0 eq_refl Pf) as (out' & es1' & s1' & Pf' & Told & Warn & Mo).
    assert (Nc : without K_Include (map fst tc)) by (unfold without; rewrite Tc, in_app_iff; unfold without in *; tauto).
    pose proof (read_plain E B root _ _ _ _ _ Nb Fr) as NpB.
    pose proof (alike_no_include da da' AlA NpA) as NpA'. pose proof (alike_here root _ _ AlA) as Ae.
    assert (DuA' : dues canonicalize [] [] [] (map (here root) da') []).
    { eapply (strip_dues root canonicalize [] [] [] [] [] _ DuA [] da' (Forall2_nil _)). rewrite (plain_here root da NpA). exact AlA. }
    pose proof (alike_leftover any _ _ Ae LeA) as LeA'.
    assert (OnE : options_of (map (here root) da') = [] \/ options_of (map (here root) match out with Some ds => ds | None => [] end) = []).
    { destruct On as [On|On]; [left|right; eapply (read_no_option E B); [exact On|exact Fr]].
      pose proof (no_options_of E root A _ _ _ _ _ _ On TA) as Z. pose proof (alike_options_of any _ _ Ae) as Qo. rewrite Z in Qo. cbn in Qo. symmetry in Qo. apply map_eq_nil in Qo. exact Qo. }
    (* the pragmas *)
    assert (exists o1 os pl rs o1' os' pl' rs',
      pragma_pass canonicalize [] [] root [(root, match out with Some ds => ds | None => [] end)] (options_new (ps_options s1)) = Fine (Some (o1, (os, pl, rs))) /\
      pragma_pass canonicalize [] [] root [(root, match out' with Some ds => ds | None => [] end)] (options_new (ps_options s1')) = Fine (Some (o1', (os', pl', rs'))) /\
      Permutation (map rp_problem rs) (map rp_problem rs')) as (o1 & os & pl & rs & o1' & os' & pl' & rs' & Pp & Pp' & Pr).
    { destruct out as [ds|], out' as [all|]; try contradiction.
      - destruct Mo as (ds' & -> & F). apply (pass_after canonicalize root da' ds ds' _ _ NpB); auto. apply Forall_app. split; [exact NpA'|exact (alike_declared_plain _ _ F NpB)].
      - apply (pass_after canonicalize root [] [] []); auto; try constructor. apply leftover_none. split; reflexivity. }
    rewrite Pp in Hb. destruct (C01_sort_stable o1) as (so & pi & Qs & _). rewrite Qs in Hb.
    destruct (C01_sort_stable o1') as (so' & pi' & Qs' & _).
    assert (Told2 : same_told_at n (es1 ++ map C_Report rs) (es1' ++ map C_Report rs')).
    { apply told_at_app; [exact Told|]. unfold same_told_at. rewrite !map_map. cbn [told_at told].
      rewrite <- !(map_map rp_problem (fun p => inl p : problem + nat * nat)). apply Permutation_map. exact Pr. }
    destruct (es1 ++ map C_Report rs) as [|e0 el] eqn:Qe; [discriminate|]. injection Hb as <- <-.
    exists (es1' ++ map C_Report rs'), (ps_warnings s1'). split; [|split].
    - apply (ledger_by_steps L E canonicalize root c tc Lxc Nc). unfold ledger_steps. fold J. rewrite Pf', Pp', Qs'.
      destruct (es1' ++ map C_Report rs') as [|e1 el'] eqn:Qe'; [|reflexivity]. exfalso. apply Permutation_length in Told2. discriminate.
    - apply told_elements. exact Told2.
    - rewrite Warn, !map_app. apply Permutation_app_tail. exact PeA.
  Qed.

  (** There is always a result for a text which is fine. *)
  Lemma ledger_exists c tc : lex L c = Fine (Some tc) -> fine_content L E 0 c -> without K_Include (map fst tc) -> exists r, ledger_is L E canonicalize root c r.
  Proof.
    intros Lx (t & X & Cc & Oc) No. rewrite Lx in X. injection X as <-.
    assert (Ob0 : obeys E (ps_options default_pstate) initial_rules) by (split; cbn; [exact named_default|intro t; apply default_names_valid; apply En|reflexivity]).
    destruct (C39_file E _ root En Cc Oc default_pstate initial_rules Ob0) as (out & es1 & ws1 & r' & s1 & Pf & Fr & _).
    destruct (pass_alone canonicalize root _ (ps_options s1) (read_plain E (input_of 0 c tc) root _ _ _ _ _ No Fr)) as (o & opts & ps & rs & lf & Pp & _).
    destruct (C01_sort_stable o) as (so & pi & Qs & _).
    eexists. apply (ledger_by_steps L E canonicalize root c tc Lx No). unfold ledger_steps. rewrite Pf, Pp, Qs. reflexivity.
  Qed.

  (** So the one is a failure just when the other is. *)
  Theorem C79_iff : forall a b c ta tb tc dsA optsA psA wsA,
    lex L a = Fine (Some ta) -> lex L b = Fine (Some tb) -> lex L c = Fine (Some tc) ->
    map fst tc = map fst ta ++ map fst tb -> ended (map fst ta) -> hd_error (map fst tb) <> Some T_Indent ->
    fine_content L E 0 a -> fine_content L E 0 b ->
    without K_Include (map fst ta) -> without K_Include (map fst tb) ->
    ~ sets_rules (input_of 0 a ta) -> without K_Option (map fst ta) \/ without K_Option (map fst tb) ->
    ledger_is L E canonicalize root a (Success dsA optsA psA wsA) ->
    ((exists es ws, ledger_is L E canonicalize root b (Failure es ws)) <-> (exists es ws, ledger_is L E canonicalize root c (Failure es ws))).
  Proof.
    intros a b c ta tb tc dsA optsA psA wsA Lxa Lxb Lxc Tc Ed Hd Fa Fb Na Nb Nr On Ha. split.
    - intros (es & ws & Hb). destruct (C79_after a b c ta tb tc _ _ _ _ _ _ Lxa Lxb Lxc Tc Ed Hd Fa Fb Na Nb Nr On Ha Hb) as (es' & ws' & H & _). eauto.
    - intros (es & ws & Hc). destruct (ledger_exists b tb Lxb Fb Nb) as ([dsB optsB psB wsB|es' ws'] & Hb); [exfalso|eauto].
      destruct (C72_append L E En U canonicalize root Cano Root a b c ta tb tc _ _ _ _ _ _ _ _ Lxa Lxb Lxc Tc Ed Fa Fb Na Nb Nr On Ha Hb) as (dsC & optsC & psC & wsC & m & H & _).
      assert (Nc : without K_Include (map fst tc)) by (unfold without; rewrite Tc, in_app_iff; unfold without in *; tauto).
      pose proof (ledger_unique L E canonicalize root c tc _ _ Lxc Nc Hc H). discriminate.
  Qed.

  (** The same said of the texts themselves: the first is lines of words, with a
      newline after it, and the second starts with a line of its own. *)
  Theorem C79_text : forall (ND : forall c, u_Nd (le_unicode L) c = true -> u_Lu (le_unicode L) c = false /\ u_Lo (le_unicode L) c = false)
    fin la a ws lb b ta tb dsA optsA psA wsA es wsB,
    set_out L fin la a -> starts_afresh L true ws lb b ->
    lex L (a ++ [10%N]) = Fine (Some ta) -> lex L b = Fine (Some tb) ->
    fine_content L E 0 (a ++ [10%N]) -> fine_content L E 0 b ->
    without K_Include (map fst ta) -> without K_Include (map fst tb) ->
    ~ sets_rules (input_of 0 (a ++ [10%N]) ta) -> without K_Option (map fst ta) \/ without K_Option (map fst tb) ->
    ledger_is L E canonicalize root (a ++ [10%N]) (Success dsA optsA psA wsA) -> ledger_is L E canonicalize root b (Failure es wsB) ->
    exists es' ws', ledger_is L E canonicalize root (a ++ [10%N] ++ b) (Failure es' ws') /\
      same_elements (same_complaint (List.length ta)) es es' /\ Permutation (map rp_problem (wsA ++ wsB)) (map rp_problem ws').
  Proof.
    intros ND fin la a ws lb b ta tb dsA optsA psA wsA es wsB Sa Sb Lxa Lxb Fa Fb Na Nb Nr On Ha Hb.
    destruct (onto_tokens L U ND _ _ _ _ _ _ Sa Sb) as (ta' & tb' & tc & Qa & Qb & Qc & Tc & Ed). rewrite Lxa in Qa. injection Qa as <-. rewrite Lxb in Qb. injection Qb as <-.
    destruct (piece_afresh L U ND _ _ _ _ Sb) as (_ & Pb & _ & Ne). pose proof (tokens_afresh ws lb Pb Ne) as Af.
    destruct (C64_tokens L U ND _ _ _ (afresh_out L _ _ _ _ Sb)) as (tb2 & Qb & Mb). rewrite Lxb in Qb. injection Qb as <-.
    assert (Hd : hd_error (map fst tb) <> Some T_Indent).
    { rewrite Mb. intro H. destruct (ledger_tokens true ((false, ws) :: lb)) as [|t l] eqn:Q; [discriminate|]. cbn in H. injection H as ->. exact (Af l eq_refl). }
    exact (C79_after (a ++ [10%N]) b (a ++ [10%N] ++ b) ta tb tc _ _ _ _ _ _ Lxa Lxb Qc Tc Ed Hd Fa Fb Na Nb Nr On Ha Hb).
  Qed.
End After.

(** ** A case: a syntax error, a tag popped which was not pushed, and one left *)
Definition ex_wrong : str :=
  lit "2024-01-02 open" ++ [10%N] ++ lit "poptag #trip" ++ [10%N] ++ lit "2024-01-02 open Assets:Cash" ++ [10%N] ++ lit "pushtag #a" ++ [10%N].
Lemma ex_ledger_fails c : match ex_ledger c with Fine (Some (Failure _ _)) => True | _ => False end ->
  exists es ws, ledger_is P_Lexer.ex_env P_Grammar.ex_env (fun p => Some p) None c (Failure es ws) /\ ex_ledger c = Fine (Some (Failure es ws)).
Proof. destruct (ex_ledger c) as [[[|es ws]|]|] eqn:X; try (intros []; fail). intros _. exists es, ws. split; [apply ex_ledger_is; exact X|reflexivity]. Qed.

Example C79_ex : exists ta tb tc dsA optsA psA wsA r r' ws,
  let a := P_Append.ex_first in let b := ex_wrong in let c := P_Append.ex_first ++ ex_wrong in
  lex P_Lexer.ex_env a = Fine (Some ta) /\ lex P_Lexer.ex_env b = Fine (Some tb) /\ lex P_Lexer.ex_env c = Fine (Some tc) /\
  map fst tc = map fst ta ++ map fst tb /\ ended (map fst ta) /\ hd_error (map fst tb) <> Some T_Indent /\
  fine_content P_Lexer.ex_env P_Grammar.ex_env 0 a /\ fine_content P_Lexer.ex_env P_Grammar.ex_env 0 b /\
  without K_Include (map fst ta) /\ without K_Include (map fst tb) /\
  ~ sets_rules (input_of 0 a ta) /\ without K_Option (map fst tb) /\
  ledger_is P_Lexer.ex_env P_Grammar.ex_env (fun p => Some p) None a (Success dsA optsA psA wsA) /\
  ledger_is P_Lexer.ex_env P_Grammar.ex_env (fun p => Some p) None b (Failure [C_Syntax 0 0; C_Report r; C_Report r'] ws).
Proof.
  assert (Ca : check_content P_Lexer.ex_env P_Grammar.ex_env 0 P_Append.ex_first = true) by (vm_compute; reflexivity).
  assert (Cb : check_content P_Lexer.ex_env P_Grammar.ex_env 0 ex_wrong = true) by (vm_compute; reflexivity).
  assert (Cc : check_content P_Lexer.ex_env P_Grammar.ex_env 0 (P_Append.ex_first ++ ex_wrong) = true) by (vm_compute; reflexivity).
  destruct (ex_ledger_success P_Append.ex_first ltac:(vm_compute; exact Logic.I)) as (dsA & optsA & psA & wsA & HA & QA).
  destruct (ex_ledger_fails ex_wrong ltac:(vm_compute; exact Logic.I)) as (es & ws & HB & QB).
  assert (exists r r', es = [C_Syntax 0 0; C_Report r; C_Report r']) as (r & r' & Q).
  { clear - QB. vm_compute in QB. injection QB as <- _. eexists; eexists; reflexivity. }
  exists (ex_lexed P_Append.ex_first), (ex_lexed ex_wrong), (ex_lexed (P_Append.ex_first ++ ex_wrong)), dsA, optsA, psA, wsA, r, r', ws. cbn zeta.
  split; [apply ex_lexes; exact Ca|]. split; [apply ex_lexes; exact Cb|]. split; [apply ex_lexes; exact Cc|].
  split; [vm_compute; reflexivity|]. split; [right; exists (removelast (map fst (ex_lexed P_Append.ex_first))); vm_compute; reflexivity|].
  split; [vm_compute; discriminate|].
  split; [apply check_content_ok; exact Ca|]. split; [apply check_content_ok; exact Cb|].
  split; [apply check_without_include; vm_compute; reflexivity|]. split; [apply check_without_include; vm_compute; reflexivity|].
  split; [apply check_rules_ok; vm_compute; reflexivity|]. split; [apply check_without_option; vm_compute; reflexivity|].
  split; [exact HA|]. rewrite <- Q. exact HB.
Qed.

(** And texts which are lines of words. *)
Example C79_ex_text : exists dsA optsA psA wsA es wsB,
  let a := ex_tags in let b := lit "poptag #a" ++ [10%N] in let ta := ex_lexed (a ++ [10%N]) in let tb := ex_lexed b in
  set_out P_Lexer.ex_env false [(false, ex_push_line); (false, ex_pop_line)] a /\ starts_afresh P_Lexer.ex_env true ex_pop_line [] b /\
  lex P_Lexer.ex_env (a ++ [10%N]) = Fine (Some ta) /\ lex P_Lexer.ex_env b = Fine (Some tb) /\
  fine_content P_Lexer.ex_env P_Grammar.ex_env 0 (a ++ [10%N]) /\ fine_content P_Lexer.ex_env P_Grammar.ex_env 0 b /\
  without K_Include (map fst ta) /\ without K_Include (map fst tb) /\ ~ sets_rules (input_of 0 (a ++ [10%N]) ta) /\ without K_Option (map fst ta) /\
  ledger_is P_Lexer.ex_env P_Grammar.ex_env (fun p => Some p) None (a ++ [10%N]) (Success dsA optsA psA wsA) /\
  ledger_is P_Lexer.ex_env P_Grammar.ex_env (fun p => Some p) None b (Failure es wsB).
Proof.
  destruct (ex_ledger_success (ex_tags ++ [10%N]) ltac:(vm_compute; exact Logic.I)) as (dsA & optsA & psA & wsA & HA & QA).
  destruct (ex_ledger_fails (lit "poptag #a" ++ [10%N]) ltac:(vm_compute; exact Logic.I)) as (es & wsB & HB & QB).
  exists dsA, optsA, psA, wsA, es, wsB. cbn zeta. split; [exact ex_tags_out|].
  split; [rewrite <- (app_nil_r (lit "poptag #a")); apply (lines_afresh true ex_pop_line []); vm_compute; reflexivity|].
  do 2 (split; [apply ex_lexes; vm_compute; reflexivity|]). do 2 (split; [apply check_content_ok; vm_compute; reflexivity|]).
  do 2 (split; [apply check_without_include; vm_compute; reflexivity|]). split; [apply check_rules_ok; vm_compute; reflexivity|]. split; [apply check_without_option; vm_compute; reflexivity|].
  split; [exact HA|exact HB].
Qed.

(** ** What is necessary *)

(** That the first text sets no rules: when it renames the assets, an account of
    the second is an error which it is not alone. *)
Theorem C79_rules_refuted : exists L E a b dsA optsA psA wsA es ws es' ws',
  unicode_ok (le_unicode L) /\ environment_ok E /\ a = lit "option ""name_assets"" ""Actifs""" ++ [10%N] /\
  ledger_is L E (fun p => Some p) None a (Success dsA optsA psA wsA) /\ ledger_is L E (fun p => Some p) None b (Failure es ws) /\
  ledger_is L E (fun p => Some p) None (a ++ b) (Failure es' ws') /\ List.length es < List.length es'.
Proof.
  set (a := lit "option ""name_assets"" ""Actifs""" ++ [10%N]). set (b := lit "2024-01-02 open Assets:Cash" ++ [10%N] ++ lit "poptag #trip" ++ [10%N]).
  destruct (ex_ledger_success a ltac:(vm_compute; exact Logic.I)) as (dsA & optsA & psA & wsA & HA & QA).
  destruct (ex_ledger_fails b ltac:(vm_compute; exact Logic.I)) as (es & ws & HB & QB).
  destruct (ex_ledger_fails (a ++ b) ltac:(vm_compute; exact Logic.I)) as (es' & ws' & HC & QC).
  exists P_Lexer.ex_env, P_Grammar.ex_env, a, b, dsA, optsA, psA, wsA, es, ws, es', ws'.
  split; [exact P_Lexer.arabic_ok|]. split; [exact P_File.ex_environment|]. split; [reflexivity|]. do 3 (split; [assumption|]).
  clear - QB QC. vm_compute in QB, QC. injection QB as <- _. injection QC as <- _. cbn. repeat constructor.
Qed.
(** And that not both have options: the second title is an error. *)
Theorem C79_options_refuted : exists L E a b dsA optsA psA wsA es ws es' ws',
  unicode_ok (le_unicode L) /\ environment_ok E /\ a = lit "option ""title"" ""x""" ++ [10%N] /\
  ledger_is L E (fun p => Some p) None a (Success dsA optsA psA wsA) /\ ledger_is L E (fun p => Some p) None b (Failure es ws) /\
  ledger_is L E (fun p => Some p) None (a ++ b) (Failure es' ws') /\ List.length es < List.length es'.
Proof.
  set (a := lit "option ""title"" ""x""" ++ [10%N]). set (b := lit "option ""title"" ""y""" ++ [10%N] ++ lit "poptag #trip" ++ [10%N]).
  destruct (ex_ledger_success a ltac:(vm_compute; exact Logic.I)) as (dsA & optsA & psA & wsA & HA & QA).
  destruct (ex_ledger_fails b ltac:(vm_compute; exact Logic.I)) as (es & ws & HB & QB).
  destruct (ex_ledger_fails (a ++ b) ltac:(vm_compute; exact Logic.I)) as (es' & ws' & HC & QC).
  exists P_Lexer.ex_env, P_Grammar.ex_env, a, b, dsA, optsA, psA, wsA, es, ws, es', ws'.
  split; [exact P_Lexer.arabic_ok|]. split; [exact P_File.ex_environment|]. split; [reflexivity|]. do 3 (split; [assumption|]).
  clear - QB QC. vm_compute in QB, QC. injection QB as <- _. injection QC as <- _. cbn. repeat constructor.
Qed.

Print Assumptions C79_after.
Print Assumptions C79_iff.
Print Assumptions C79_text.
Print Assumptions C79_rules_refuted.
Print Assumptions C79_options_refuted.
