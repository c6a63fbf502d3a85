(** * C77, said of texts *)
From Coq Require Import String Ascii.
From Coq Require Import List NArith ZArith Arith Bool Lia Permutation.
From Verif Require Import Base BaseFacts Text Path PathFacts Sources Types SpecTypes TypesFacts P_Types SortM SpecSort P_Sort Options SpecOptions OptionsFacts P_Options
  Pragma SpecPragma PragmaRun P_Pragma Read SpecRead ReadFacts P_Read
  Token Lexer SpecLexer P_Lexer Peg PegFacts Grammar SpecExpr SpecGrammar SpecDirective SpecDisplay SpecLedger SpecAlike P_Grammar
  Parse SpecParse SpecWhole P_File P_Parse P_Order SpecPaste P_Paste SpecLayout P_Words
  SpecAppend AppendText P_Append SpecLocal Parts P_Local SpecWrap P_Wrap SpecSwap P_Swap TextLines P_Text SpecSaid SaidFacts P_Said.
Import SpecPragma Read.
Import ListNotations.
Local Open Scope nat_scope.
Local Notation ended := SpecAppend.ended.
Local Notation reads := SpecOptions.reads.
Local Notation nl := [10%N].

Section Texts.
  Context (L : lexer_env) (E : grammar_env) (En : environment_ok E) (U : unicode_ok (le_unicode L)).
  Context (ND : forall c, u_Nd (le_unicode L) c = true -> u_Lu (le_unicode L) c = false /\ u_Lo (le_unicode L) c = false).
  Context (canonicalize : path -> option path) (root : option path).
  Context (Cano : forall p q c d, same_path p q -> canonicalize p = Some c -> canonicalize q = Some d -> same_path c d).
  Context (Root : forall p, root = Some p -> canonicalize p <> None).

  (** The words of the line of a plugin. *)
  Definition plugin_words (w w1 : str) (module : str) (config : option (str * str)) : list word :=
    (w, T_Keyword K_Plugin) :: (w1, T_String module) :: match config with Some (w2, s) => [(w2, T_String s)] | None => [] end.
  Lemma plugin_tokens w w1 module config : ledger_tokens true [(false, plugin_words w w1 module config)] = plugin_line module (option_map snd config).
  Proof. destruct config as [[w2 s]|]; reflexivity. Qed.

  Theorem C77_option_delete_text : forall fin la a fe w w1 w2 name value e wb lb b ds opts ps ws,
    set_out L fin la a -> starts_afresh L fe [(w, T_Keyword K_Option); (w1, T_String name); (w2, T_String value)] [] e -> starts_afresh L true wb lb b ->
    ~ In name rule_names ->
    let c := a ++ nl ++ e ++ nl ++ b in
    fine_content L E 0 c -> says_no L K_Include c ->
    ledger_is L E canonicalize root c (Success ds opts ps ws) ->
    exists v ds' opts' ps' ws' more,
      reads (g_unicode E) (g_decimal E) root name value v /\ says_besides v opts opts' /\ (forall u, In u (said opts') -> ~ rivals u v) /\
      ledger_is L E canonicalize root (a ++ nl ++ b) (Success ds' opts' ps' ws') /\
      Forall2 (fun x y => alike (item x) (item y)) ds ds' /\ Forall2 alike_plugin ps ps' /\
      Permutation (map rp_problem ws) (map rp_problem ws' ++ more) /\ Forall (long_string_of L (e ++ nl)) more.
  Proof.
    intros fin la a fe w w1 w2 name value e wb lb b ds opts ps ws Ha He Hb Nr c Fc Ni H.
    destruct (piece_set_out L U ND _ _ _ Ha) as [_ Ea]. destruct (piece_afresh L U ND _ _ _ _ He) as (Pl & _). destruct (piece_afresh L U ND _ _ _ _ Hb) as (_ & Pb & _ & Nb).
    pose proof (piece_three L U ND _ _ _ _ _ _ _ _ _ _ Ha He Hb) as P3. fold c in P3. pose proof (piece_onto L U ND _ _ _ _ _ _ Ha Hb) as P2.
    pose proof (says_no_piece L _ _ _ P3 Ni) as Ni3. destruct P3 as (tc & Lx & Tc). destruct P2 as (tc' & Lx' & Tc'). rewrite <- Tc in Ni3.
    destruct (C77_option_delete L E En U canonicalize root Cano Root _ _ _ _ _ name value _ _ _ _ _ Lx Lx' Tc Tc' Ea (tokens_afresh wb lb Pb Nb) Nr Fc Ni3 H)
      as (v & ds' & opts' & ps' & ws' & limit & Rd & Sb & Nv & H' & A & P & W).
    exists v, ds', opts', ps', ws', (map rp_problem (long_strings limit (input_of 0 c tc) (List.length (ledger_tokens true la)) (List.length (ledger_tokens true la) + 4))).
    do 6 (split; [assumption|]). split; [rewrite <- map_app; exact W|]. change 4 with (List.length (option_line name value)); eapply long_strings_of; [exact Tc|exact Pl].
  Qed.

  Theorem C77_option_insert_text : forall fin la a fe w w1 w2 name value v e wb lb b ds' opts' ps' ws',
    set_out L fin la a -> starts_afresh L fe [(w, T_Keyword K_Option); (w1, T_String name); (w2, T_String value)] [] e -> starts_afresh L true wb lb b ->
    ~ In name rule_names ->
    let c' := a ++ nl ++ b in
    fine_content L E 0 c' -> says_no L K_Include c' ->
    reads (g_unicode E) (g_decimal E) root name value v -> (forall u, In u (said opts') -> ~ rivals u v) ->
    ledger_is L E canonicalize root c' (Success ds' opts' ps' ws') ->
    exists ds opts ps ws more,
      ledger_is L E canonicalize root (a ++ nl ++ e ++ nl ++ b) (Success ds opts ps ws) /\
      says_besides v opts opts' /\ Forall2 (fun x y => alike (item x) (item y)) ds ds' /\ Forall2 alike_plugin ps ps' /\
      Permutation (map rp_problem ws) (map rp_problem ws' ++ more) /\ Forall (long_string_of L (e ++ nl)) more.
  Proof.
    intros fin la a fe w w1 w2 name value v e wb lb b ds' opts' ps' ws' Ha He Hb Nr c' Fc' Ni Rd Nv H'.
    destruct (piece_set_out L U ND _ _ _ Ha) as [_ Ea]. destruct (piece_afresh L U ND _ _ _ _ He) as (Pl & _). destruct (piece_afresh L U ND _ _ _ _ Hb) as (_ & Pb & _ & Nb).
    pose proof (piece_three L U ND _ _ _ _ _ _ _ _ _ _ Ha He Hb) as P3. pose proof (piece_onto L U ND _ _ _ _ _ _ Ha Hb) as P2. fold c' in P2.
    pose proof (says_no_piece L _ _ _ P2 Ni) as Ni2. destruct P3 as (tc & Lx & Tc). destruct P2 as (tc' & Lx' & Tc'). rewrite <- Tc' in Ni2.
    destruct (C77_option_insert L E En U canonicalize root Cano Root _ _ _ _ _ name value v _ _ _ _ _ Lx Lx' Tc Tc' Ea (tokens_afresh wb lb Pb Nb) Nr Fc' Ni2 Rd Nv H')
      as (ds & opts & ps & ws & limit & H & Sb & A & P & W).
    exists ds, opts, ps, ws, (map rp_problem (long_strings limit (input_of 0 (a ++ nl ++ e ++ nl ++ b) tc) (List.length (ledger_tokens true la)) (List.length (ledger_tokens true la) + 4))).
    do 4 (split; [assumption|]). split; [rewrite <- map_app; exact W|]. change 4 with (List.length (option_line name value)); eapply long_strings_of; [exact Tc|exact Pl].
  Qed.

  Theorem C77_plugin_delete_text : forall fin la a fe w w1 module config e wb lb b ds opts ps ws,
    set_out L fin la a -> starts_afresh L fe (plugin_words w w1 module config) [] e -> starts_afresh L true wb lb b ->
    let c := a ++ nl ++ e ++ nl ++ b in
    fine_content L E 0 c -> says_no L K_Include c ->
    ledger_is L E canonicalize root c (Success ds opts ps ws) ->
    exists before x after ds' opts' ps' ws' more,
      ps = before ++ x :: after /\ item (pl_module x) = module /\ option_map item (pl_config x) = option_map snd config /\ Forall2 alike_plugin (before ++ after) ps' /\
      ledger_is L E canonicalize root (a ++ nl ++ b) (Success ds' opts' ps' ws') /\
      Forall2 (fun x y => alike (item x) (item y)) ds ds' /\ alike_options opts opts' /\
      Permutation (map rp_problem ws) (map rp_problem ws' ++ more) /\ Forall (long_string_of L (e ++ nl)) more.
  Proof.
    intros fin la a fe w w1 module config e wb lb b ds opts ps ws Ha He Hb c Fc Ni H.
    destruct (piece_set_out L U ND _ _ _ Ha) as [_ Ea]. destruct (piece_afresh L U ND _ _ _ _ He) as (Pl & _). destruct (piece_afresh L U ND _ _ _ _ Hb) as (_ & Pb & _ & Nb).
    pose proof (piece_three L U ND _ _ _ _ _ _ _ _ _ _ Ha He Hb) as P3. fold c in P3. pose proof (piece_onto L U ND _ _ _ _ _ _ Ha Hb) as P2.
    pose proof (says_no_piece L _ _ _ P3 Ni) as Ni3. destruct P3 as (tc & Lx & Tc). destruct P2 as (tc' & Lx' & Tc'). rewrite <- Tc in Ni3. rewrite plugin_tokens in Tc, Pl.
    destruct (C77_plugin_delete L E En U canonicalize root Cano Root _ _ _ _ _ _ _ _ _ _ _ _ Lx Lx' Tc Tc' Ea (tokens_afresh wb lb Pb Nb) Fc Ni3 H)
      as (before & x & after & ds' & opts' & ps' & ws' & limit & Qp & Qm & Qc & P & H' & A & O & W).
    exists before, x, after, ds', opts', ps', ws', (map rp_problem (long_strings limit (input_of 0 c tc) (List.length (ledger_tokens true la)) (List.length (ledger_tokens true la) + List.length (plugin_line module (option_map snd config))))).
    do 7 (split; [assumption|]). split; [rewrite <- map_app; exact W|]. eapply long_strings_of; [exact Tc|exact Pl].
  Qed.

  Theorem C77_plugin_insert_text : forall fin la a fe w w1 module config e wb lb b ds' opts' ps' ws',
    set_out L fin la a -> starts_afresh L fe (plugin_words w w1 module config) [] e -> starts_afresh L true wb lb b ->
    let c' := a ++ nl ++ b in
    fine_content L E 0 c' -> says_no L K_Include c' ->
    ledger_is L E canonicalize root c' (Success ds' opts' ps' ws') ->
    exists before x after ds opts ws more,
      ledger_is L E canonicalize root (a ++ nl ++ e ++ nl ++ b) (Success ds opts (before ++ x :: after) ws) /\
      item (pl_module x) = module /\ option_map item (pl_config x) = option_map snd config /\ Forall2 alike_plugin (before ++ after) ps' /\
      Forall2 (fun x y => alike (item x) (item y)) ds ds' /\ alike_options opts opts' /\
      Permutation (map rp_problem ws) (map rp_problem ws' ++ more) /\ Forall (long_string_of L (e ++ nl)) more.
  Proof.
    intros fin la a fe w w1 module config e wb lb b ds' opts' ps' ws' Ha He Hb c' Fc' Ni H'.
    destruct (piece_set_out L U ND _ _ _ Ha) as [_ Ea]. destruct (piece_afresh L U ND _ _ _ _ He) as (Pl & _). destruct (piece_afresh L U ND _ _ _ _ Hb) as (_ & Pb & _ & Nb).
    pose proof (piece_three L U ND _ _ _ _ _ _ _ _ _ _ Ha He Hb) as P3. pose proof (piece_onto L U ND _ _ _ _ _ _ Ha Hb) as P2. fold c' in P2.
    pose proof (says_no_piece L _ _ _ P2 Ni) as Ni2. destruct P3 as (tc & Lx & Tc). destruct P2 as (tc' & Lx' & Tc'). rewrite <- Tc' in Ni2. rewrite plugin_tokens in Tc, Pl.
    destruct (C77_plugin_insert L E En U canonicalize root Cano Root _ _ _ _ _ _ _ _ _ _ _ _ Lx Lx' Tc Tc' Ea (tokens_afresh wb lb Pb Nb) Fc' Ni2 H')
      as (before & x & after & ds & opts & ws & limit & H & Qm & Qc & P & A & O & W).
    exists before, x, after, ds, opts, ws, (map rp_problem (long_strings limit (input_of 0 (a ++ nl ++ e ++ nl ++ b) tc) (List.length (ledger_tokens true la)) (List.length (ledger_tokens true la) + List.length (plugin_line module (option_map snd config))))).
    do 6 (split; [assumption|]). split; [rewrite <- map_app; exact W|]. eapply long_strings_of; [exact Tc|exact Pl].
  Qed.
End Texts.

Print Assumptions C77_option_delete.
Print Assumptions C77_option_insert.
Print Assumptions C77_plugin_delete.
Print Assumptions C77_plugin_insert.
Print Assumptions C77_option_delete_text.
Print Assumptions C77_option_insert_text.
Print Assumptions C77_plugin_delete_text.
Print Assumptions C77_plugin_insert_text.

(** ** Examples *)

(** An option between two lines, after another of the same name which says
    something else: taken out or put in. *)
Definition ex_currency (s : str) : list word := [kw K_Option; quoted (lit "operating_currency"); quoted s].
Example C77_ex_option : exists ds opts ps ws ds' opts' ps' ws' v,
  let a := lines_text (ex_currency (lit "USD")) [] in let e := lines_text (ex_currency (lit "CHF")) [] in let b := line_text ex_notes ++ nl in
  let c := a ++ nl ++ e ++ nl ++ b in let c' := a ++ nl ++ b in
  c = lit "option ""operating_currency"" ""USD""" ++ nl ++ lit "option ""operating_currency"" ""CHF""" ++ nl ++ lit "2024-01-01 note Assets:Cash ""n""" ++ nl /\
  set_out P_Lexer.ex_env false [(false, ex_currency (lit "USD"))] a /\ starts_afresh P_Lexer.ex_env false (ex_currency (lit "CHF")) [] e /\ starts_afresh P_Lexer.ex_env true ex_notes [] b /\
  ~ In (lit "operating_currency") rule_names /\
  fine_content P_Lexer.ex_env P_Grammar.ex_env 0 c /\ fine_content P_Lexer.ex_env P_Grammar.ex_env 0 c' /\ says_no P_Lexer.ex_env K_Include c /\ says_no P_Lexer.ex_env K_Include c' /\
  reads (g_unicode P_Grammar.ex_env) (g_decimal P_Grammar.ex_env) None (lit "operating_currency") (lit "CHF") v /\ (forall u, In u (said opts') -> ~ rivals u v) /\
  ledger_is P_Lexer.ex_env P_Grammar.ex_env (fun p => Some p) None c (Success ds opts ps ws) /\ said opts = [O_OperatingCurrency (lit "USD"); O_OperatingCurrency (lit "CHF")] /\
  ledger_is P_Lexer.ex_env P_Grammar.ex_env (fun p => Some p) None c' (Success ds' opts' ps' ws') /\ said opts' = [O_OperatingCurrency (lit "USD")] /\ List.length ds = 1.
Proof.
  set (a := lines_text (ex_currency (lit "USD")) []). set (e := lines_text (ex_currency (lit "CHF")) []). set (b := line_text ex_notes ++ nl).
  destruct (ex_ledger_success (a ++ nl ++ e ++ nl ++ b) ltac:(vm_compute; exact Logic.I)) as (ds & opts & ps & ws & HA & QA).
  destruct (ex_ledger_success (a ++ nl ++ b) ltac:(vm_compute; exact Logic.I)) as (ds' & opts' & ps' & ws' & HB & QB).
  exists ds, opts, ps, ws, ds', opts', ps', ws', (O_OperatingCurrency (lit "CHF")). cbn zeta. split; [vm_compute; reflexivity|].
  split; [apply lines_out; vm_compute; reflexivity|]. split; [unfold e; rewrite <- (app_nil_r (lines_text _ _)); apply (lines_afresh false); vm_compute; reflexivity|].
  split; [unfold b; rewrite <- (app_nil_r (line_text ex_notes)); apply (lines_afresh true ex_notes []); vm_compute; reflexivity|].
  split; [vm_compute; intros X; repeat (destruct X as [X|X]; [discriminate X|]); exact X|].
  do 2 (split; [apply check_content_ok; vm_compute; reflexivity|]). do 2 (split; [apply check_no; vm_compute; reflexivity|]).
  split; [apply (C49_option_value _ _ _ _ _ _ (env_unicode _ P_File.ex_environment)); vm_compute; reflexivity|].
  assert (S1 : said opts = [O_OperatingCurrency (lit "USD"); O_OperatingCurrency (lit "CHF")]) by (clear - QA; vm_compute in QA; injection QA as _ <- _ _; vm_compute; reflexivity).
  assert (S2 : said opts' = [O_OperatingCurrency (lit "USD")]) by (clear - QB; vm_compute in QB; injection QB as _ <- _ _; vm_compute; reflexivity).
  split; [rewrite S2; intros u [<-|[]] (s & s' & X & Y & Z); injection X as <-; injection Y as <-; vm_compute in Z; discriminate Z|].
  split; [exact HA|]. split; [exact S1|]. split; [exact HB|]. split; [exact S2|]. clear - QA. vm_compute in QA. injection QA as <- _ _ _. reflexivity.
Qed.

Definition ex_plugin : list word := plugin_words (lit "plugin") (lit """p""") (lit "p") (Some (lit """x""", lit "x")).
Example C77_ex_plugin : exists ds opts ps ws ds' opts' ps' ws',
  let a := text_of ex_before in let e := lines_text ex_plugin [] in let b := line_text ex_notes ++ nl in
  let c := a ++ nl ++ e ++ nl ++ b in let c' := a ++ nl ++ b in
  set_out P_Lexer.ex_env false ((false, fst ex_before) :: snd ex_before) a /\ starts_afresh P_Lexer.ex_env false ex_plugin [] e /\ starts_afresh P_Lexer.ex_env true ex_notes [] b /\
  fine_content P_Lexer.ex_env P_Grammar.ex_env 0 c /\ fine_content P_Lexer.ex_env P_Grammar.ex_env 0 c' /\ says_no P_Lexer.ex_env K_Include c /\ says_no P_Lexer.ex_env K_Include c' /\
  ledger_is P_Lexer.ex_env P_Grammar.ex_env (fun p => Some p) None c (Success ds opts ps ws) /\ map (fun p => item (pl_module p)) ps = [lit "p"] /\
  ledger_is P_Lexer.ex_env P_Grammar.ex_env (fun p => Some p) None c' (Success ds' opts' ps' ws') /\ ps' = [] /\ List.length ds = 2.
Proof.
  set (a := text_of ex_before). set (e := lines_text ex_plugin []). set (b := line_text ex_notes ++ nl).
  destruct (ex_ledger_success (a ++ nl ++ e ++ nl ++ b) ltac:(vm_compute; exact Logic.I)) as (ds & opts & ps & ws & HA & QA).
  destruct (ex_ledger_success (a ++ nl ++ b) ltac:(vm_compute; exact Logic.I)) as (ds' & opts' & ps' & ws' & HB & QB).
  exists ds, opts, ps, ws, ds', opts', ps', ws'. cbn zeta.
  split; [apply lines_out; vm_compute; reflexivity|]. split; [unfold e; rewrite <- (app_nil_r (lines_text _ _)); apply (lines_afresh false); vm_compute; reflexivity|].
  split; [unfold b; rewrite <- (app_nil_r (line_text ex_notes)); apply (lines_afresh true ex_notes []); vm_compute; reflexivity|].
  do 2 (split; [apply check_content_ok; vm_compute; reflexivity|]). do 2 (split; [apply check_no; vm_compute; reflexivity|]).
  split; [exact HA|]. split; [clear - QA; vm_compute in QA; injection QA as _ _ <- _; reflexivity|]. split; [exact HB|]. split; [clear - QB; vm_compute in QB; injection QB as _ _ <- _; reflexivity|].
  clear - QA. vm_compute in QA. injection QA as <- _ _ _. reflexivity.
Qed.

(** ** What is necessary *)
Lemma ex_ledger_failure c : match ex_ledger c with Fine (Some (Failure _ _)) => True | _ => False end -> exists es ws, ledger_is P_Lexer.ex_env P_Grammar.ex_env (fun p => Some p) None c (Failure es ws).
Proof. destruct (ex_ledger c) as [[[|es ws]|]|] eqn:X; try (intros []; fail). intros _. exists es, ws. apply ex_ledger_is. exact X. Qed.

(** That no other option sets the same: a second title is an error. *)
Theorem C77_rival_refuted : exists L E c' e v ds' opts' ps' ws' es ws,
  unicode_ok (le_unicode L) /\ environment_ok E /\
  e = lit "option ""title"" ""y""" ++ nl /\ ~ In (lit "title") rule_names /\ reads (g_unicode E) (g_decimal E) None (lit "title") (lit "y") v /\
  ledger_is L E (fun p => Some p) None c' (Success ds' opts' ps' ws') /\ ledger_is L E (fun p => Some p) None (c' ++ e) (Failure es ws).
Proof.
  destruct (ex_ledger_success (lit "option ""title"" ""x""" ++ nl) ltac:(vm_compute; exact Logic.I)) as (dsA & optsA & psA & wsA & HA & _).
  destruct (ex_ledger_failure ((lit "option ""title"" ""x""" ++ nl) ++ lit "option ""title"" ""y""" ++ nl) ltac:(vm_compute; exact Logic.I)) as (es & ws & HC).
  exists P_Lexer.ex_env, P_Grammar.ex_env, (lit "option ""title"" ""x""" ++ nl), (lit "option ""title"" ""y""" ++ nl), (O_Title (lit "y")), dsA, optsA, psA, wsA, es, ws.
  split; [exact P_Lexer.arabic_ok|]. split; [exact P_File.ex_environment|]. split; [reflexivity|]. split; [vm_compute; intros X; repeat (destruct X as [X|X]; [discriminate X|]); exact X|].
  split; [apply (C49_option_value _ _ _ _ _ _ (env_unicode _ P_File.ex_environment)); vm_compute; reflexivity|]. split; [exact HA|exact HC].
Qed.

(** That the option is not for the parser itself: the name of the assets decides
    which accounts there are. *)
Theorem C77_rule_refuted : exists L E e b v ds' opts' ps' ws' es ws,
  unicode_ok (le_unicode L) /\ environment_ok E /\
  e = lit "option ""name_assets"" ""Actifs""" ++ nl /\ reads (g_unicode E) (g_decimal E) None (lit "name_assets") (lit "Actifs") v /\
  (forall u, In u (said opts') -> ~ rivals u v) /\
  ledger_is L E (fun p => Some p) None b (Success ds' opts' ps' ws') /\ ledger_is L E (fun p => Some p) None (e ++ b) (Failure es ws).
Proof.
  destruct (ex_ledger_success (lit "2024-01-02 open Assets:Cash" ++ nl) ltac:(vm_compute; exact Logic.I)) as (dsA & optsA & psA & wsA & HA & QA).
  destruct (ex_ledger_failure ((lit "option ""name_assets"" ""Actifs""" ++ nl) ++ lit "2024-01-02 open Assets:Cash" ++ nl) ltac:(vm_compute; exact Logic.I)) as (es & ws & HC).
  exists P_Lexer.ex_env, P_Grammar.ex_env, (lit "option ""name_assets"" ""Actifs""" ++ nl), (lit "2024-01-02 open Assets:Cash" ++ nl), (O_AccountTypeName Assets (lit "Actifs")), dsA, optsA, psA, wsA, es, ws.
  split; [exact P_Lexer.arabic_ok|]. split; [exact P_File.ex_environment|]. split; [reflexivity|].
  split; [apply (C49_option_value _ _ _ _ _ _ (env_unicode _ P_File.ex_environment)); vm_compute; reflexivity|].
  split; [|split; [exact HA|exact HC]]. clear - QA. vm_compute in QA. injection QA as _ <- _ _. vm_compute. intros u [].
Qed.

Print Assumptions C77_rival_refuted.
Print Assumptions C77_rule_refuted.
