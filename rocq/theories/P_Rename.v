(** * C80: accounts, and account types, under other names *)
From Coq Require Import String Ascii.
From Coq Require Import List NArith ZArith Arith Bool Lia Permutation.
From Verif Require Import Base BaseFacts Text Path PathFacts Sources Types SpecTypes TypesFacts P_Types SortM SpecSort P_Sort Options SpecOptions OptionsFacts P_Options
  Pragma SpecPragma PragmaRun P_Pragma Read SpecRead ReadFacts P_Read
  Token Lexer SpecLexer P_Lexer Peg PegFacts Grammar SpecExpr SpecGrammar SpecDirective SpecDisplay SpecLedger SpecAlike ExprFacts P_Grammar
  Parse SpecParse SpecWhole ParseFacts ParseOnce ParseFile P_File P_Includes P_Parse IncludeTokens P_Order P_Complete AlikeRead AlikeFile AlikeWalk AlikeOptions SortFacts SimCopy SpecPaste Paste P_Paste SpecLayout P_Words P_Newline SpecAppend Append AppendText P_Append
  SpecRename Rename RenameRun.
Import SpecPragma Read.
Import ListNotations.
Local Open Scope nat_scope.
Local Notation ended := SpecAppend.ended.

Section Rename.
  Context (L : lexer_env) (E : grammar_env) (En : environment_ok E) (U : unicode_ok (le_unicode L)).
  Context (canonicalize : path -> option path) (root : option path).
  Context (Cano : forall p q c d, same_path p q -> canonicalize p = Some c -> canonicalize q = Some d -> same_path c d).
  Context (Root : forall p, root = Some p -> canonicalize p <> None).

  (** Where options only name account types, they are no settings, and there is
      no limit for strings. *)
  Lemma names_idle I r i ds ws r' : only_names I -> tiles E I root r i ds [] ws r' -> idle (options_of (map (here root) ds)) /\ rl_limit r' = rl_limit r.
  Proof.
    intros On T. remember (@nil report) as es0 eqn:Q in T. revert Q. induction T as [r i F|r i j d es r1 ds es' ws r' D T IH]; intro Q; [split; [constructor|reflexivity]|].
    apply app_eq_nil in Q. destruct Q as [-> ->]. destruct (IH eq_refl) as [Id Li]. unfold options_of in *. cbn [map flat_map].
    remember (@nil report) as es0 eqn:Q in D. destruct D as [x e W|k q H L0|k o' e r2 [a b name value o2 e' r3 Tk [W _] [W' _] Ef] L0].
    - auto.
    - destruct H; auto.
    - inversion W as [x T1 Y]; subst. specialize (On i (item name) Tk T1).
      remember (@nil report) as es1 eqn:Q1 in Ef. destruct Ef as [t s R _|t t' s R _ _|m R|v R Hv|_|z _]; try discriminate.
      + cbn in Li |- *. split; [constructor; [reflexivity|exact Id]|exact Li].
      + exfalso. inversion R; subst. match goal with H : _ = item name |- _ => rewrite <- H in On end. clear - On. cbn [In map] in On. decompose [or] On; discriminate || assumption.
      + exfalso. clear - On R Hv. inversion R; subst; try exact Hv; match goal with H : _ = item name |- _ => rewrite <- H in On end; clear - On; try destruct w; cbn [In map] in On; decompose [or] On; discriminate || assumption.
  Qed.

  Section Body.
    Context (rn : str -> str) (a c : str) (ta tc : list rtoken) (dsA : list (spanned directive)) (optsA : options) (psA : list plugin) (wsA : list report).
    Context (Lxa : lex L a = Fine (Some ta)) (Lxc : lex L c = Fine (Some tc)).
    Context (Fa : fine_content L E 0 a) (Na : without K_Include (map fst ta)) (Nr : ~ sets_rules (input_of 0 a ta)).
    Context (Ha : ledger_is L E canonicalize root a (Success dsA optsA psA wsA)).
    (* what comes before *)
    Context (h : str) (th : list rtoken) (dh : list (spanned declaration)) (rH : rules) (poH : parser_options) (yH dsH : list (spanned directive)) (wsH : list report).
    Context (Nh : without K_Include (map fst th)) (Edh : ended (map fst th)) (Ch : computable E (input_of 0 h th)) (Oh : fine_options (input_of 0 h th)).
    Context (TH : tiles E (input_of 0 h th) root initial_rules 0 dh [] wsH rH) (NpH : Forall (fun d => is_include (item d) = false) dh).
    Context (DuH : dues canonicalize [] [] [] (map (here root) dh) []) (LeH : leftover (map (here root) dh) []) (IdH : idle (options_of (map (here root) dh))).
    Context (YH : yields [] (map (here root) dh) yH) (SoH : sorted_from yH dsH) (ObH : obeys E poH rH) (LiH : rl_limit rH = None).
    Context (Car : carries rn (g_unicode E) default_names (rl_names rH)).
    Context (Tc : map fst tc = map fst th ++ map (rename_token rn) (map fst ta)).
    Let ref := options_new poH.

    Lemma renamed_ledger : exists dsC optsC psC wsC merged,
      ledger_is L E canonicalize root c (Success dsC optsC psC wsC) /\
      sorted_from (dsH ++ map (in_place (rename_directive rn)) dsA) merged /\ Forall2 (fun d d' => alike (item d) (item d')) merged dsC /\
      Forall2 alike_plugin (plugins_of (map (here root) dh) ++ psA) psC /\ alike_options (under_rules_of ref optsA) optsC /\
      Permutation (map rp_problem (wsH ++ wsA)) (map rp_problem wsC).
    Proof.
      destruct Fa as (t & X & Ca & Oa). rewrite Lxa in X. injection X as <-.
      destruct (alone_success L E En U canonicalize root Cano Root a ta Lxa Ca Oa Na _ _ _ _ Ha) as (da & rA & poA & yA & TA & NpA & DuA & LeA & YA & SoA & ObA & -> & ->).
      assert (Ns : forall x, ~ sets_rule_at (input_of 0 a ta) x) by (intros x (n & v & Sr); apply Nr; exists x, n, v; exact Sr).
      set (tj := map (fun x => (rename_token rn (fst x), snd x)) ta).
      set (I := input_of 0 a ta) in *. set (J0 := input_of 0 a tj).
      assert (Sr : in_source J0 = in_source I) by reflexivity. assert (Ln : in_len J0 = in_len I) by reflexivity.
      assert (Tk : in_tokens J0 = map (fun x => (rename_token rn (fst x), snd x)) (in_tokens I)) by reflexivity.
      assert (Qj : map fst tj = map (rename_token rn) (map fst ta)) by (unfold tj; rewrite !map_map; reflexivity).
      pose proof (computable_J E rn I J0 Tk Ca) as Cj0. pose proof (fine_options_J rn I J0 Tk Oa) as Oj0.
      destruct (tiles_J E rn I J0 default_names (rl_names rH) Car Sr Ln Tk (fun i j e S => proj1 (proj1 (bounds I) i j e S)) root initial_rules rH eq_refl eq_refl (eq_sym LiH) Ns
        (fun r0 i H => ParseOnce.not_indented E I root r0 i H) 0 da [] wsA rA TA) as [-> TJ].
      set (db := map (in_place (rename_declaration rn)) da) in *.
      assert (Nb : without K_Include (map fst tj)).
      { unfold without in *. rewrite Qj. intro H. apply in_map_iff in H. destruct H as (x & Q & H). apply Na. destruct x; try discriminate; cbn in Q; congruence. }
      pose proof (renamed_plain rn da NpA) as NpB. fold db in NpB.
      assert (Tc' : map fst tc = map fst th ++ map fst tj) by (rewrite Qj; exact Tc).
      pose proof (joined_computable (input_of 0 h th) J0 (input_of 0 c tc) Tc' Edh E Ch Cj0) as Cc.
      pose proof (joined_fine_options (input_of 0 h th) J0 (input_of 0 c tc) Tc' Edh Oh Oj0) as Oc.
      set (J := input_of 0 c tc) in *.
      destruct (copied_on E En root c tc h th dh wsH initial_rules rH Cc Oc Ch Oh Nh (obeyed E En) (ex_intro _ _ ObH) TH NpH) as [CaH RdH].
      destruct (copied_on E En root c tc a tj db wsA rH rH Cc Oc Cj0 Oj0 Nb (ex_intro _ _ ObH) (ex_intro _ _ ObH) TJ NpB) as [CaB RdB]. fold J in RdH, RdB.
      assert (K0 : kin E initial_rules initial_rules).
      { destruct (obeyed E En) as [p0 X]. exists p0, p0. repeat split; apply X. }
      assert (R0 : rest_at J 0 (map fst th ++ map fst tj)) by (split; [apply Nat.le_0_l|cbn; exact Tc']).
      destruct (RdH initial_rules 0 (map fst tj) (map fst tj) K0 R0 (lined_closes _ _ Edh) CaB) as (dh' & wsH' & k & r1 & RuH & Rk & K1 & AlH & PeH).
      assert (Rk' : rest_at J k (map fst tj ++ [])) by (rewrite app_nil_r; exact Rk).
      assert (Cl : closes (map fst tj) [] []).
      { destruct (last_cases (map fst tj)) as [->|(u & t & ->)]; [constructor|]. destruct (token_eol_dec t) as [->|Ne]; constructor; exact Ne. }
      destruct (RdB r1 k [] [] K1 Rk' Cl ltac:(discriminate)) as (db' & wsB' & k2 & r2 & RuB & Rk2 & K2 & AlB & PeB).
      assert (Fk : finished J k2) by (apply rest_finished in Rk2; unfold finished; apply nth_error_None; lia).
      pose proof (runs_tiles _ _ _ _ _ _ _ _ _ (runs_app _ _ _ _ _ _ _ _ _ _ _ _ _ RuH RuB) Fk) as T2.
      assert (Nc : without K_Include (map fst tc)) by (unfold without; rewrite Tc', in_app_iff; unfold without in *; tauto).
      assert (NpAB : Forall (fun d => is_include (item d) = false) (dh ++ db)) by (apply Forall_app; auto).
      pose proof (Forall2_app AlH AlB) as Al.
      assert (Np2 : Forall (fun d => is_include (item d) = false) (dh' ++ db')).
      { clear - NpAB Al. revert NpAB. induction Al as [|d d' l l' Ad Al IH]; intro Np; constructor; inversion Np; subst; auto. rewrite <- (alike_include _ _ _ Ad). assumption. }
      set (eH := map (here root) dh) in *. set (eB := map (here root) db) in *.
      assert (Qe : map (here root) (dh ++ db) = eH ++ eB) by apply map_app.
      assert (DuAB : dues canonicalize [] [] [] (map (here root) (dh ++ db)) []).
      { rewrite Qe. change (@nil report) with (@nil report ++ []). apply dues_app; [exact DuH|]. cbn [app]. rewrite <- (app_nil_r eH).
        exact (renamed_dues rn root canonicalize eH LeH IdH da NpA [] DuA). }
      pose proof (renamed_leftover rn root da LeA) as LeB. fold db eB in LeB.
      assert (LeAB : leftover (map (here root) (dh ++ db)) []).
      { rewrite Qe. apply leftover_none. pose proof LeB as X. apply leftover_none in X. destruct X as [X Y]. split; intro; [rewrite (after_tags _ LeH)|rewrite (after_metas _ LeH)]; auto. }
      pose proof (renamed_yields rn root da [] yA YA) as YB. cbn [map] in YB. fold db eB in YB.
      assert (YAB : yields [] (map (here root) (dh ++ db)) (yH ++ map (in_place (rename_directive rn)) yA)).
      { rewrite Qe. apply yields_app; [exact YH|]. cbn [app]. rewrite <- (app_nil_r eH). apply after_yields; auto. }
      pose proof (alike_here root _ _ Al) as Ae.
      assert (St : plain (map (here root) (dh ++ db)) = dh ++ db).
      { clear - NpAB. induction NpAB as [|d ds Nd Np IH]; [reflexivity|]. cbn [map]. unfold here at 1. unfold plain in *. cbn [flat_map]. rewrite Nd, IH. reflexivity. }
      assert (Du' : dues canonicalize [] [] [] (map (here root) (dh' ++ db')) []).
      { eapply (strip_dues root canonicalize [] [] [] [] [] _ DuAB [] (dh' ++ db') (Forall2_nil _)). rewrite St. exact Al. }
      pose proof (alike_leftover any _ _ Ae LeAB) as Le'.
      destruct (alone_parses L E En U canonicalize root Cano Root c tc Lxc Cc Oc Nc _ _ _ T2 Np2 Du' Le') as (po2 & y2 & sorted & Y2 & So2 & Ob2 & Lg).
      destruct (sorted_exists (dsH ++ map (in_place (rename_directive rn)) dsA)) as (merged & Sm).
      pose proof (alike_options_of any _ _ Ae) as Qo. rewrite Qe in Qo.
      exists sorted, (fst (assimilate_all (options_new po2) (options_of (map (here root) (dh' ++ db'))))), (plugins_of (map (here root) (dh' ++ db'))), (wsH' ++ wsB'), merged.
      split; [exact Lg|]. split; [exact Sm|]. split; [|split; [|split]].
      - eapply alike_sorted; [|exact (sorted_parts _ _ _ _ _ SoH (renamed_sorted rn _ _ SoA) Sm)|exact So2]. eapply alike_yields; [exact YAB|apply Forall2_nil|exact Ae|exact Y2].
      - pose proof (alike_plugins_of any _ _ Ae) as X. rewrite Qe in X. unfold plugins_of in X at 1. rewrite flat_map_app in X. fold (plugins_of eH) (plugins_of eB) in X.
        unfold eB, db in X. rewrite (renamed_plugins rn root) in X. exact X.
      - rewrite <- under_assimilate. change (under_rules_of ref (options_new poA)) with (options_new poH).
        pose proof (alike_opts E poH po2 rH r2 (eH ++ eB) (map (here root) (dh' ++ db')) ObH Ob2 K2 Qo) as X.
        unfold options_of in X at 1. rewrite flat_map_app in X. fold (options_of eH) (options_of eB) in X. rewrite (idle_assimilate _ _ IdH) in X.
        unfold eB, db in X. rewrite (renamed_options rn root) in X. exact X.
      - rewrite !map_app. apply Permutation_app; assumption.
    Qed.
  End Body.

  (** When a text is a ledger without includes, parsed successfully, which sets
      no rules, and every account of it, as it may be written under the names of the
      account types there are, is renamed into one of the same type, then a text
      with the same tokens but for the renamed accounts is parsed successfully too.
      What comes out is the same with the accounts renamed. *)
  Theorem C80_accounts : forall rename a c ta tc ds opts ps ws,
    lex L a = Fine (Some ta) -> lex L c = Fine (Some tc) ->
    map fst tc = map (rename_token rename) (map fst ta) -> carries rename (g_unicode E) default_names default_names ->
    fine_content L E 0 a -> without K_Include (map fst ta) -> ~ sets_rules (input_of 0 a ta) ->
    ledger_is L E canonicalize root a (Success ds opts ps ws) ->
    exists ds' opts' ps' ws', ledger_is L E canonicalize root c (Success ds' opts' ps' ws') /\
      Forall2 (fun d d' => alike (rename_directive rename (item d)) (item d')) ds ds' /\
      alike_options opts opts' /\ Forall2 alike_plugin ps ps' /\ Permutation (map rp_problem ws) (map rp_problem ws').
  Proof.
    intros rn a c ta tc ds opts ps ws Lxa Lxc Tc Car Fa Na Nr Ha.
    pose proof Fa as (t & X & Ca & Oa). rewrite Lxa in X. injection X as <-.
    destruct (alone_success L E En U canonicalize root Cano Root a ta Lxa Ca Oa Na _ _ _ _ Ha) as (da & rA & poA & yA & TA & NpA & DuA & LeA & YA & SoA & ObA & Qo & _).
    assert (rA = initial_rules) as ->.
    { eapply (tiles_settled E En _ _ _ _ _ _ _ _ Ca Oa (obeyed E En)); [|exact TA]. intros x _ (n & v & Sr). apply Nr. exists x, n, v. exact Sr. }
    assert (Fin : finished (input_of 0 [] []) 0) by reflexivity.
    assert (Lf : leftover [] []) by (apply leftover_none; split; reflexivity).
    assert (So : sorted_from [] []).
    { exists []. split; [constructor|]. split; [reflexivity|]. intros i j x y (_ & H & _). destruct i; discriminate. }
    assert (Cm : computable E (input_of 0 [] [])).
    { split; [intros i s [r X]; destruct i; discriminate|]. intros i j e _ [S _]. apply bounds in S. cbn in S. lia. }
    assert (Fo : fine_options (input_of 0 [] [])) by (intros i n v x [r X]; destruct i; discriminate).
    destruct (renamed_ledger rn a c ta tc ds opts ps ws Lxa Lxc Fa Na Nr Ha [] [] [] initial_rules poA [] [] [] ltac:(intros []) ltac:(left; reflexivity) Cm Fo
      (tiles_end _ _ _ _ _ Fin) ltac:(constructor) ltac:(constructor) Lf ltac:(constructor) ltac:(constructor) So ObA eq_refl Car Tc)
      as (ds' & opts' & ps' & ws' & merged & Lg & Sm & Al & Pl & Op & Pe).
    exists ds', opts', ps', ws'. split; [exact Lg|]. cbn [app map plugins_of flat_map] in *. split; [|split; [|auto]].
    - rewrite (sorted_again _ _ _ (renamed_sorted rn _ _ SoA) Sm) in Al. clear - Al. remember (map (in_place (rename_directive rn)) ds) as l eqn:Q. revert ds Q.
      induction Al as [|x y l l' A Al IH]; intros [|d ds] Q; try discriminate; constructor; cbn in Q; injection Q as -> Q; auto.
    - assert (Z : under_rules_of (options_new poA) opts = opts).
      { pose proof (C12_first_wins poA (options_of (map (here root) da))) as X. cbn zeta in X. rewrite <- Qo in X. unfold under_rules_of. cbn. destruct X as (_ & _ & _ & _ & _ & _ & _ & _ & X). rewrite <- X. destruct opts; reflexivity. }
      rewrite Z in Op. exact Op.
  Qed.

  (** The account types can be given other names, and all accounts with them: a
      text is put in front which names them, and in which no other options
      are. *)
  Theorem C80_rename : forall rename names h a c th ta tc dsH optsH psH wsH dsA optsA psA wsA,
    lex L h = Fine (Some th) -> lex L a = Fine (Some ta) -> lex L c = Fine (Some tc) ->
    map fst tc = map fst th ++ map (rename_token rename) (map fst ta) -> ended (map fst th) ->
    only_names (input_of 0 h th) -> (forall t, options_account_type_name optsH t = Fine (names t)) ->
    carries rename (g_unicode E) default_names names ->
    fine_content L E 0 h -> fine_content L E 0 a -> without K_Include (map fst th) -> without K_Include (map fst ta) -> ~ sets_rules (input_of 0 a ta) ->
    ledger_is L E canonicalize root h (Success dsH optsH psH wsH) -> ledger_is L E canonicalize root a (Success dsA optsA psA wsA) ->
    exists dsC optsC psC wsC merged,
      ledger_is L E canonicalize root c (Success dsC optsC psC wsC) /\
      sorted_from (dsH ++ map (in_place (rename_directive rename)) dsA) merged /\ Forall2 (fun d d' => alike (item d) (item d')) merged dsC /\
      Forall2 alike_plugin (psH ++ psA) psC /\ alike_options (under_rules_of optsH optsA) optsC /\
      Permutation (map rp_problem (wsH ++ wsA)) (map rp_problem wsC).
  Proof.
    intros rn names h a c th ta tc dsH optsH psH wsH dsA optsA psA wsA Lxh Lxa Lxc Tc Ed On Nm Car Fh Fa Nh Na Nr Hh Ha.
    destruct Fh as (t & X & Ch & Oh). rewrite Lxh in X. injection X as <-.
    destruct (alone_success L E En U canonicalize root Cano Root h th Lxh Ch Oh Nh _ _ _ _ Hh) as (dh & rH & poH & yH & TH & NpH & DuH & LeH & YH & SoH & ObH & Qo & ->).
    destruct (names_idle _ _ _ _ _ _ On TH) as [IdH LiH].
    assert (Po : os_parser_options optsH = poH).
    { pose proof (C12_first_wins poH (options_of (map (here root) dh))) as X. cbn zeta in X. rewrite <- Qo in X. apply X. }
    assert (Car' : carries rn (g_unicode E) default_names (rl_names rH)).
    { intros t ws F. destruct (Car t ws F) as (ws' & F' & Q). exists ws'. split; [exact F'|]. rewrite Q. f_equal. f_equal.
      specialize (Nm t). unfold options_account_type_name in Nm. rewrite Po, (proj1 (ob_named _ _ _ ObH)) in Nm. congruence. }
    destruct (renamed_ledger rn a c ta tc dsA optsA psA wsA Lxa Lxc Fa Na Nr Ha h th dh rH poH yH dsH wsH Nh Ed Ch Oh TH NpH DuH LeH IdH YH SoH ObH LiH Car' Tc)
      as (dsC & optsC & psC & wsC & merged & Lg & Sm & Al & Pl & Op & Pe).
    exists dsC, optsC, psC, wsC, merged. split; [exact Lg|]. split; [exact Sm|]. split; [exact Al|]. split; [exact Pl|]. split; [|exact Pe].
    unfold under_rules_of in *. rewrite Po. exact Op.
  Qed.

  (** So the accounts can be called by any names of the account types, for which
      there are options. *)
  Lemma retyped_retypes names : retypes (retyped names) default_names names.
  Proof using.
    intros t ws. assert (Q : forall w, join_colon (w :: ws) = w ++ match ws with [] => [] | _ => 58%N :: join_colon ws end) by (intro w; destruct ws; cbn; [rewrite app_nil_r|]; reflexivity).
    rewrite !Q. unfold retyped. replace (before_colon (default_names t ++ match ws with [] => [] | _ => 58%N :: join_colon ws end)) with (default_names t) by (destruct t, ws; reflexivity).
    replace (find _ _) with (Some t) by (destruct t; reflexivity). rewrite skipn_app, skipn_all, Nat.sub_diag. reflexivity.
  Qed.
  Theorem C80_types : forall names h a c th ta tc dsH optsH psH wsH dsA optsA psA wsA,
    lex L h = Fine (Some th) -> lex L a = Fine (Some ta) -> lex L c = Fine (Some tc) ->
    map fst tc = map fst th ++ map (rename_token (retyped names)) (map fst ta) -> ended (map fst th) ->
    only_names (input_of 0 h th) -> (forall t, options_account_type_name optsH t = Fine (names t)) ->
    fine_content L E 0 h -> fine_content L E 0 a -> without K_Include (map fst th) -> without K_Include (map fst ta) -> ~ sets_rules (input_of 0 a ta) ->
    ledger_is L E canonicalize root h (Success dsH optsH psH wsH) -> ledger_is L E canonicalize root a (Success dsA optsA psA wsA) ->
    exists dsC optsC psC wsC merged,
      ledger_is L E canonicalize root c (Success dsC optsC psC wsC) /\
      sorted_from (dsH ++ map (in_place (rename_directive (retyped names))) dsA) merged /\ Forall2 (fun d d' => alike (item d) (item d')) merged dsC /\
      Forall2 alike_plugin (psH ++ psA) psC /\ alike_options (under_rules_of optsH optsA) optsC /\
      Permutation (map rp_problem (wsH ++ wsA)) (map rp_problem wsC).
  Proof.
    intros names h a c th ta tc dsH optsH psH wsH dsA optsA psA wsA Lxh Lxa Lxc Tc Ed On Nm. apply (C80_rename (retyped names) names h a c th ta tc); auto.
    intros t ws F. exists ws. split; [exact F|]. apply retyped_retypes.
  Qed.
End Rename.

(** ** A case: an account of assets is called otherwise *)
Definition ex_rename (s : str) : str := if str_eqb s (lit "Assets:Cash") then lit "Assets:Wallet:Small" else s.
Lemma ex_carries : carries ex_rename (g_unicode P_Grammar.ex_env) default_names default_names.
Proof.
  intros t ws F. unfold ex_rename. destruct (str_eqb (join_colon (default_names t :: ws)) (lit "Assets:Cash")) eqn:X; [|eauto].
  apply str_eqb_eq in X. assert (t = Assets) as -> by (destruct t; try reflexivity; destruct ws; discriminate).
  exists [lit "Wallet"; lit "Small"]. split; [|reflexivity]. apply check_account_names_ok. vm_compute. reflexivity.
Qed.
Definition ex_before : str :=
  lit "option ""title"" ""T""" ++ [10%N] ++ lit "2024-01-01 open Assets:Cash" ++ [10%N] ++ lit "pushmeta from: Assets:Cash" ++ [10%N] ++
  lit "2024-01-02 * ""b""" ++ [10%N] ++ lit "  Assets:Cash  1 + 2 USD" ++ [10%N] ++ lit "  Income:Gift" ++ [10%N] ++ lit "popmeta from:" ++ [10%N].
Definition ex_after : str :=
  lit "option ""title"" ""T""" ++ [10%N] ++ lit "2024-01-01 open Assets:Wallet:Small" ++ [10%N] ++ lit "pushmeta from: Assets:Wallet:Small" ++ [10%N] ++
  lit "2024-01-02 * ""b""" ++ [10%N] ++ lit "  Assets:Wallet:Small  1 + 2 USD" ++ [10%N] ++ lit "  Income:Gift" ++ [10%N] ++ lit "popmeta from:" ++ [10%N].
Example C80_accounts_ex : exists ta tc ds opts ps ws,
  lex P_Lexer.ex_env ex_before = Fine (Some ta) /\ lex P_Lexer.ex_env ex_after = Fine (Some tc) /\
  map fst tc = map (rename_token ex_rename) (map fst ta) /\ carries ex_rename (g_unicode P_Grammar.ex_env) default_names default_names /\
  fine_content P_Lexer.ex_env P_Grammar.ex_env 0 ex_before /\ without K_Include (map fst ta) /\ ~ sets_rules (input_of 0 ex_before ta) /\
  ledger_is P_Lexer.ex_env P_Grammar.ex_env (fun p => Some p) None ex_before (Success ds opts ps ws) /\ List.length ds = 2.
Proof.
  assert (Ca : check_content P_Lexer.ex_env P_Grammar.ex_env 0 ex_before = true) by (vm_compute; reflexivity).
  assert (Cc : check_content P_Lexer.ex_env P_Grammar.ex_env 0 ex_after = true) by (vm_compute; reflexivity).
  destruct (ex_ledger_success ex_before ltac:(vm_compute; exact Logic.I)) as (ds & opts & ps & ws & H & Q).
  exists (ex_lexed ex_before), (ex_lexed ex_after), ds, opts, ps, ws.
  split; [apply ex_lexes; exact Ca|]. split; [apply ex_lexes; exact Cc|]. split; [vm_compute; reflexivity|]. split; [exact ex_carries|].
  split; [apply check_content_ok; exact Ca|]. split; [apply check_without_include; vm_compute; reflexivity|]. split; [apply check_rules_ok; vm_compute; reflexivity|].
  split; [exact H|]. clear - Q. vm_compute in Q. injection Q as <- _ _ _. reflexivity.
Qed.

(** ** A case: the account types in Dutch *)
Definition ex_dutch (t : account_type) : str :=
  match t with Assets => lit "Activa" | Expenses => lit "Kosten" | _ => default_names t end.
Definition ex_header : str := lit "option ""name_assets"" ""Activa""" ++ [10%N] ++ lit "option ""name_expenses"" ""Kosten""" ++ [10%N].
Definition ex_english : str :=
  lit "option ""title"" ""T""" ++ [10%N] ++ lit "2024-01-01 open Assets:Cash" ++ [10%N] ++
  lit "2024-01-02 * ""b""" ++ [10%N] ++ lit "  Assets:Cash  1 USD" ++ [10%N] ++ lit "  Expenses:Food" ++ [10%N] ++ lit "  Income:Assets" ++ [10%N].
Definition ex_translated : str :=
  ex_header ++ lit "option ""title"" ""T""" ++ [10%N] ++ lit "2024-01-01 open Activa:Cash" ++ [10%N] ++
  lit "2024-01-02 * ""b""" ++ [10%N] ++ lit "  Activa:Cash  1 USD" ++ [10%N] ++ lit "  Kosten:Food" ++ [10%N] ++ lit "  Income:Assets" ++ [10%N].
Definition check_names (I : input) : bool :=
  forallb (fun i => match nth_error (in_tokens I) i, nth_error (in_tokens I) (S i) with
    | Some (T_Keyword K_Option, _), Some (T_String name, _) =>
        existsb (str_eqb name) (map lit ["name_assets"; "name_liabilities"; "name_equity"; "name_income"; "name_expenses"]%string)
    | _, _ => true
    end) (seq 0 (List.length (in_tokens I))).
Lemma check_names_ok I : check_names I = true -> only_names I.
Proof.
  unfold check_names. rewrite forallb_forall. intros H i name [r T] [r' T']. specialize (H i). rewrite T, T' in H.
  assert (X : i < List.length (in_tokens I)) by (apply nth_error_Some; rewrite T; discriminate).
  specialize (H ltac:(apply in_seq; lia)). apply existsb_exists in H. destruct H as (x & Hx & Q). apply str_eqb_eq in Q. subst x. exact Hx.
Qed.
Example C80_types_ex : exists th ta tc dsH optsH psH wsH dsA optsA psA wsA,
  lex P_Lexer.ex_env ex_header = Fine (Some th) /\ lex P_Lexer.ex_env ex_english = Fine (Some ta) /\ lex P_Lexer.ex_env ex_translated = Fine (Some tc) /\
  map fst tc = map fst th ++ map (rename_token (retyped ex_dutch)) (map fst ta) /\ ended (map fst th) /\
  only_names (input_of 0 ex_header th) /\ (forall t, options_account_type_name optsH t = Fine (ex_dutch t)) /\
  fine_content P_Lexer.ex_env P_Grammar.ex_env 0 ex_header /\ fine_content P_Lexer.ex_env P_Grammar.ex_env 0 ex_english /\
  without K_Include (map fst th) /\ without K_Include (map fst ta) /\ ~ sets_rules (input_of 0 ex_english ta) /\
  ledger_is P_Lexer.ex_env P_Grammar.ex_env (fun p => Some p) None ex_header (Success dsH optsH psH wsH) /\
  ledger_is P_Lexer.ex_env P_Grammar.ex_env (fun p => Some p) None ex_english (Success dsA optsA psA wsA) /\ List.length dsA = 2.
Proof.
  assert (Ch : check_content P_Lexer.ex_env P_Grammar.ex_env 0 ex_header = true) by (vm_compute; reflexivity).
  assert (Ca : check_content P_Lexer.ex_env P_Grammar.ex_env 0 ex_english = true) by (vm_compute; reflexivity).
  assert (Cc : check_content P_Lexer.ex_env P_Grammar.ex_env 0 ex_translated = true) by (vm_compute; reflexivity).
  destruct (ex_ledger_success ex_header ltac:(vm_compute; exact Logic.I)) as (dsH & optsH & psH & wsH & HH & QH).
  destruct (ex_ledger_success ex_english ltac:(vm_compute; exact Logic.I)) as (dsA & optsA & psA & wsA & HA & QA).
  exists (ex_lexed ex_header), (ex_lexed ex_english), (ex_lexed ex_translated), dsH, optsH, psH, wsH, dsA, optsA, psA, wsA.
  split; [apply ex_lexes; exact Ch|]. split; [apply ex_lexes; exact Ca|]. split; [apply ex_lexes; exact Cc|]. split; [vm_compute; reflexivity|].
  split; [right; exists (removelast (map fst (ex_lexed ex_header))); vm_compute; reflexivity|].
  split; [apply check_names_ok; vm_compute; reflexivity|].
  split; [clear - QH; vm_compute in QH; injection QH as _ <- _ _; intro t; destruct t; vm_compute; reflexivity|].
  split; [apply check_content_ok; exact Ch|]. split; [apply check_content_ok; exact Ca|].
  split; [apply check_without_include; vm_compute; reflexivity|]. split; [apply check_without_include; vm_compute; reflexivity|]. split; [apply check_rules_ok; vm_compute; reflexivity|].
  split; [exact HH|]. split; [exact HA|]. clear - QA. vm_compute in QA. injection QA as <- _ _ _. reflexivity.
Qed.

(** ** What is necessary *)

(** If an account type is given the name of another one, though accounts are
    renamed as the options say, the text is refused. *)
Theorem C80_taken_refuted : exists L E (names : account_type -> str) h a c th ta tc dsA optsA psA wsA es ws,
  unicode_ok (le_unicode L) /\ environment_ok E /\
  lex L h = Fine (Some th) /\ lex L a = Fine (Some ta) /\ lex L c = Fine (Some tc) /\
  map fst tc = map fst th ++ map (rename_token (retyped names)) (map fst ta) /\ only_names (input_of 0 h th) /\
  (forall t, account_type_name_lang (g_unicode E) (names t)) /\
  ledger_is L E (fun p => Some p) None a (Success dsA optsA psA wsA) /\ ledger_is L E (fun p => Some p) None c (Failure es ws).
Proof.
  pose (names := fun t => match t with Assets => lit "Income" | Income => lit "Assets" | _ => default_names t end).
  pose (h := lit "option ""name_assets"" ""Income""" ++ [10%N] ++ lit "option ""name_income"" ""Assets""" ++ [10%N]).
  pose (a := lit "2024-01-02 open Assets:Cash" ++ [10%N]). pose (c := h ++ lit "2024-01-02 open Income:Cash" ++ [10%N]).
  assert (Ch : check_content P_Lexer.ex_env P_Grammar.ex_env 0 h = true) by (vm_compute; reflexivity).
  assert (Ca : check_content P_Lexer.ex_env P_Grammar.ex_env 0 a = true) by (vm_compute; reflexivity).
  assert (Cc : check_content P_Lexer.ex_env P_Grammar.ex_env 0 c = true) by (vm_compute; reflexivity).
  destruct (ex_ledger_success a ltac:(vm_compute; exact Logic.I)) as (dsA & optsA & psA & wsA & HA & _).
  assert (HC : exists es ws, ledger_is P_Lexer.ex_env P_Grammar.ex_env (fun p => Some p) None c (Failure es ws)).
  { destruct (ex_ledger c) as [[[|es ws]|]|] eqn:X; try (vm_compute in X; discriminate X). exists es, ws. apply ex_ledger_is. exact X. }
  destruct HC as (es & ws & HC).
  exists P_Lexer.ex_env, P_Grammar.ex_env, names, h, a, c, (ex_lexed h), (ex_lexed a), (ex_lexed c), dsA, optsA, psA, wsA, es, ws.
  split; [exact P_Lexer.arabic_ok|]. split; [exact P_File.ex_environment|].
  split; [apply ex_lexes; exact Ch|]. split; [apply ex_lexes; exact Ca|]. split; [apply ex_lexes; exact Cc|]. split; [vm_compute; reflexivity|].
  split; [apply check_names_ok; vm_compute; reflexivity|]. split; [|auto].
  intro t. assert (X : forall u, account_type_name_lang (g_unicode P_Grammar.ex_env) (default_names u)) by (intro u; apply default_names_valid; exact (env_unicode _ P_File.ex_environment)).
  destruct t; [exact (X Income)|exact (X Liabilities)|exact (X Equity)|exact (X Assets)|exact (X Expenses)].
Qed.

Print Assumptions C80_accounts.
Print Assumptions C80_rename.
Print Assumptions C80_types.
Print Assumptions C80_taken_refuted.
