(** * C72: one ledger after another *)
From Coq Require Import String Ascii.
From Coq Require Import List NArith ZArith Arith Bool Lia Permutation.
From Verif Require Import Base BaseFacts Text Path PathFacts Sources Types SpecTypes TypesFacts P_Types SortM SpecSort P_Sort Options SpecOptions OptionsFacts P_Options
  Pragma SpecPragma PragmaRun P_Pragma Read SpecRead ReadFacts P_Read
  Token Lexer SpecLexer P_Lexer Peg PegFacts Grammar SpecExpr SpecGrammar SpecDirective SpecDisplay SpecLedger SpecAlike P_Grammar
  Parse SpecParse SpecWhole ParseFacts ParseOnce ParseFile P_File P_Includes P_Parse IncludeTokens P_Order P_Complete AlikeRead AlikeFile AlikeWalk AlikeOptions SortFacts SimCopy SpecPaste Paste P_Paste SpecLayout P_Words P_Newline SpecAppend Append AppendText.
Import SpecPragma Read.
Import ListNotations.
Local Open Scope nat_scope.

Section Append.
  Context (L : lexer_env) (E : grammar_env) (En : environment_ok E) (U : unicode_ok (le_unicode L)).
  Context (canonicalize : path -> option path) (root : option path).
  Context (Cano : forall p q c d, same_path p q -> canonicalize p = Some c -> canonicalize q = Some d -> same_path c d).
  Context (Root : forall p, root = Some p -> canonicalize p <> None).

  (** What is declared in tokens without includes is declared alike where they are
      somewhere in another text. *)
  Lemma copied_on c tc a ta decls ws r rE : computable E (input_of 0 c tc) -> fine_options (input_of 0 c tc) ->
    computable E (input_of 0 a ta) -> fine_options (input_of 0 a ta) -> without K_Include (map fst ta) ->
    (exists po, obeys E po r) -> (exists po, obeys E po rE) ->
    tiles E (input_of 0 a ta) root r 0 decls [] ws rE ->  Forall (fun d => is_include (item d) = false) decls ->
    calm (map fst ta) /\
    forall r' i' post rest, kin E r r' -> rest_at (input_of 0 c tc) i' (map fst ta ++ post) -> closes (map fst ta) post rest -> calm rest ->
      exists decls' ws' k' r'', runs E (input_of 0 c tc) root r' i' decls' ws' k' r'' /\ rest_at (input_of 0 c tc) k' rest /\ kin E rE r'' /\
        Forall2 (alike_declaration any) decls decls' /\ Permutation (map rp_problem ws) (map rp_problem ws').
  Proof.
    intros Cj Fj Ci Fi No Ob ObE T Np. set (g0 := fun _ : path => @Err (list glob_item) str []).
    assert (Gs : forall f text g items, glob_of [] f text = Some g -> g0 (resolve_included_path f text) = Ok items -> Forall2 same_path (expansion g) (map item_path items)) by discriminate.
    assert (Nt : forall k, ~ SpecGrammar.tok (input_of 0 a ta) k (T_Keyword K_Include)) by (intros k [x X]; apply nth_error_In in X; apply No; exact (in_map fst _ _ X)).
    assert (Pa : pasted g0 (map toks_of []) root (map fst (skipn 0 (in_tokens (input_of 0 a ta)))) (map fst ta) []).
    { cbn [skipn in_tokens input_of map]. pose proof (pasted_prepend g0 [] root (map fst ta) [] [] [] No (pasted_end _ _ _)) as X. rewrite app_nil_r in X. exact X. }
    destruct (proj1 (Paste.core E En root [] rE ObE g0 Gs (input_of 0 c tc) Cj Fj (fun _ => False)) _ _ _ _ _ (walk_here root [] decls Np) (input_of 0 a ta) r 0 ws [] (map fst ta) [])
      as (fl1 & Q1 & _ & _ & _ & Ca & Rd); auto.
    { constructor. }
    { intros x y _ Hx. destruct (Nt _ Hx). }
    { intros k x Hk. destruct (Nt _ Hk). }
    symmetry in Q1. apply map_eq_nil in Q1. subst fl1. split; [exact Ca|]. intros r' i' post rest Ki Ra Cl Cr.
    destruct (Rd r' i' post rest Ki Ra Cl Cr) as (ds' & ws' & k' & r'' & more & Ru & Rk & Kk & Al & Lo & Pe).
    exists ds', ws', k', r''. split; [exact Ru|]. split; [exact Rk|]. split; [exact Kk|]. split.
    - assert (Q : plain (map (here root) decls) = decls); [|rewrite Q in Al; exact Al]. clear - Np. induction Np as [|d ds Nd Np IH]; [reflexivity|]. cbn [map]. unfold here at 1. unfold plain in *. cbn [flat_map].
      rewrite Nd, IH. reflexivity.
    - destruct more as [|p more]; [|inversion Lo as [|? ? (b & n & x & [] & _) _]]. unfold problems in Pe. cbn in Pe. rewrite !app_nil_r in Pe. exact Pe.
  Qed.

  Lemma alike_opts po po2 rA r2 es es2 : obeys E po rA -> obeys E po2 r2 -> kin E rA r2 -> map opt_variant (options_of es) = map opt_variant (options_of es2) ->
    alike_options (fst (assimilate_all (options_new po) (options_of es))) (fst (assimilate_all (options_new po2) (options_of es2))).
  Proof.
    intros Ob Ob2 Ki Q. pose proof (alike_assimilate_all (options_of es) (options_of es2) (options_new po) (options_new po2) Q (alike_fields_new _ _)) as Fo. destruct Fo.
    assert (Po : forall p os, os_parser_options (fst (assimilate_all (options_new p) os)) = p).
    { intros p os. pose proof (C12_first_wins p os) as X. cbn zeta in X. tauto. }
    constructor; auto.
    + intro t. unfold options_account_type_name. rewrite !Po. rewrite (proj1 (ob_named _ _ _ Ob)), (proj1 (ob_named _ _ _ Ob2)). f_equal.
      destruct Ki as (p1 & p2 & O1 & O2 & [Qn _]). pose proof (proj1 (ob_named _ _ _ O1) t) as M1. pose proof (proj1 (ob_named _ _ _ O2) t) as M2. rewrite Qn in M1. congruence.
    + unfold options_long_string_maxlines. rewrite !Po. pose proof (kin_limit _ _ _ Ki) as X. rewrite <- (ob_limit _ _ _ Ob), <- (ob_limit _ _ _ Ob2) in X. unfold line_limit in X.
      destruct (po_maxlines po), (po_maxlines po2); cbn in *; try discriminate; auto.
  Qed.
  Lemma no_options_of I r i ds es ws r' : without K_Option (map fst (in_tokens I)) -> tiles E I root r i ds es ws r' -> options_of (map (here root) ds) = [].
  Proof.
    intros No T. induction T as [|r i j d es r1 ds es' ws r' D T IH]; [reflexivity|]. unfold options_of in *. cbn [map flat_map]. rewrite IH, app_nil_r.
    destruct D as [x e W|k q H L0|k o' e r2 [x b name value o2 e' r3 Tk W W' Ef] L0]; cbn; try reflexivity.
    - destruct H; reflexivity.
    - exfalso. destruct Tk as [z Tk]. apply nth_error_In in Tk. apply No. exact (in_map fst _ _ Tk).
  Qed.
  Lemma no_rule_set I : without K_Option (map fst (in_tokens I)) -> forall b, ~ sets_rule_at I b.
  Proof. intros No b (n & v & [z Tk] & _). apply nth_error_In in Tk. apply No. exact (in_map fst _ _ Tk). Qed.

  (** When two texts are ledgers without includes, each parsed successfully, the
      first of which sets no rules, and only one of which has options, then a
      text with the tokens of the first and then those of the second is parsed
      successfully too.  Its directives are those of both, in the order of C01,
      and where that leaves it open those of the first text come first; its plugins are
      those of both, its options are those of the one which has some, and it
      has the warnings of both. *)
  Theorem C72_append : forall a b c ta tb tc dsA optsA psA wsA dsB optsB psB wsB,
    lex L a = Fine (Some ta) -> lex L b = Fine (Some tb) -> lex L c = Fine (Some tc) ->
    map fst tc = map fst ta ++ map fst tb -> ended (map fst ta) ->
    fine_content L E 0 a -> fine_content L E 0 b ->
    without K_Include (map fst ta) -> without K_Include (map fst tb) ->
    ~ sets_rules (input_of 0 a ta) -> without K_Option (map fst ta) \/ without K_Option (map fst tb) ->
    ledger_is L E canonicalize root a (Success dsA optsA psA wsA) -> ledger_is L E canonicalize root b (Success dsB optsB psB wsB) ->
    exists dsC optsC psC wsC merged,
      ledger_is L E canonicalize root c (Success dsC optsC psC wsC) /\
      sorted_from (dsA ++ dsB) merged /\ Forall2 (fun d d' => alike (item d) (item d')) merged dsC /\
      Forall2 alike_plugin (psA ++ psB) psC /\
      (without K_Option (map fst ta) -> alike_options optsB optsC) /\ (without K_Option (map fst tb) -> alike_options optsA optsC) /\
      Permutation (map rp_problem (wsA ++ wsB)) (map rp_problem wsC).
  Proof.
    intros a b c ta tb tc dsA optsA psA wsA dsB optsB psB wsB Lxa Lxb Lxc Tc Ed Fa Fb Na Nb Nr On Ha Hb.
    destruct Fa as (t & X & Ca & Oa). rewrite Lxa in X. injection X as <-. destruct Fb as (t & X & Cb & Obb). rewrite Lxb in X. injection X as <-.
    pose proof (joined_computable (input_of 0 a ta) (input_of 0 b tb) (input_of 0 c tc) Tc Ed E Ca Cb) as Cc.
    pose proof (joined_fine_options (input_of 0 a ta) (input_of 0 b tb) (input_of 0 c tc) Tc Ed Oa Obb) as Oc.
    destruct (alone_success L E En U canonicalize root Cano Root a ta Lxa Ca Oa Na _ _ _ _ Ha) as (da & rA & poA & yA & TA & NpA & DuA & LeA & YA & SoA & ObA & -> & ->).
    destruct (alone_success L E En U canonicalize root Cano Root b tb Lxb Cb Obb Nb _ _ _ _ Hb) as (db & rB & poB & yB & TB & NpB & DuB & LeB & YB & SoB & ObB & -> & ->).
    assert (rA = initial_rules) as ->.
    { eapply (tiles_settled E En _ _ _ _ _ _ _ _ Ca Oa (obeyed E En)); [|exact TA]. intros x _ (n & v & Sr). apply Nr. exists x, n, v. exact Sr. }
    set (J := input_of 0 c tc) in *.
    destruct (copied_on c tc a ta da wsA initial_rules initial_rules Cc Oc Ca Oa Na (obeyed E En) (obeyed E En) TA NpA) as [CaA RdA].
    destruct (copied_on c tc b tb db wsB initial_rules rB Cc Oc Cb Obb Nb (obeyed E En) (ex_intro _ _ ObB) TB NpB) as [CaB RdB]. fold J in RdA, RdB.
    assert (K0 : kin E initial_rules initial_rules).
    { destruct (obeyed E En) as [p0 X]. exists p0, p0. repeat split; apply X. }
    assert (R0 : rest_at J 0 (map fst ta ++ map fst tb)) by (split; [apply Nat.le_0_l|cbn; exact Tc]).
    destruct (RdA initial_rules 0 (map fst tb) (map fst tb) K0 R0 (lined_closes _ _ Ed) CaB) as (da' & wsA' & k & r1 & RuA & Rk & K1 & AlA & PeA).
    assert (Rk' : rest_at J k (map fst tb ++ [])) by (rewrite app_nil_r; exact Rk).
    assert (Cl : closes (map fst tb) [] []).
    { destruct (last_cases (map fst tb)) as [->|(u & t & ->)]; [constructor|]. destruct (token_eol_dec t) as [->|Ne]; constructor; exact Ne. }
    destruct (RdB r1 k [] [] K1 Rk' Cl ltac:(discriminate)) as (db' & wsB' & k2 & r2 & RuB & Rk2 & K2 & AlB & PeB).
    assert (Fk : finished J k2) by (apply rest_finished in Rk2; unfold finished; apply nth_error_None; lia).
    pose proof (runs_tiles _ _ _ _ _ _ _ _ _ (runs_app _ _ _ _ _ _ _ _ _ _ _ _ _ RuA RuB) Fk) as T2.
    assert (Nc : without K_Include (map fst tc)) by (unfold without; rewrite Tc, in_app_iff; unfold without in *; tauto).
    assert (NpAB : Forall (fun d => is_include (item d) = false) (da ++ db)) by (apply Forall_app; auto).
    pose proof (Forall2_app AlA AlB) as Al.
    assert (Np2 : Forall (fun d => is_include (item d) = false) (da' ++ db')).
    { clear - NpAB Al. revert NpAB. induction Al as [|d d' l l' Ad Al IH]; intro Np; constructor; inversion Np; subst; auto. rewrite <- (alike_include _ _ _ Ad). assumption. }
    (* the events of both *)
    assert (OnE : options_of (map (here root) da) = [] \/ options_of (map (here root) db) = []).
    { destruct On as [On|On]; [left; eapply no_options_of; [|exact TA]; exact On|right; eapply no_options_of; [|exact TB]; exact On]. }
    set (eA := map (here root) da) in *. set (eB := map (here root) db) in *.
    assert (Qe : map (here root) (da ++ db) = eA ++ eB) by apply map_app.
    assert (DuAB : dues canonicalize [] [] [] (map (here root) (da ++ db)) []).
    { rewrite Qe. change (@nil report) with (@nil report ++ []). apply dues_app; [exact DuA|]. cbn [app]. rewrite <- (app_nil_r eA). apply after_dues; auto. }
    assert (LeAB : leftover (map (here root) (da ++ db)) []).
    { rewrite Qe. apply leftover_none. pose proof LeB as X. apply leftover_none in X. destruct X as [X Y]. split; intro; [rewrite (after_tags _ LeA)|rewrite (after_metas _ LeA)]; auto. }
    assert (YAB : yields [] (map (here root) (da ++ db)) (yA ++ yB)).
    { rewrite Qe. apply yields_app; [exact YA|]. cbn [app]. rewrite <- (app_nil_r eA). apply after_yields; auto. }
    (* those of the text *)
    pose proof (alike_here root _ _ Al) as Ae.
    assert (St : plain (map (here root) (da ++ db)) = da ++ db).
    { clear - NpAB. induction NpAB as [|d ds Nd Np IH]; [reflexivity|]. cbn [map]. unfold here at 1. unfold plain in *. cbn [flat_map]. rewrite Nd, IH. reflexivity. }
    assert (Du' : dues canonicalize [] [] [] (map (here root) (da' ++ db')) []).
    { eapply (strip_dues root canonicalize [] [] [] [] [] _ DuAB [] (da' ++ db') (Forall2_nil _)). rewrite St. exact Al. }
    pose proof (alike_leftover any _ _ Ae LeAB) as Le'.
    destruct (alone_parses L E En U canonicalize root Cano Root c tc Lxc Cc Oc Nc _ _ _ T2 Np2 Du' Le') as (po2 & y2 & sorted & Y2 & So2 & Ob2 & Lg).
    destruct (sorted_exists (dsA ++ dsB)) as (merged & Sm).
    pose proof (alike_options_of any _ _ Ae) as Qo. rewrite Qe in Qo.
    exists sorted, (fst (assimilate_all (options_new po2) (options_of (map (here root) (da' ++ db'))))), (plugins_of (map (here root) (da' ++ db'))), (wsA' ++ wsB'), merged.
    split; [exact Lg|]. split; [exact Sm|]. split; [|split; [|split; [|split]]].
    - eapply alike_sorted; [|exact (sorted_parts _ _ _ _ _ SoA SoB Sm)|exact So2]. eapply alike_yields; [exact YAB|apply Forall2_nil|exact Ae|exact Y2].
    - pose proof (alike_plugins_of any _ _ Ae) as X. rewrite Qe in X. unfold plugins_of in *. rewrite flat_map_app in X. exact X.
    - intro Oa'. pose proof (no_options_of (input_of 0 a ta) _ _ _ _ _ _ Oa' TA) as Z. fold eA in Z. eapply alike_opts; [exact ObB|exact Ob2|exact K2|]. rewrite <- Qo. unfold options_of in *. rewrite flat_map_app, Z. reflexivity.
    - intro Ob'. pose proof (no_options_of (input_of 0 b tb) _ _ _ _ _ _ Ob' TB) as Z. fold eB in Z.
      assert (rB = initial_rules) as ->.
      { eapply (tiles_settled E En _ _ _ _ _ _ _ _ Cb Obb (obeyed E En)); [|exact TB]. intros x _. apply (no_rule_set (input_of 0 b tb)). exact Ob'. }
      eapply alike_opts; [exact ObA|exact Ob2|exact K2|]. rewrite <- Qo. unfold options_of in *. rewrite flat_map_app, Z, app_nil_r. reflexivity.
    - rewrite !map_app. apply Permutation_app; assumption.
  Qed.

  (** Which comes first makes no difference, but to the plugins, if no directive
      of the one is at the same date and of the same rank as one of the other. *)
  Theorem C72_swap : forall a b c c' ta tb tc tc' dsA optsA psA wsA dsB optsB psB wsB,
    lex L a = Fine (Some ta) -> lex L b = Fine (Some tb) -> lex L c = Fine (Some tc) -> lex L c' = Fine (Some tc') ->
    map fst tc = map fst ta ++ map fst tb -> map fst tc' = map fst tb ++ map fst ta -> ended (map fst ta) -> ended (map fst tb) ->
    fine_content L E 0 a -> fine_content L E 0 b ->
    without K_Include (map fst ta) -> without K_Include (map fst tb) ->
    ~ sets_rules (input_of 0 a ta) -> ~ sets_rules (input_of 0 b tb) -> without K_Option (map fst ta) \/ without K_Option (map fst tb) ->
    ledger_is L E canonicalize root a (Success dsA optsA psA wsA) -> ledger_is L E canonicalize root b (Success dsB optsB psB wsB) ->
    (forall x y, In x dsA -> In y dsB -> ~ tied (item x) (item y)) ->
    exists opts merged ds os ps ws ds' os' ps' ws',
      ledger_is L E canonicalize root c (Success ds os ps ws) /\ ledger_is L E canonicalize root c' (Success ds' os' ps' ws') /\
      Forall2 (fun d d' => alike (item d) (item d')) merged ds /\ Forall2 (fun d d' => alike (item d) (item d')) merged ds' /\
      alike_options opts os /\ alike_options opts os' /\
      Forall2 alike_plugin (psA ++ psB) ps /\ Forall2 alike_plugin (psB ++ psA) ps' /\
      Permutation (map rp_problem ws) (map rp_problem ws').
  Proof.
    intros a b c c' ta tb tc tc' dsA optsA psA wsA dsB optsB psB wsB Lxa Lxb Lxc Lxd Tc Td Ea Eb Fa Fb Na Nb Ra Rb On Ha Hb Nt.
    destruct (C72_append a b c ta tb tc _ _ _ _ _ _ _ _ Lxa Lxb Lxc Tc Ea Fa Fb Na Nb Ra On Ha Hb) as (ds & os & ps & ws & m & G & So & Al & Pl & Ob & Oa & W).
    destruct (C72_append b a c' tb ta tc' _ _ _ _ _ _ _ _ Lxb Lxa Lxd Td Eb Fb Fa Nb Na Rb ltac:(tauto) Hb Ha) as (ds' & os' & ps' & ws' & m' & G' & So' & Al' & Pl' & Oa' & Ob' & W').
    pose proof (sorted_swapped _ _ _ _ So So' Nt) as ->.
    assert (exists opts, alike_options opts os /\ alike_options opts os') as (opts & O & O') by (destruct On as [On|On]; eexists; split; eauto).
    exists opts, m', ds, os, ps, ws, ds', os', ps', ws'. do 8 (split; [assumption|]).
    eapply Permutation_trans; [apply Permutation_sym; exact W|]. eapply Permutation_trans; [|exact W']. apply Permutation_map. apply Permutation_app_comm.
  Qed.

  (** So it is for the texts themselves: where the first is lines of words, with
      a newline after it, and the second starts with a line of its own. *)
  Theorem C72_text : forall (ND : forall c, u_Nd (le_unicode L) c = true -> u_Lu (le_unicode L) c = false /\ u_Lo (le_unicode L) c = false)
    fin la a ws lb b ta tb dsA optsA psA wsA dsB optsB psB wsB,
    set_out L fin la a -> starts_afresh L true ws lb b ->
    lex L (a ++ [10%N]) = Fine (Some ta) -> lex L b = Fine (Some tb) ->
    fine_content L E 0 (a ++ [10%N]) -> fine_content L E 0 b ->
    without K_Include (map fst ta) -> without K_Include (map fst tb) ->
    ~ sets_rules (input_of 0 (a ++ [10%N]) ta) -> without K_Option (map fst ta) \/ without K_Option (map fst tb) ->
    ledger_is L E canonicalize root (a ++ [10%N]) (Success dsA optsA psA wsA) -> ledger_is L E canonicalize root b (Success dsB optsB psB wsB) ->
    exists dsC optsC psC wsC merged,
      ledger_is L E canonicalize root (a ++ [10%N] ++ b) (Success dsC optsC psC wsC) /\
      sorted_from (dsA ++ dsB) merged /\ Forall2 (fun d d' => alike (item d) (item d')) merged dsC /\
      Forall2 alike_plugin (psA ++ psB) psC /\
      (without K_Option (map fst ta) -> alike_options optsB optsC) /\ (without K_Option (map fst tb) -> alike_options optsA optsC) /\
      Permutation (map rp_problem (wsA ++ wsB)) (map rp_problem wsC).
  Proof.
    intros ND fin la a ws lb b ta tb dsA optsA psA wsA dsB optsB psB wsB Sa Sb Lxa Lxb Fa Fb Na Nb Nr On Ha Hb.
    destruct (onto_tokens L U ND _ _ _ _ _ _ Sa Sb) as (ta' & tb' & tc & Qa & Qb & Qc & Tc & Ed). rewrite Lxa in Qa. injection Qa as <-. rewrite Lxb in Qb. injection Qb as <-.
    exact (C72_append (a ++ [10%N]) b (a ++ [10%N] ++ b) ta tb tc _ _ _ _ _ _ _ _ Lxa Lxb Qc Tc Ed Fa Fb Na Nb Nr On Ha Hb).
  Qed.
End Append.

(** ** A case: options, a plugin and a tag in the first text; both have
    directives, which come out in order of date *)
Lemma ex_lexes c : check_content P_Lexer.ex_env P_Grammar.ex_env 0 c = true -> lex P_Lexer.ex_env c = Fine (Some (ex_lexed c)).
Proof. unfold check_content, ex_lexed. destruct (lex P_Lexer.ex_env c) as [[ts|]|]; [reflexivity|discriminate|discriminate]. Qed.
Definition check_without (p : token -> bool) (ts : list token) : bool := forallb (fun t => negb (p t)) ts.
Definition is_include_token (t : token) : bool := match t with T_Keyword K_Include => true | _ => false end.
Definition is_option_token (t : token) : bool := match t with T_Keyword K_Option => true | _ => false end.
Lemma check_without_include ts : check_without is_include_token ts = true -> without K_Include ts.
Proof. unfold check_without. rewrite forallb_forall. intros H X. specialize (H _ X). discriminate. Qed.
Lemma check_without_option ts : check_without is_option_token ts = true -> without K_Option ts.
Proof. unfold check_without. rewrite forallb_forall. intros H X. specialize (H _ X). discriminate. Qed.

Definition ex_ledger (content : str) : outcome (option parsed_as) :=
  match read_with_includes (includes_of P_Lexer.ex_env) (fun _ => Ok []) (fun p => Some p) (fun _ => Err []) 1 None content with
  | Some s => match parser_new P_Lexer.ex_env s with
              | Fine (Some toks) => parse P_Grammar.ex_env (fun p => Some p) s toks
              | _ => Panic
              end
  | None => Panic
  end.
Lemma ex_ledger_is content r : ex_ledger content = Fine (Some r) -> ledger_is P_Lexer.ex_env P_Grammar.ex_env (fun p => Some p) None content r.
Proof.
  unfold ex_ledger. destruct (read_with_includes _ _ _ _ _ _ _) as [s|] eqn:X; [|discriminate].
  destruct (parser_new P_Lexer.ex_env s) as [[toks|]|] eqn:Y; [|discriminate|discriminate]. intro Z. econstructor; eassumption.
Qed.
Lemma ex_ledger_success content : match ex_ledger content with Fine (Some (Success _ _ _ _)) => True | _ => False end ->
  exists ds opts ps ws, ledger_is P_Lexer.ex_env P_Grammar.ex_env (fun p => Some p) None content (Success ds opts ps ws) /\ ex_ledger content = Fine (Some (Success ds opts ps ws)).
Proof. destruct (ex_ledger content) as [[[ds opts ps ws|]|]|] eqn:X; try contradiction. intros _. exists ds, opts, ps, ws. split; [apply ex_ledger_is; exact X|reflexivity]. Qed.

Definition ex_first : str :=
  lit "option ""title"" ""Both""" ++ [10%N] ++ lit "plugin ""p""" ++ [10%N] ++ lit "pushtag #trip" ++ [10%N] ++
  lit "2024-01-03 close Assets:Cash" ++ [10%N] ++ lit "2024-01-01 * ""a""" ++ [10%N] ++ lit "poptag #trip" ++ [10%N].
Definition ex_second : str :=
  lit "plugin ""q""" ++ [10%N] ++ lit "2024-01-02 open Assets:Cash" ++ [10%N] ++ lit "2024-01-01 * ""b""" ++ [10%N].

Example C72_ex : exists ta tb tc dsA optsA psA wsA dsB optsB psB wsB,
  let a := ex_first in let b := ex_second in let c := ex_first ++ ex_second in
  lex P_Lexer.ex_env a = Fine (Some ta) /\ lex P_Lexer.ex_env b = Fine (Some tb) /\ lex P_Lexer.ex_env c = Fine (Some tc) /\
  map fst tc = map fst ta ++ map fst tb /\ ended (map fst ta) /\
  fine_content P_Lexer.ex_env P_Grammar.ex_env 0 a /\ fine_content P_Lexer.ex_env P_Grammar.ex_env 0 b /\
  without K_Include (map fst ta) /\ without K_Include (map fst tb) /\
  ~ sets_rules (input_of 0 a ta) /\ without K_Option (map fst tb) /\
  ledger_is P_Lexer.ex_env P_Grammar.ex_env (fun p => Some p) None a (Success dsA optsA psA wsA) /\
  ledger_is P_Lexer.ex_env P_Grammar.ex_env (fun p => Some p) None b (Success dsB optsB psB wsB) /\
  map (fun d => d_day (item (dir_date (item d)))) dsA = [1; 3]%N /\ map (fun d => d_day (item (dir_date (item d)))) dsB = [1; 2]%N.
Proof.
  assert (Ca : check_content P_Lexer.ex_env P_Grammar.ex_env 0 ex_first = true) by (vm_compute; reflexivity).
  assert (Cb : check_content P_Lexer.ex_env P_Grammar.ex_env 0 ex_second = true) by (vm_compute; reflexivity).
  assert (Cc : check_content P_Lexer.ex_env P_Grammar.ex_env 0 (ex_first ++ ex_second) = true) by (vm_compute; reflexivity).
  destruct (ex_ledger_success ex_first ltac:(vm_compute; exact Logic.I)) as (dsA & optsA & psA & wsA & HA & QA).
  destruct (ex_ledger_success ex_second ltac:(vm_compute; exact Logic.I)) as (dsB & optsB & psB & wsB & HB & QB).
  exists (ex_lexed ex_first), (ex_lexed ex_second), (ex_lexed (ex_first ++ ex_second)), dsA, optsA, psA, wsA, dsB, optsB, psB, wsB. cbn zeta.
  split; [apply ex_lexes; exact Ca|]. split; [apply ex_lexes; exact Cb|]. split; [apply ex_lexes; exact Cc|].
  split; [vm_compute; reflexivity|]. split; [right; exists (removelast (map fst (ex_lexed ex_first))); vm_compute; reflexivity|].
  split; [apply check_content_ok; exact Ca|]. split; [apply check_content_ok; exact Cb|].
  split; [apply check_without_include; vm_compute; reflexivity|]. split; [apply check_without_include; vm_compute; reflexivity|].
  split; [apply check_rules_ok; vm_compute; reflexivity|]. split; [apply check_without_option; vm_compute; reflexivity|].
  split; [exact HA|]. split; [exact HB|]. split.
  - clear - QA. vm_compute in QA. injection QA as <- _ _ _. reflexivity.
  - clear - QB. vm_compute in QB. injection QB as <- _ _ _. reflexivity.
Qed.

(** And in either order. *)
Lemma untied_ok a b : forallb (fun x => forallb (fun y => match key_compare (directive_key x) (directive_key y) with Eq => false | _ => true end) b) a = true ->
  forall x y, In x a -> In y b -> ~ tied (item x) (item y).
Proof.
  rewrite forallb_forall. intros H x y Hx Hy [T1 T2]. specialize (H x Hx). rewrite forallb_forall in H. specialize (H y Hy).
  rewrite <- must_precede_key in T1, T2. destruct key_compare_laws as (_ & CO & _). rewrite CO in T2. destruct (key_compare (directive_key x) (directive_key y)); cbn in *; congruence.
Qed.
Definition ex_third : str := lit "plugin ""q""" ++ [10%N] ++ lit "2024-01-02 open Assets:Cash" ++ [10%N].
Example C72_ex_swap : exists dsA optsA psA wsA dsB optsB psB wsB,
  let a := ex_first in let b := ex_third in
  map fst (ex_lexed (a ++ b)) = map fst (ex_lexed a) ++ map fst (ex_lexed b) /\ map fst (ex_lexed (b ++ a)) = map fst (ex_lexed b) ++ map fst (ex_lexed a) /\
  ended (map fst (ex_lexed a)) /\ ended (map fst (ex_lexed b)) /\
  fine_content P_Lexer.ex_env P_Grammar.ex_env 0 b /\ without K_Include (map fst (ex_lexed b)) /\
  ~ sets_rules (input_of 0 b (ex_lexed b)) /\ without K_Option (map fst (ex_lexed b)) /\
  ledger_is P_Lexer.ex_env P_Grammar.ex_env (fun p => Some p) None a (Success dsA optsA psA wsA) /\
  ledger_is P_Lexer.ex_env P_Grammar.ex_env (fun p => Some p) None b (Success dsB optsB psB wsB) /\
  List.length dsA = 2 /\ List.length dsB = 1 /\ forall x y, In x dsA -> In y dsB -> ~ tied (item x) (item y).
Proof.
  destruct (ex_ledger_success ex_first ltac:(vm_compute; exact Logic.I)) as (dsA & optsA & psA & wsA & HA & QA).
  destruct (ex_ledger_success ex_third ltac:(vm_compute; exact Logic.I)) as (dsB & optsB & psB & wsB & HB & QB).
  exists dsA, optsA, psA, wsA, dsB, optsB, psB, wsB. cbn zeta.
  split; [vm_compute; reflexivity|]. split; [vm_compute; reflexivity|].
  split; [right; exists (removelast (map fst (ex_lexed ex_first))); vm_compute; reflexivity|]. split; [right; exists (removelast (map fst (ex_lexed ex_third))); vm_compute; reflexivity|].
  split; [apply check_content_ok; vm_compute; reflexivity|]. split; [apply check_without_include; vm_compute; reflexivity|].
  split; [apply check_rules_ok; vm_compute; reflexivity|]. split; [apply check_without_option; vm_compute; reflexivity|].
  split; [exact HA|]. split; [exact HB|]. clear HA HB. vm_compute in QA, QB. injection QA as <- _ _ _. injection QB as <- _ _ _.
  split; [reflexivity|]. split; [reflexivity|]. apply untied_ok. vm_compute. reflexivity.
Qed.

(** And texts which are lines of words. *)
Lemma ex_poptag : lexeme P_Lexer.ex_env (lit "poptag") (SpecLexer.tok (T_Keyword K_Poptag)).
Proof. exact (lx_keyword _ K_Poptag). Qed.
Lemma ex_worded_line w k rest : lexeme P_Lexer.ex_env w (SpecLexer.tok (T_Keyword k)) -> rest = [] \/ (exists c r, rest = c :: r /\ In c [32; 9; 10; 13; 59]%N) ->
  worded P_Lexer.ex_env [(w, T_Keyword k); (lit "#a", T_Tag (lit "a"))] rest (w ++ lit " " ++ lit "#a" ++ rest).
Proof.
  intros Hw Hr. apply (worded_next P_Lexer.ex_env w _ (lit " ") _ _ (lit "#a" ++ rest)); [exact Hw|reflexivity|repeat constructor| |].
  - eapply C64_word; [exact P_Lexer.arabic_ok|exact Hw|reflexivity|right; eexists; eexists; split; [reflexivity|cbn; intuition]].
  - apply (worded_next P_Lexer.ex_env (lit "#a") _ [] _ _ rest); [exact ex_tag|reflexivity|constructor| |constructor].
    eapply C64_word; [exact P_Lexer.arabic_ok|exact ex_tag|reflexivity|exact Hr].
Qed.
Definition ex_push_line : list word := [(lit "pushtag", T_Keyword K_Pushtag); (lit "#a", T_Tag (lit "a"))].
Definition ex_pop_line : list word := [(lit "poptag", T_Keyword K_Poptag); (lit "#a", T_Tag (lit "a"))].
Lemma ex_begins w k rest : begins ((w, T_Keyword k) :: rest).
Proof. exists w, (T_Keyword k), rest. split; [reflexivity|discriminate]. Qed.
Lemma ex_last_line rest fin : lined P_Lexer.ex_env fin [] rest -> rest = [] \/ (exists c r, rest = c :: r /\ In c [32; 9; 10; 13; 59]%N) ->
  lined P_Lexer.ex_env fin [(false, ex_pop_line)] ([10%N] ++ lit "poptag #a" ++ rest).
Proof.
  intros Hl Hr. apply (lined_next P_Lexer.ex_env fin false ex_pop_line [] [10%N] (lit "poptag" ++ lit " " ++ lit "#a" ++ rest) rest);
    [apply gaps_eol; exact ex_break_lf|apply ex_worded_line; [exact ex_poptag|exact Hr]|apply ex_begins| |exact Hl].
  intros _ (c & r & Q & H). cbn in Q. injection Q as <- _. cbn in H. intuition discriminate.
Qed.
Definition ex_tags : str := lit "pushtag #a" ++ [10%N] ++ lit "poptag #a".
Definition ex_more_tags : str := lit "; more" ++ [10%N] ++ lit "pushtag #a" ++ [10%N] ++ lit "poptag #a" ++ [10%N].
Lemma ex_tags_out : set_out P_Lexer.ex_env false [(false, ex_push_line); (false, ex_pop_line)] ex_tags.
Proof.
  apply (laid_lines _ false false ex_push_line [(false, ex_pop_line)] [] None [] ex_tags ([10%N] ++ lit "poptag #a")); [constructor|constructor| |apply ex_begins|discriminate|].
  - apply (ex_worded_line (lit "pushtag") K_Pushtag); [exact ex_pushtag|right; eexists; eexists; split; [reflexivity|cbn; intuition]].
  - apply (ex_last_line [] false); [constructor|left; reflexivity].
Qed.
Lemma ex_more_tags_out : starts_afresh P_Lexer.ex_env true ex_push_line [(false, ex_pop_line)] ex_more_tags.
Proof.
  apply (afresh _ _ _ _ (Some false) (lit "; more" ++ [10%N]) (lit "pushtag #a" ++ [10%N] ++ lit "poptag #a" ++ [10%N]) ([10%N] ++ lit "poptag #a" ++ [10%N]));
    [right; reflexivity| | |apply ex_begins| |].
  - apply gaps_eol. apply (ex_break_comment (lit " more") [10%N]); [cbn; intuition discriminate|left; reflexivity].
  - apply (ex_worded_line (lit "pushtag") K_Pushtag); [exact ex_pushtag|right; eexists; eexists; split; [reflexivity|cbn; intuition]].
  - intros (c & r & Q & H). cbn in Q. injection Q as <- _. cbn in H. intuition discriminate.
  - apply (ex_last_line [10%N] true); [apply lined_eol; apply gaps_eol; exact ex_break_lf|right; eexists; eexists; split; [reflexivity|cbn; intuition]].
Qed.
Example C72_ex_text : exists optsA optsB,
  let a := ex_tags in let b := ex_more_tags in
  set_out P_Lexer.ex_env false [(false, ex_push_line); (false, ex_pop_line)] a /\ starts_afresh P_Lexer.ex_env true ex_push_line [(false, ex_pop_line)] b /\
  lex P_Lexer.ex_env (a ++ [10%N]) = Fine (Some (ex_lexed (a ++ [10%N]))) /\ lex P_Lexer.ex_env b = Fine (Some (ex_lexed b)) /\
  without K_Option (map fst (ex_lexed (a ++ [10%N]))) /\ without K_Include (map fst (ex_lexed b)) /\
  ledger_is P_Lexer.ex_env P_Grammar.ex_env (fun p => Some p) None (a ++ [10%N]) (Success [] optsA [] []) /\
  ledger_is P_Lexer.ex_env P_Grammar.ex_env (fun p => Some p) None b (Success [] optsB [] []).
Proof.
  assert (X : forall content, match ex_ledger content with Fine (Some (Success [] _ [] [])) => True | _ => False end ->
    exists opts, ledger_is P_Lexer.ex_env P_Grammar.ex_env (fun p => Some p) None content (Success [] opts [] [])).
  { intros content H. destruct (ex_ledger content) as [[[[|? ?] opts [|? ?] [|? ?]|]|]|] eqn:X; try contradiction. exists opts. apply ex_ledger_is. exact X. }
  destruct (X (ex_tags ++ [10%N]) ltac:(vm_compute; exact Logic.I)) as (optsA & HA). destruct (X ex_more_tags ltac:(vm_compute; exact Logic.I)) as (optsB & HB).
  exists optsA, optsB. cbn zeta. split; [exact ex_tags_out|]. split; [exact ex_more_tags_out|].
  split; [apply ex_lexes; vm_compute; reflexivity|]. split; [apply ex_lexes; vm_compute; reflexivity|].
  split; [apply check_without_option; vm_compute; reflexivity|]. split; [apply check_without_include; vm_compute; reflexivity|]. auto.
Qed.

(** ** What is necessary *)

(** If the first text sets how many lines a string may have, or the name of an
    account type, then the second is read in another way after it. *)
Theorem C72_rules_refuted : exists L E a b dsA optsA psA wsA dsB optsB psB wsB es ws,
  unicode_ok (le_unicode L) /\ environment_ok E /\
  ledger_is L E (fun p => Some p) None (a ++ [10%N]) (Success dsA optsA psA wsA) /\ ledger_is L E (fun p => Some p) None b (Success dsB optsB psB wsB) /\
  ledger_is L E (fun p => Some p) None (a ++ [10%N] ++ b) (Failure es ws).
Proof.
  destruct (ex_ledger_success (lit "option ""name_assets"" ""Actifs""" ++ [10%N]) ltac:(vm_compute; exact Logic.I)) as (dsA & optsA & psA & wsA & HA & _).
  destruct (ex_ledger_success (lit "2024-01-02 open Assets:Cash" ++ [10%N]) ltac:(vm_compute; exact Logic.I)) as (dsB & optsB & psB & wsB & HB & _).
  assert (HC : exists es ws, ledger_is P_Lexer.ex_env P_Grammar.ex_env (fun p => Some p) None (lit "option ""name_assets"" ""Actifs""" ++ [10%N] ++ lit "2024-01-02 open Assets:Cash" ++ [10%N]) (Failure es ws)).
  { destruct (ex_ledger (lit "option ""name_assets"" ""Actifs""" ++ [10%N] ++ lit "2024-01-02 open Assets:Cash" ++ [10%N])) as [[[|es ws]|]|] eqn:X; try (vm_compute in X; discriminate X).
    exists es, ws. apply ex_ledger_is. exact X. }
  destruct HC as (es & ws & HC).
  exists P_Lexer.ex_env, P_Grammar.ex_env, (lit "option ""name_assets"" ""Actifs"""), (lit "2024-01-02 open Assets:Cash" ++ [10%N]), dsA, optsA, psA, wsA, dsB, optsB, psB, wsB, es, ws.
  split; [exact P_Lexer.arabic_ok|]. split; [exact P_File.ex_environment|]. auto.
Qed.
(** If both texts have options, one may be given twice. *)
Theorem C72_options_refuted : exists L E a b dsA optsA psA wsA dsB optsB psB wsB es ws,
  unicode_ok (le_unicode L) /\ environment_ok E /\
  ledger_is L E (fun p => Some p) None (a ++ [10%N]) (Success dsA optsA psA wsA) /\ ledger_is L E (fun p => Some p) None b (Success dsB optsB psB wsB) /\
  ledger_is L E (fun p => Some p) None (a ++ [10%N] ++ b) (Failure es ws).
Proof.
  destruct (ex_ledger_success (lit "option ""title"" ""a""" ++ [10%N]) ltac:(vm_compute; exact Logic.I)) as (dsA & optsA & psA & wsA & HA & _).
  destruct (ex_ledger_success (lit "option ""title"" ""b""" ++ [10%N]) ltac:(vm_compute; exact Logic.I)) as (dsB & optsB & psB & wsB & HB & _).
  assert (HC : exists es ws, ledger_is P_Lexer.ex_env P_Grammar.ex_env (fun p => Some p) None (lit "option ""title"" ""a""" ++ [10%N] ++ lit "option ""title"" ""b""" ++ [10%N]) (Failure es ws)).
  { destruct (ex_ledger (lit "option ""title"" ""a""" ++ [10%N] ++ lit "option ""title"" ""b""" ++ [10%N])) as [[[|es ws]|]|] eqn:X; try (vm_compute in X; discriminate X).
    exists es, ws. apply ex_ledger_is. exact X. }
  destruct HC as (es & ws & HC).
  exists P_Lexer.ex_env, P_Grammar.ex_env, (lit "option ""title"" ""a"""), (lit "option ""title"" ""b""" ++ [10%N]), dsA, optsA, psA, wsA, dsB, optsB, psB, wsB, es, ws.
  split; [exact P_Lexer.arabic_ok|]. split; [exact P_File.ex_environment|]. auto.
Qed.

Print Assumptions C72_append.
Print Assumptions C72_text.
Print Assumptions C72_swap.
Print Assumptions C72_rules_refuted.
Print Assumptions C72_options_refuted.
