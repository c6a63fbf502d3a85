(** * A displayed ledger as the parser gets it *)
From Coq Require Import String Ascii.
From Coq Require Import List NArith Arith Bool Lia Permutation.
From Verif Require Import Base BaseFacts Types SpecTypes Decimal SpecDecimal Token SpecOptions LexPost SpecLex LexFacts P_Lex Lexer Peg Grammar SpecExpr SpecLexer LexerFacts P_Lexer Display SpecDisplay SpecLedger
  DisplayLex DisplayText DisplayDirective DisplayLexed SpecGrammar SpecDirective DisplayRead DisplayLaid.
Import ListNotations.
Local Open Scope nat_scope.

(** ** Lines in general *)
Section Lexed.
  Context (L : lexer_env) (UO : unicode_ok (le_unicode L))
          (ND : forall c, u_Nd (le_unicode L) c = true -> u_Lu (le_unicode L) c = false /\ u_Lo (le_unicode L) c = false).

  (** A text which spells lines. *)
  Lemma lines_lexed s raw lines : spells L (fun rest => rest = []) s raw ->
    T_Eol :: tkeyed raw = flat_map breaks lines ++ [T_Eol] ->
    Forall (fun l => clear (snd l)) lines -> (forall b l r, lines = (b, l) :: r -> b = false) ->
    exists out, lex L s = Fine (Some out) /\ T_Eol :: map fst out = flat_map laid lines ++ [T_Eol].
  Proof.
    intros S K Cl Hd. destruct (S [] 0 [] eq_refl (wc_end _ _)) as (its & W & M). rewrite !app_nil_r in W.
    unfold lex. rewrite (C30_complete L UO _ _ ND W).
    pose proof (attempt_recovery_spec s (recovery_lex L) its) as R.
    assert (Ok : forall e r, In (Err e, r) its -> False).
    { intros e r X. apply (in_map fst) in X. rewrite M in X. apply in_map_iff in X. destruct X as (t & X & _). discriminate. }
    destruct (attempt_recovery s (recovery_lex L) its) as [[toks|]|]; [|destruct R|exfalso; apply R; intros e a b X; destruct (Ok _ _ X)].
    destruct R as [Rt _].
    assert (Q : map fst toks = raw).
    { rewrite Rt. clear - M. revert raw M. induction its as [|[x r] its IH]; intros [|t ts] Q; try discriminate; [reflexivity|]. cbn in Q. injection Q as -> Q. cbn. rewrite (IH ts Q). reflexivity. }
    clear Rt. destruct (C28_keyword_then_colon toks) as (keys & Hk & _). rewrite Hk.
    assert (Qk : keys = keyed_list toks).
    { unfold keyword_then_colon_to_key in Hk. rewrite (keyword_collect (toks, None)) in Hk; [|exact I|cbn; lia]. injection Hk as <-. reflexivity. }
    assert (Mk : map fst keys = tkeyed raw) by (rewrite Qk, tkeyed_list, Q; reflexivity).
    rewrite <- Mk in K. clear Qk Hk Mk.
    destruct lines as [|[b c] lines].
    - cbn in K. injection K as K. destruct keys; [|discriminate]. exists []. split; [|reflexivity].
      rewrite (handle_eol_indent_layout [] _ [([(T_Eol, (0, 0))], [])]); [reflexivity|].
      constructor; [reflexivity| |].
      + intros r t [X|[]]. injection X as <- <-. split; [discriminate|]. split; constructor; [reflexivity|constructor].
      + intros a r t b X N. destruct a as [|? [|? ?]]; injection X; intros; congruence || discriminate.
    - pose proof (Hd b c lines eq_refl) as ->. cbn [flat_map breaks fst snd] in K. rewrite <- app_assoc in K. injection K as K.
      inversion Cl as [|? ? Cc Cl']; subst. cbn [snd] in Cc.
      destruct (layout_lines c lines keys (Some (blen s, blen s)) Cc Cl' K) as (out & Ho & Mo).
      exists out. rewrite Ho. split; [reflexivity|]. rewrite Mo. cbn [flat_map laid fst snd]. rewrite <- !app_assoc. reflexivity.
  Qed.
End Lexed.

(** ** Plugins *)
Definition t_plugin (p : plugin) : list token :=
  T_Keyword K_Plugin :: T_String (item (pl_module p)) :: t_options (fun c => [T_String c]) (pl_config p).

Section Ledgers.
  Context (L : lexer_env) (UO : unicode_ok (le_unicode L))
          (ND : forall c, u_Nd (le_unicode L) c = true -> u_Lu (le_unicode L) c = false /\ u_Lo (le_unicode L) c = false).
  Context (D : display_env) (E : grammar_env) (names : account_type -> str) (Dok : display_ok D) (RD : reads_decimals (le_decimal L)).

  Definition line_start (rest : str) : Prop := rest = [] \/ exists c r, rest = c :: r /\ ~ is_blank c /\ ~ ignored_first c.
  Lemma spells_eol : spells L line_start [10%N] [T_Eol].
  Proof.
    apply spells_one.
    - apply lx_eol. exists [], [10%N], []. split; [reflexivity|]. split; [auto|]. split; [left; reflexivity|constructor].
    - intros rest R. apply (eol_longest L UO). intros a q X. destruct R as [->|(c' & r' & -> & H')]; [discriminate|]. injection X as -> ->. exact H'.
  Qed.
  Lemma spells_plugin p : showable_plugin p -> spells L line_start (display_plugin p) (t_plugin p ++ [T_Eol]) /\ exists r, display_plugin p = 112%N :: r.
  Proof.
    intros [Cm Cc]. split; [|eexists; reflexivity].
    destruct (spells_keyword L UO K_Plugin) as [Sk _]. destruct (spells_string L UO _ Cm) as [Sm Fm].
    assert (Tm : tail_word L (32%N :: double_quoted (item (pl_module p))) [T_String (item (pl_module p))]) by (apply tail_word_space; [exact UO|apply anywhere; exact Sm|exact Fm]).
    assert (Tc : tail_word L (match pl_config p with Some c => lit " " ++ double_quoted (item c) | None => [] end) (t_options (fun c => [T_String c]) (pl_config p))).
    { destruct (pl_config p) as [c|]; [|apply tail_word_nil]. cbn in Cc |- *. destruct (spells_string L UO _ Cc) as [Sc Fc]. apply tail_word_space; [exact UO|apply anywhere; exact Sc|exact Fc]. }
    assert (S : spells L after_word (keyword_text K_Plugin ++ (32%N :: double_quoted (item (pl_module p))) ++ match pl_config p with Some c => lit " " ++ double_quoted (item c) | None => [] end) (t_plugin p)).
    { change (t_plugin p) with ([T_Keyword K_Plugin] ++ [T_String (item (pl_module p))] ++ t_options (fun c => [T_String c]) (pl_config p)).
      apply spells_then; [exact Sk|]. apply tail_word_app; assumption. }
    replace (display_plugin p) with ((keyword_text K_Plugin ++ (32%N :: double_quoted (item (pl_module p))) ++ match pl_config p with Some c => lit " " ++ double_quoted (item c) | None => [] end) ++ [10%N])
      by (unfold display_plugin; rewrite <- !app_assoc; reflexivity).
    apply (spells_app L after_word line_start); [exact S|exact spells_eol|]. intros rest _. right. right. left. eexists. reflexivity.
  Qed.
  Lemma digit_starts c : digit c -> ~ is_blank c /\ ~ ignored_first c.
  Proof. unfold digit. intro H. split; [apply not_is_blank; lia|]. unfold ignored_first. cbn. intuition lia. Qed.

  Definition raw_ledger (ps : list plugin) (ds : list directive) : list token :=
    flat_map (fun p => t_plugin p ++ [T_Eol]) ps ++ flat_map (fun d => t_directive D raw_key d ++ [T_Eol]) ds.
  Lemma spells_ledger ps ds : Forall showable_plugin ps -> Forall (common L E names) ds ->
    spells L (fun rest => rest = []) (ledger D ps ds) (raw_ledger ps ds) /\ line_start (ledger D ps ds).
  Proof.
    intros Fp Fd. unfold ledger, raw_ledger. induction Fp as [|p ps Cp Fp [IH Hs]].
    - destruct (spells_document L UO D E names Dok RD ds Fd) as [S Q]. split; [exact S|]. cbn [flat_map app].
      destruct Q as [->|(c & r & -> & H)]; [left; reflexivity|right; exists c, r; split; [reflexivity|apply digit_starts; exact H]].
    - destruct (spells_plugin p Cp) as (S & r & Q). cbn [flat_map]. rewrite <- !app_assoc. split.
      + rewrite (app_assoc (t_plugin p)). apply (spells_app L line_start); [exact S|exact IH|]. intros rest ->. rewrite app_nil_r. exact Hs.
      + right. rewrite Q. exists 112%N. eexists. split; [reflexivity|]. split; [apply not_is_blank; lia|]. unfold ignored_first. cbn. intuition lia.
  Qed.

  (** *** The lines *)
  Definition ledger_lines (ps : list plugin) (ds : list directive) : list (bool * list token) :=
    map (fun p => (false, t_plugin p)) ps ++ later_lines D T_Key ds.
  Definition o_plugin (p : plugin) : list token := t_plugin p ++ [T_Eol].
  Definition o_ledger (ps : list plugin) (ds : list directive) : list token := flat_map o_plugin ps ++ flat_map (o_directive D) ds.

  Lemma plain_plugin p : Forall DisplayLexed.plain (t_plugin p).
  Proof. constructor; [plain1|]. constructor; [plain1|]. destruct (pl_config p); repeat constructor. discriminate. Qed.
  Lemma ledger_no_colon ps ds : no_colon_first (raw_ledger ps ds).
  Proof. unfold raw_ledger. destruct ps; [destruct ds; exact I|exact I]. Qed.
  Lemma ledger_keyed ps ds : tkeyed (raw_ledger ps ds) = flat_map o_plugin ps ++ flat_map (fun d => t_directive D T_Key d ++ [T_Eol]) ds.
  Proof.
    unfold raw_ledger. induction ps as [|p ps IH]; [apply document_keyed|]. cbn [flat_map]. rewrite <- !(app_assoc (t_plugin p ++ [T_Eol])), (tkeyed_app (t_plugin p ++ [T_Eol])) by (exact (ledger_no_colon ps ds)).
    unfold o_plugin at 1. rewrite <- app_assoc. rewrite IH. rewrite (tkeyed_app (t_plugin p)) by exact I. rewrite (tkeyed_plain _ (plain_plugin p)). rewrite <- !app_assoc. reflexivity.
  Qed.
  Lemma ledger_breaks ps ds : T_Eol :: tkeyed (raw_ledger ps ds) = flat_map breaks (ledger_lines ps ds) ++ [T_Eol].
  Proof.
    rewrite ledger_keyed. unfold ledger_lines. induction ps as [|p ps IH].
    - cbn [flat_map app map]. destruct ds as [|d ds]; [reflexivity|]. rewrite breaks_document. change (later_lines D T_Key (d :: ds)) with ((false, t_header D d) :: rest_lines D T_Key d ++ later_lines D T_Key ds).
      change (flat_map breaks ((false, t_header D d) :: ?r)) with ((T_Eol :: t_header D d) ++ flat_map breaks r). apply (app_assoc (T_Eol :: t_header D d)).
    - change (flat_map o_plugin (p :: ps)) with (o_plugin p ++ flat_map o_plugin ps). unfold o_plugin at 1. rewrite <- !app_assoc. cbn [app]. rewrite IH.
      rewrite map_cons, <- app_comm_cons. change (flat_map breaks ((false, t_plugin p) :: ?r)) with ((T_Eol :: t_plugin p) ++ flat_map breaks r). apply (app_assoc (T_Eol :: t_plugin p)).
  Qed.
  Lemma ledger_laid ps ds : T_Eol :: o_ledger ps ds = flat_map laid (ledger_lines ps ds) ++ [T_Eol].
  Proof.
    unfold ledger_lines, o_ledger. induction ps as [|p ps IH].
    - cbn [flat_map app map]. destruct ds as [|d ds]; [reflexivity|]. rewrite laid_document. change (later_lines D T_Key (d :: ds)) with ((false, t_header D d) :: rest_lines D T_Key d ++ later_lines D T_Key ds).
      change (flat_map laid ((false, t_header D d) :: ?r)) with ((T_Eol :: t_header D d) ++ flat_map laid r). apply (app_assoc (T_Eol :: t_header D d)).
    - change (flat_map o_plugin (p :: ps)) with (o_plugin p ++ flat_map o_plugin ps). unfold o_plugin at 1. rewrite <- !app_assoc. cbn [app]. rewrite IH.
      rewrite map_cons, <- app_comm_cons. change (flat_map laid ((false, t_plugin p) :: ?r)) with ((T_Eol :: t_plugin p) ++ flat_map laid r). apply (app_assoc (T_Eol :: t_plugin p)).
  Qed.
  Lemma ledger_clear ps ds : Forall (fun l => clear (snd l)) (ledger_lines ps ds).
  Proof.
    unfold ledger_lines. apply Forall_app. split.
    - apply Forall_map, Forall_forall. intros p _. cbn [snd]. split; [discriminate|]. split; [exact I|]. eapply Forall_impl; [|apply plain_plugin]. intros t [_ P]. exact P.
    - unfold later_lines. apply Forall_flat_map, Forall_forall. intros x _. constructor; [apply header_clear|apply rest_clear].
  Qed.
  Lemma ledger_first ps ds b l r : ledger_lines ps ds = (b, l) :: r -> b = false.
  Proof.
    unfold ledger_lines. destruct ps as [|p ps]; [destruct ds as [|d ds]; [discriminate|]|]; cbn; intro H; injection H; congruence.
  Qed.
  Lemma ledger_lexed ps ds : Forall showable_plugin ps -> Forall (common L E names) ds ->
    exists out, lex L (ledger D ps ds) = Fine (Some out) /\ map fst out = o_ledger ps ds.
  Proof.
    intros Fp Fd. destruct (spells_ledger ps ds Fp Fd) as [S _].
    destruct (lines_lexed L UO ND _ _ (ledger_lines ps ds) S (ledger_breaks ps ds) (ledger_clear ps ds) (ledger_first ps ds)) as (out & Lx & M).
    exists out. split; [exact Lx|]. rewrite <- ledger_laid in M. injection M as M. exact M.
  Qed.
  Lemma ledger_laid_out ps ds : Forall (common L E names) ds -> laid_out E (o_ledger ps ds).
  Proof.
    intro Fd. unfold o_ledger. assert (C : closed E (flat_map o_plugin ps)).
    { apply closed_flat_map, Forall_forall. intros p _. apply closed_all. unfold o_plugin, t_plugin. cbn [app]. constructor; [split; discriminate|]. constructor; [exact I|].
      apply Forall_app. split; [destruct (pl_config p); repeat constructor|repeat constructor]. }
    apply C. eapply laid_document_; eassumption.
  Qed.
End Ledgers.
