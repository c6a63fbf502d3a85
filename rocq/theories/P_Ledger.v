(** * C58: a whole ledger can be displayed and parsed again *)
From Coq Require Import String Ascii.
From Coq Require Import List NArith ZArith Arith Bool Lia Permutation.
From Verif Require Import Base BaseFacts Text Path SpecPath PathFacts Sources Types SpecTypes TypesFacts P_Types SortM SpecSort P_Sort Options SpecOptions P_Options
  Pragma SpecPragma PragmaFacts PragmaRun P_Pragma Read SpecRead ReadFacts P_Read Decimal SpecDecimal
  Token LexPost SpecLex LexFacts P_Lex Lexer SpecLexer LexerFacts P_Lexer Peg Grammar SpecExpr Display SpecDisplay SpecLedger
  PegFacts ExprFacts P_Arith DisplayLex DisplayText DisplayDirective DisplayLexed SpecGrammar SpecDirective GrammarSafe DisplayRead DisplayLaid DisplayLedger DisplayParsed P_Grammar
  Parse SpecParse SpecWhole ParseFacts ParseOnce ParseFile P_File P_Includes P_Parse P_Display P_RoundTrip.
Import ListNotations.
Local Open Scope nat_scope.

(** ** One plugin after the other, then the directives *)
Section Tiles.
  Context (L : lexer_env) (E : grammar_env) (names : account_type -> str) (Go : forall l, Permutation l (g_order E l)).
  Context (D : display_env) (Dok : display_ok D) (I : input) (f : option path).

  Lemma tiles_ledger r : rl_names r = names -> forall ps ds i, Forall (common L E names) ds ->
    here I (o_ledger D ps ds) i (List.length (in_tokens I)) ->
    exists decls decls' ws, tiles E I f r i (decls ++ decls') [] ws r /\
      Forall2 (fun p x => exists p', item x = D_Pragma (P_Plugin p') /\ alike_plugin p p') ps decls /\
      Forall2 (fun d x => exists d', item x = D_Directive d' /\ alike d d') ds decls'.
  Proof.
    intros Nr ps ds. unfold o_ledger. induction ps as [|p ps IH]; intros i F H.
    - cbn [flat_map app] in H. destruct (tiles_document L E names Go D Dok I f r Nr ds i F H) as (decls & ws & T & A). exists [], decls, ws. split; [exact T|]. split; [constructor|exact A].
    - cbn [flat_map] in H. rewrite <- app_assoc in H. apply here_app in H. destruct H as (j & Hp & H).
      destruct (IH j F H) as (decls & decls' & ws & T & A & A').
      unfold o_plugin, t_plugin in Hp. cbn [app] in Hp. apply here_cons in Hp. destruct Hp as [T0 Hp]. apply here_cons in Hp. destruct Hp as [T1 Hp].
      apply here_app in Hp. destruct Hp as (k & Hc & Hl). apply here_one in Hl. destruct Hl as [Tl ->].
      assert (X : exists c, maybe (written I (string_at I)) (S (S i)) k c /\ same_option same_item (pl_config p) c).
      { destruct (pl_config p) as [c|]; cbn [t_options] in Hc.
        - apply here_one in Hc. destruct Hc as [Tc ->]. exists (Some (mk_spanned (item c) (text I (S (S i)) (S (S (S i)))))). split; [|reflexivity].
          apply maybe_so. split; [constructor; exact Tc|reflexivity].
        - apply here_nil in Hc. subst k. exists None. split; [constructor|exact Logic.I]. }
      destruct X as (c & Mc & Sc).
      assert (De : declares E I f r i (S k) (mk_spanned (D_Pragma (P_Plugin (mk_plugin (mk_spanned (item (pl_module p)) (text I (S i) (S (S i)))) c))) (text I i (S k))) [] r).
      { apply declares_pragma with (k := k); [|constructor; exact Tl].
        apply pragma_plugin with (j := S (S i)); [exact T0|split; [constructor; exact T1|reflexivity]|exact Mc]. }
      pose proof (tiles_next _ _ _ _ _ _ _ _ _ _ _ _ _ De T) as Tn.
      eexists (_ :: decls), decls', _. split; [exact Tn|]. split; [|exact A'].
      constructor; [|exact A]. eexists. split; [reflexivity|]. split; [reflexivity|exact Sc].
  Qed.
End Tiles.

(** ** Events without effect on what follows *)
Definition quiet_event (e : event) : Prop :=
  exists f x, e = Declared f x /\ ((exists d, item x = D_Directive d) \/ exists p, item x = D_Pragma (P_Plugin p)).
Lemma quiet_pushed es : Forall quiet_event es -> (forall t, tag_stack t es = []) /\ (forall k, meta_stack k es = []).
Proof.
  intro F. unfold tag_stack, meta_stack. split; intro t; induction F as [|e es (f & x & -> & [[d It]|[p It]]) F IH]; cbn; try rewrite It; auto.
Qed.
Lemma walk_quiet globs t f decls es t' : walk globs t f decls es t' -> Forall quiet_event (map (Declared f) decls) -> es = map (Declared f) decls.
Proof.
  induction decls as [|x decls IH] in es |- *; intros W F.
  - inversion W; subst. reflexivity.
  - cbn in F. inversion F as [|? ? (f' & x' & Q & It) F']; subst. injection Q as <- <-.
    inversion W as [|? ? ? ? es' ? Pl W'|]; subst; [|destruct It as [[? It]|[? It]]; congruence]. cbn. f_equal. apply IH; assumption.
Qed.
Lemma dues_quiet canonicalize globs errs es : Forall quiet_event es -> forall seen, dues canonicalize globs errs seen es [].
Proof.
  induction 1 as [|e es (f & x & -> & It) F IH]; intro seen; [constructor|].
  change (@nil report) with (@nil report ++ []). constructor; [|apply IH]. cbn. destruct It as [[d It]|[p It]]; rewrite It; reflexivity.
Qed.
Lemma leftover_quiet es : Forall quiet_event es -> leftover es [].
Proof.
  intro F. destruct (quiet_pushed es F) as [Nt Nm]. exists [], []. split; [constructor|]. split; [intro k; rewrite Nm; cbn; tauto|].
  split; [constructor|]. split; [intro t; rewrite Nt; cbn; tauto|reflexivity].
Qed.
Lemma yields_plugins (f : option path) decls ps : Forall2 (fun p x => exists p', item x = D_Pragma (P_Plugin p') /\ alike_plugin p p') ps decls ->
  forall seen es out, yields seen (map (Declared f) decls ++ es) out -> yields (seen ++ map (Declared f) decls) es out.
Proof.
  induction 1 as [|p x ps decls (p' & It & _) F IH]; intros seen es out Y; cbn [map app] in *; [rewrite app_nil_r; exact Y|].
  inversion Y as [|? ? ? dd dd' out' As Au Sp Y'|? ? ? ? As Y']; subst; cbn in As; [rewrite It in As; discriminate|].
  apply IH in Y'. rewrite <- app_assoc in Y'. exact Y'.
Qed.
Lemma yields_documents L E names f : forall decls ds seen out, Forall (common L E names) ds ->
  Forall2 (fun d x => exists d', item x = D_Directive d' /\ alike d d') ds decls -> Forall quiet_event seen ->
  yields seen (map (Declared f) decls) out -> Forall2 (fun d y => alike d (item y)) ds out.
Proof.
  induction decls as [|x decls IH]; intros ds seen out Co F Fs Y; inversion F as [|d ? ds' ? (d' & It & Al) F']; subst.
  - inversion Y; subst. constructor.
  - inversion Co as [|? ? Cd Co']; subst.
    assert (Fs' : Forall quiet_event (seen ++ [Declared f x])).
    { apply Forall_app. split; [exact Fs|]. constructor; [|constructor]. exists f, x. split; [reflexivity|]. left. exists d'. exact It. }
    cbn in Y. inversion Y as [|? ? ? dd dd' out' As Au Sp Y'|? ? ? ? As Y']; subst; cbn in As; rewrite It in As; [|discriminate].
    injection As as <-. cbn [item] in Au. destruct (quiet_pushed seen Fs) as [Nt Nm]. constructor.
    + eapply alike_augmented; eassumption.
    + eapply IH; eassumption.
Qed.
Lemma plugins_ledger f ps decls ds decls' : Forall2 (fun p x => exists p', item x = D_Pragma (P_Plugin p') /\ alike_plugin p p') ps decls ->
  Forall2 (fun d x => exists d', item x = D_Directive d' /\ alike d d') ds decls' ->
  Forall2 alike_plugin ps (plugins_of (map (Declared f) (decls ++ decls'))).
Proof.
  intros A A'. induction A as [|p x ps decls (p' & It & Al) F IH].
  - cbn [app]. replace (plugins_of (map (Declared f) decls')) with (@nil plugin); [constructor|].
    unfold plugins_of. induction A' as [|d x ds decls' (d' & It & _) F IH]; [reflexivity|]. cbn. rewrite It. exact IH.
  - unfold plugins_of in *. cbn. rewrite It. constructor; assumption.
Qed.

(** ** Any text with the tokens of a ledger *)
Section Texts.
  Context (L : lexer_env) (E : grammar_env) (En : environment_ok E) (UO : unicode_ok (le_unicode L)) (RD : reads_decimals (le_decimal L)).
  Context (ND : forall c, u_Nd (le_unicode L) c = true -> u_Lu (le_unicode L) c = false /\ u_Lo (le_unicode L) c = false).
  Context (D : display_env) (Dok : display_ok D).
  Context (glob_with : str -> result (list glob_item) str) (canonicalize : path -> option path) (read : path -> result str str).
  Context (Cano : forall p q c d, same_path p q -> canonicalize p = Some c -> canonicalize q = Some d -> same_path c d).
  Context (canonicalize' : path -> option path) (fuel : nat) (root : option path).
  Context (Root : forall p, root = Some p -> canonicalize p <> None).
  Context (ps : list plugin) (ds : list directive) (Fd : Forall (common L E default_names) ds).
  Context (content : str) (Lexed : exists out, lex L content = Fine (Some out) /\ map fst out = o_ledger D ps ds).

  Lemma text_includes : includes_of L content = [].
  Proof.
    destruct Lexed as (out & Lx & M).
    unfold includes_of. rewrite C38_includes, Lx. destruct (included_strings (input_of 0 content out)) as [|x l] eqn:X; [reflexivity|]. exfalso.
    destruct (C38_exact (input_of 0 content out) x) as (i & T & _); [rewrite X; left; reflexivity|].
    eapply (laid_no_keyword E (input_of 0 content out) K_Include); [|cbn; auto|exact T].
    cbn [input_of in_tokens]. rewrite M. eapply ledger_laid_out; eassumption.
  Qed.
  Lemma text_can_be_read : exists s, reads_to (includes_of L) glob_with canonicalize read fuel root content s.
  Proof.
    assert (X : exists s, read_with_includes (includes_of L) glob_with canonicalize read fuel root content = Some s).
    { unfold read_with_includes, read_start, resolved_includes. rewrite text_includes. destruct fuel; cbn; eauto. }
    destruct X as [s X]. exists s, s. repeat split; [exact X|reflexivity].
  Qed.
  Lemma text_content s : reads_to (includes_of L) glob_with canonicalize read fuel root content s ->
    content_iter s = [(0, root, content)].
  Proof.
    intros (s0 & Rd & Rp & Rc & _ & _ & _ & Pm). unfold read_with_includes, read_start, resolved_includes in Rd. rewrite text_includes in Rd.
    assert (X : forall st, rd_pending st = [] -> read_loop (includes_of L) glob_with canonicalize read fuel st = Some st) by (intros st Hp; destruct fuel; cbn; rewrite Hp; reflexivity).
    rewrite X in Rd by reflexivity. injection Rd as <-. cbn in *. apply Permutation_nil in Pm. unfold content_iter. rewrite Rp, Rc, Pm. reflexivity.
  Qed.

  (** The text of plugins and directives is parsed to the same plugins, in the
      same order, and the same directives, in order of date. *)
  Lemma text_read_back : forall s, reads_to (includes_of L) glob_with canonicalize read fuel root content s ->
    exists toks again directives opts plugins warnings, parser_new L s = Fine (Some toks) /\
      parse E canonicalize' s toks = Fine (Some (Success directives opts plugins warnings)) /\
      Forall2 alike_plugin ps plugins /\
      Forall2 (fun d d' => alike d (item d')) ds again /\ sorted_from again directives.
  Proof.
    intros s Reads. pose proof (text_content s Reads) as Ci.
    destruct Lexed as (out & Lx & M).
    set (I := input_of 0 content out) in *.
    assert (Lo : laid_out E (map fst (in_tokens I))) by (cbn [I input_of in_tokens]; rewrite M; eapply ledger_laid_out; eassumption).
    assert (Fi : forall id f c, In (id, f, c) (content_iter s) -> fine_content L E id c).
    { rewrite Ci. intros id f c [X|[]]. injection X as <- <- <-. exists out. split; [exact Lx|]. split; [apply laid_computable; exact Lo|].
      intros i name value c T. exfalso. eapply (laid_no_keyword E I K_Option); [exact Lo|cbn; auto|exact T]. }
    destruct (parser_new L s) as [[toks|]|] eqn:Pn.
    2: pose proof (C30_parser L UO _ _ _ fuel root _ s Reads) as X; rewrite Pn in X; destruct X.
    2: pose proof (C30_parser L UO _ _ _ fuel root _ s Reads) as X; rewrite Pn in X;
       destruct X as (id & f & c & Hin & Px); rewrite Ci in Hin; destruct Hin as [Y|[]]; injection Y as <- <- <-; congruence.
    destruct (C03_parse L E En UO _ _ _ Cano canonicalize' fuel root _ s Reads Root toks Pn Fi)
      as (xs & r2 & po & yielded & opts & plugins & reports & sorted & Fs & Ob2 & Pp & So & X).
    destruct (tiles_ledger L E default_names (env_order E En) D Dok I root initial_rules eq_refl ps ds 0 Fd) as (declp & decls & ws & Ti & Ap & Al).
    { apply here_all. exact M. }
    assert (Ob : exists po, obeys E po initial_rules).
    { exists default_parser_options. split; cbn; [exact named_default| |reflexivity]. intro t. apply default_names_valid. apply En. }
    assert (Tf : files_tiled L E initial_rules (content_iter s) [(root, declp ++ decls)] ([] ++ []) (ws ++ []) initial_rules).
    { rewrite Ci. eapply tiled_cons; [exact Lx|exact Ti|constructor]. }
    destruct (files_tiled_read L E En _ _ _ _ _ _ Tf Ob Fi _ _ Fs) as (A & B & C & ->).
    destruct (shape_of L E _ _ _ Cano canonicalize' fuel root _ s Reads Root xs _ Fs) as (rootds & b & Sh & Nd). rewrite A in *. cbn [app] in Sh. injection Sh as <- <-.
    pose proof (pass_spec canonicalize' (included_globs s) (error_paths s) po root [] (declp ++ decls) [] Nd) as Z.
    cbn zeta in Z. cbn [app] in Z, Pp. rewrite Pp in Z. destruct Z as (es & rest & rs & left & W & Y & Du & Le & -> & -> & ->).
    assert (Fe1 : Forall quiet_event (map (Declared root) declp)).
    { clear - Ap. apply Forall_map. induction Ap as [|p x ps declp (p' & It & _) F IH]; constructor; [|exact IH]. exists root, x. split; [reflexivity|]. right. eauto. }
    assert (Fe2 : Forall quiet_event (map (Declared root) decls)).
    { clear - Al. apply Forall_map. induction Al as [|p x ps declp (p' & It & _) F IH]; constructor; [|exact IH]. exists root, x. split; [reflexivity|]. left. eauto. }
    assert (Fe : Forall quiet_event (map (Declared root) (declp ++ decls))) by (rewrite map_app; apply Forall_app; split; assumption).
    pose proof (walk_quiet _ _ _ _ _ _ W Fe) as ->.
    rewrite (leftover_nil _ _ (leftover_quiet _ Fe) Le) in X. pose proof (dues_unique _ _ _ _ _ _ _ (dues_quiet _ _ _ _ Fe []) Du) as Aq. inversion Aq as [Eq0 Eq1|]. rewrite <- Eq1 in X. clear Aq.
    rewrite B in X. cbn in X.
    exists toks, yielded, sorted. do 3 eexists. split; [reflexivity|]. split; [exact X|]. split; [exact (plugins_ledger root _ _ _ _ Ap Al)|]. split.
    - rewrite map_app in Y. apply (yields_plugins root declp ps Ap) in Y. eapply yields_documents; [exact Fd|exact Al| |exact Y]. exact Fe1.
    - apply sort_sorted. exact So.
  Qed.

  (** If the directives are in order of date already, to just these. *)
  Lemma text_in_order : ForallOrdPairs (fun x y => ~ must_precede y x) ds ->
    forall s, reads_to (includes_of L) glob_with canonicalize read fuel root content s ->
    exists toks directives opts plugins warnings, parser_new L s = Fine (Some toks) /\
      parse E canonicalize' s toks = Fine (Some (Success directives opts plugins warnings)) /\
      Forall2 alike_plugin ps plugins /\ Forall2 (fun d d' => alike d (item d')) ds directives.
  Proof.
    intros O s Reads. destruct (text_read_back s Reads) as (toks & again & directives & opts & plugins & warnings & Pn & Pr & Ap & Al & So).
    exists toks, directives, opts, plugins, warnings. split; [exact Pn|]. split; [exact Pr|]. split; [exact Ap|].
    assert (Oa : ForallOrdPairs (fun x y => ~ must_precede (item y) (item x)) again).
    { clear - O Al. induction Al as [|d x ds again A Al IH]; [constructor|]. inversion O as [|? ? Fd O']; subst. constructor; [|auto].
      clear - Fd A Al. induction Al as [|d2 x2 ds again A2 Al IH]; [constructor|]. inversion Fd as [|? ? N Fd']; subst. constructor; [|auto].
      intro X. apply N. eapply alike_precede; eassumption. }
    rewrite (sorted_from_unique _ _ _ So (sorted_already _ Oa)). exact Al.
  Qed.
End Texts.

(** ** Ledgers *)
Section Ledgers.
  Context (L : lexer_env) (E : grammar_env) (En : environment_ok E) (UO : unicode_ok (le_unicode L)) (RD : reads_decimals (le_decimal L)).
  Context (ND : forall c, u_Nd (le_unicode L) c = true -> u_Lu (le_unicode L) c = false /\ u_Lo (le_unicode L) c = false).
  Context (D : display_env) (Dok : display_ok D).
  Context (glob_with : str -> result (list glob_item) str) (canonicalize : path -> option path) (read : path -> result str str).
  Context (Cano : forall p q c d, same_path p q -> canonicalize p = Some c -> canonicalize q = Some d -> same_path c d).
  Context (canonicalize' : path -> option path) (fuel : nat) (root : option path).
  Context (Root : forall p, root = Some p -> canonicalize p <> None).
  Context (ps : list plugin) (ds : list directive) (Fp : Forall showable_plugin ps) (Fd : Forall (common L E default_names) ds).

  Theorem C58_can_be_read : exists s, reads_to (includes_of L) glob_with canonicalize read fuel root (ledger D ps ds) s.
  Proof. exact (text_can_be_read L E D Dok glob_with canonicalize read fuel root ps ds Fd _ (ledger_lexed L UO ND D E default_names Dok RD ps ds Fp Fd)). Qed.

  (** The text of plugins and directives is parsed to the same plugins, in the
      same order, and the same directives, in order of date. *)
  Theorem C58_read_back : forall s, reads_to (includes_of L) glob_with canonicalize read fuel root (ledger D ps ds) s ->
    exists toks again directives opts plugins warnings, parser_new L s = Fine (Some toks) /\
      parse E canonicalize' s toks = Fine (Some (Success directives opts plugins warnings)) /\
      Forall2 alike_plugin ps plugins /\
      Forall2 (fun d d' => alike d (item d')) ds again /\ sorted_from again directives.
  Proof. exact (text_read_back L E En UO D Dok glob_with canonicalize read Cano canonicalize' fuel root Root ps ds Fd _ (ledger_lexed L UO ND D E default_names Dok RD ps ds Fp Fd)). Qed.

  (** If the directives are in order of date already, to just these. *)
  Theorem C58_in_order : ForallOrdPairs (fun x y => ~ must_precede y x) ds ->
    forall s, reads_to (includes_of L) glob_with canonicalize read fuel root (ledger D ps ds) s ->
    exists toks directives opts plugins warnings, parser_new L s = Fine (Some toks) /\
      parse E canonicalize' s toks = Fine (Some (Success directives opts plugins warnings)) /\
      Forall2 alike_plugin ps plugins /\ Forall2 (fun d d' => alike d (item d')) ds directives.
  Proof. exact (text_in_order L E En UO D Dok glob_with canonicalize read Cano canonicalize' fuel root Root ps ds Fd _ (ledger_lexed L UO ND D E default_names Dok RD ps ds Fp Fd)). Qed.
End Ledgers.

(** ** What has been parsed *)
Section RoundTrip.
  Context (L : lexer_env) (E : grammar_env) (En : environment_ok E) (UO : unicode_ok (le_unicode L)) (RD : reads_decimals (le_decimal L)) (DF : decimals_fit (le_decimal L)).
  Context (ND : forall c, u_Nd (le_unicode L) c = true -> u_Lu (le_unicode L) c = false /\ u_Lo (le_unicode L) c = false).
  Context (D : display_env) (Dok : display_ok D).
  Context (glob_with : str -> result (list glob_item) str) (canonicalize : path -> option path) (read : path -> result str str).
  Context (Cano : forall p q c d, same_path p q -> canonicalize p = Some c -> canonicalize q = Some d -> same_path c d).
  Context (canonicalize' : path -> option path) (fuel : nat) (root : option path) (content : str) (s : sources).
  Context (Reads : reads_to (includes_of L) glob_with canonicalize read fuel root content s).
  Context (Root : forall p, root = Some p -> canonicalize p <> None).
  Context (toks : list (list rtoken)) (directives : list (spanned directive)) (opts : options) (plugins : list plugin) (warnings : list report).
  Context (Pn : parser_new L s = Fine (Some toks)) (Fi : forall id f c, In (id, f, c) (content_iter s) -> fine_content L E id c).
  Context (Ps : parse E canonicalize' s toks = Fine (Some (Success directives opts plugins warnings))).

  (** Files have been read and parsed, without an error.  No option names an
      account type, and neither in the plugins nor in the directives is there
      anything which is not displayed as it is written.  The plugins and the
      directives, displayed one after the other, are parsed without an error
      to the same plugins and the same directives, in the same order. *)
  Context (No : forall id f c ts, In (id, f, c) (content_iter s) -> lex L c = Fine (Some ts) -> ~ sets_names (input_of id c ts)).
  Context (Sh : Forall (fun d => showable (item d)) directives) (Sp : Forall showable_plugin plugins).

  Theorem C58_round_trip : forall glob_with canonicalize read canonicalize' fuel root,
    (forall p q c d, same_path p q -> canonicalize p = Some c -> canonicalize q = Some d -> same_path c d) ->
    (forall p, root = Some p -> canonicalize p <> None) ->
    (exists s', reads_to (includes_of L) glob_with canonicalize read fuel root (ledger D plugins (map item directives)) s') /\
    forall s', reads_to (includes_of L) glob_with canonicalize read fuel root (ledger D plugins (map item directives)) s' ->
    exists toks' directives' opts' plugins' warnings', parser_new L s' = Fine (Some toks') /\
      parse E canonicalize' s' toks' = Fine (Some (Success directives' opts' plugins' warnings')) /\
      Forall2 alike_plugin plugins plugins' /\ Forall2 (fun d d' => alike (item d) (item d')) directives directives'.
  Proof.
    intros glob2 cano2 read2 cano3 fuel2 root2 Cano2 Root2.
    pose proof (C52_common L E En UO DF glob_with canonicalize read Cano canonicalize' fuel root content s Reads Root toks directives opts plugins warnings Pn Fi Ps No Sh) as Co.
    split; [exact (C58_can_be_read L E UO RD ND D Dok glob2 cano2 read2 fuel2 root2 plugins (map item directives) Sp Co)|].
    intros s' Reads2.
    destruct (C58_in_order L E En UO RD ND D Dok glob2 cano2 read2 Cano2 cano3 fuel2 root2 Root2 plugins (map item directives) Sp Co) with (s := s') as (toks' & directives' & opts' & plugins' & warnings' & A & B & C & C'); [|exact Reads2|].
    - destruct (C50_success_sound L E En UO _ _ _ Cano canonicalize' _ _ _ _ Reads Root _ _ _ _ _ Pn Fi Ps) as [rootds others r' po es rest yielded directives warnings Ti Wa _ _ Y So _].
      eapply sorted_ordered. exact So.
    - exists toks', directives', opts', plugins', warnings'. split; [exact A|]. split; [exact B|]. split; [exact C|].
      clear - C'. revert directives' C'. induction directives as [|d ds IH]; intros ds' C'; inversion C'; subst; constructor; auto.
  Qed.
End RoundTrip.

Print Assumptions C58_can_be_read.
Print Assumptions C58_read_back.
Print Assumptions C58_in_order.
Print Assumptions C58_round_trip.

(** ** Cases *)
Definition ex_ledger_text (r : outcome (option parsed_as)) : str :=
  match r with Fine (Some (Success ds _ ps _)) => ledger ex_display ps (map item ds) | _ => [] end.
Definition ex_plugged : str :=
  ex_line "plugin   ""beancount.plugins.auto""   ; every account" ++ ex_ledger ++ ex_line "plugin ""forecast"" ""{'n': 3}""".
Example ex_plugged_shown : ex_ledger_text (ex_parse ex_plugged) =
  ex_line "plugin ""beancount.plugins.auto""" ++ ex_line "plugin ""forecast"" ""{'n': 3}""" ++ ex_ledger_shown.
Proof. vm_compute. reflexivity. Qed.

(** The hypotheses are met. *)
Definition check_plugin (p : plugin) : bool := check_clean (item (pl_module p)) && check_option (fun c => check_clean (item c)) (pl_config p).
Lemma check_plugin_ok p : check_plugin p = true -> showable_plugin p.
Proof.
  unfold check_plugin. rewrite andb_true_iff. intros [A B]. split; [apply check_clean_ok; exact A|].
  eapply check_option_ok; [|exact B]. intros x. apply check_clean_ok.
Qed.
Definition ex_ledger_showable : bool :=
  match ex_parse ex_plugged with
  | Fine (Some (Success ds _ ps _)) => forallb check_showable (map item ds) && forallb check_plugin ps && (List.length ds =? 4) && (List.length ps =? 2)
  | _ => false
  end.
Example ex_round_trip : exists s toks directives opts plugins warnings,
  reads_to (includes_of P_Lexer.ex_env) ex_glob ex_canonicalize ex_read 5 None ex_plugged s /\ parser_new P_Lexer.ex_env s = Fine (Some toks) /\
  (forall id f c, In (id, f, c) (content_iter s) -> fine_content P_Lexer.ex_env P_Grammar.ex_env id c) /\
  parse P_Grammar.ex_env ex_canonicalize s toks = Fine (Some (Success directives opts plugins warnings)) /\
  (forall id f c ts, In (id, f, c) (content_iter s) -> lex P_Lexer.ex_env c = Fine (Some ts) -> ~ sets_names (input_of id c ts)) /\
  Forall (fun d => showable (item d)) directives /\ Forall showable_plugin plugins /\ List.length directives = 4 /\ List.length plugins = 2.
Proof.
  assert (X : ex_ledger_showable = true) by (vm_compute; reflexivity). unfold ex_ledger_showable, ex_parse in X.
  destruct (read_with_includes _ _ _ _ _ _ ex_plugged) as [s|] eqn:Rd; [|discriminate].
  destruct (parser_new P_Lexer.ex_env s) as [[toks|]|] eqn:Pn; [|discriminate|discriminate].
  destruct (parse P_Grammar.ex_env ex_canonicalize s toks) as [[[ds opts plugins ws|]|]|] eqn:Ps; [|discriminate|discriminate|discriminate].
  rewrite !andb_true_iff in X. destruct X as [[[X X'] Y] Y']. apply Nat.eqb_eq in Y. apply Nat.eqb_eq in Y'.
  exists s, toks, ds, opts, plugins, ws. split; [exists s; repeat split; [exact Rd|reflexivity]|]. split; [exact Pn|].
  assert (Ci : forall id f c, In (id, f, c) (content_iter s) -> check_content P_Lexer.ex_env P_Grammar.ex_env id c = true /\
    match lex P_Lexer.ex_env c with Fine (Some ts) => check_names (input_of id c ts) = true | _ => True end).
  { clear - Rd. vm_compute in Rd. injection Rd as <-. intros id f c [H|[]]. injection H as <- <- <-. vm_compute. auto. }
  split; [intros id f c H; apply check_content_ok; apply (Ci id f c H)|]. split; [exact Ps|]. split; [|split; [|split; [|split; assumption]]].
  - intros id f c ts H Lx. apply check_names_ok. destruct (Ci id f c H) as [_ Z]. rewrite Lx in Z. exact Z.
  - rewrite forallb_forall in X. apply Forall_forall. intros d Hd. apply check_showable_ok, X. apply in_map. exact Hd.
  - rewrite forallb_forall in X'. apply Forall_forall. intros p Hp. apply check_plugin_ok, X', Hp.
Qed.

(** A quote in the configuration of a plugin is shown as it is, so that a
    plugin which has been parsed is shown as text which is not parsed. *)
Definition plugin_not_read_again (content : str) : Prop := exists L E D p opts ws es ws',
  libraries_ok L E D /\ parses L E content (Success [] opts [p] ws) /\ parses L E (display_plugin p) (Failure es ws').
Lemma ex_plugin_not_read_again content :
  match ex_parse content with
  | Fine (Some (Success [] _ [p] _)) => match ex_parse (display_plugin p) with Fine (Some (Failure _ _)) => True | _ => False end
  | _ => False
  end -> plugin_not_read_again content.
Proof.
  intro H. destruct (ex_parse content) as [[[[|? ?] opts [|p [|? ?]] ws|]|]|] eqn:X; try contradiction.
  destruct (ex_parse (display_plugin p)) as [[[|es ws']|]|] eqn:Y; try contradiction.
  exists P_Lexer.ex_env, P_Grammar.ex_env, ex_display, p, opts, ws, es, ws'. split; [exact ex_libraries_ok|].
  split; apply ex_parses; assumption.
Qed.
Theorem C58_plugin_quote_refuted : plugin_not_read_again (ex_line "plugin ""forecast"" ""{\""n\"": 3}""").
Proof. apply ex_plugin_not_read_again. vm_compute. exact Logic.I. Qed.
Print Assumptions C58_plugin_quote_refuted.
