(** * C46, C51: what is displayed can be parsed again *)
From Coq Require Import String Ascii.
From Coq Require Import List NArith ZArith Arith Bool Lia Permutation.
From Verif Require Import Base BaseFacts Text Path SpecPath PathFacts Sources Types SpecTypes TypesFacts P_Types SortM SpecSort P_Sort Options SpecOptions P_Options
  Pragma SpecPragma PragmaRun P_Pragma Read SpecRead ReadFacts P_Read Decimal SpecDecimal
  Token LexPost SpecLex LexFacts P_Lex Lexer SpecLexer LexerFacts P_Lexer Peg Grammar SpecExpr Display SpecDisplay
  PegFacts ExprFacts P_Arith DisplayLex DisplayText DisplayDirective DisplayLexed SpecGrammar SpecDirective GrammarSafe DisplayRead DisplayLaid P_Grammar
  Parse SpecParse SpecWhole ParseFacts ParseOnce ParseFile P_File P_Includes P_Parse.
Import ListNotations.
Local Open Scope nat_scope.

(** ** One directive after the other *)
Section Tiles.
  Context (L : lexer_env) (E : grammar_env) (names : account_type -> str) (Go : forall l, Permutation l (g_order E l)).
  Context (D : display_env) (Dok : display_ok D) (I : input) (f : option path).

  Lemma header_first d ds i n : here I (flat_map (o_directive D) (d :: ds)) i n -> ~ tok I i T_Indent.
  Proof.
    cbn [flat_map]. unfold o_directive at 1, t_header. rewrite <- app_assoc. cbn [app]. intros H [r X]. apply here_cons in H. destruct H as [[r' T] _].
    rewrite X in T. discriminate.
  Qed.
  Lemma tiles_document r : rl_names r = names -> forall ds i, Forall (common L E names) ds ->
    here I (flat_map (o_directive D) ds) i (List.length (in_tokens I)) ->
    exists decls ws, tiles E I f r i decls [] ws r /\
      Forall2 (fun d x => exists d', item x = D_Directive d' /\ alike d d') ds decls.
  Proof.
    intros Nr. induction ds as [|d ds IH]; intros i F H.
    - apply here_nil in H. exists [], []. split; [|constructor]. constructor. apply nth_error_None. lia.
    - inversion F as [|? ? Cd F']; subst. cbn [flat_map] in H. apply here_app in H. destruct H as (j & Hd & Hds).
      assert (N : ~ tok I j T_Indent).
      { destruct ds as [|d2 ds]; [|eapply header_first; exact Hds]. apply here_nil in Hds. intros [q X].
        assert (j < List.length (in_tokens I)) by (apply nth_error_Some; congruence). lia. }
      destruct (IH j F' Hds) as (decls & ws & T & A).
      destruct (r_whole L E _ I D Dok Go d i j Cd Hd N) as (d' & W & Al).
      do 2 eexists. split.
      + change (@nil report) with (@nil report ++ []). eapply tiles_next; [apply declares_directive; exact W|exact T].
      + constructor; [|exact A]. exists d'. split; [reflexivity|exact Al].
  Qed.
End Tiles.

(** ** Where nothing is pushed, nothing is added *)
Lemma same_elements_perm {A} (R : A -> A -> Prop) l m m' : same_elements R l m -> Permutation m m' -> same_elements R l m'.
Proof.
  intros (k & P & F) Q. revert l k P F. induction Q as [|x m m' Q IH|x y m|m m' m'' Q1 IH1 Q2 IH2]; intros l k P F.
  - exists k. split; assumption.
  - inversion F as [|a ? k' ? Ra F']; subst. destruct (IH k' k' (Permutation_refl _) F') as (k2 & P2 & F2).
    exists (a :: k2). split; [rewrite P; constructor; exact P2|constructor; assumption].
  - inversion F as [|a ? k' ? Ra F']; subst. inversion F' as [|b ? k2 ? Rb F2]; subst.
    exists (b :: a :: k2). split; [rewrite P; apply perm_swap|repeat constructor; assumption].
  - destruct (IH1 l k P F) as (k1 & P1 & F1). exact (IH2 l k1 P1 F1).
Qed.
Lemma same_elements_items {A B C} (f : A -> C) (g : B -> C) (R : A -> B -> Prop) l m : (forall x y, R x y -> f x = g y) ->
  (exists k, Permutation l k /\ Forall2 R k m) -> Permutation (map f l) (map g m).
Proof.
  intros H (k & P & F). rewrite (Permutation_map f P). clear P. replace (map g m) with (map f k); [reflexivity|].
  induction F as [|x y k m Rx F IH]; [reflexivity|]. cbn. rewrite IH, (H _ _ Rx). reflexivity.
Qed.
Lemma nodup_of_map {A B} (f : A -> B) l : NoDup (map f l) -> NoDup l.
Proof.
  induction l as [|x l IH]; cbn; intro H; [constructor|]. inversion H as [|? ? N H']; subst. constructor; [|auto].
  intro X. apply N. apply in_map. exact X.
Qed.

Lemma alike_augmented L E names d d' d'' seen : common L E names d -> alike d d' ->
  (forall t, tag_stack t seen = []) -> (forall k, meta_stack k seen = []) -> augmented seen d' d'' -> alike d d''.
Proof.
  intros Co Al Nt Nm Au. destruct Al as [Ad [Ak [At Alk]] Av]. destruct Co as [_ Cm _].
  split.
  - unfold same_item. rewrite (aug_date _ _ _ Au). exact Ad.
  - split; [|split].
    + eapply same_elements_perm; [exact Ak|]. apply NoDup_Permutation.
      * apply nodup_of_map with (f := fun e => item (fst e)). eapply Permutation_NoDup; [|apply (cm_keys_once _ _ _ _ Cm)].
        eapply same_elements_items; [|exact Ak]. intros x y [H _]. exact H.
      * apply nodup_of_map with (f := fun e => item (fst e)). apply (aug_keys_once _ _ _ Au). eapply Permutation_NoDup; [|apply (cm_keys_once _ _ _ _ Cm)].
        eapply same_elements_items; [|exact Ak]. intros x y [H _]. exact H.
      * intros [k v]. rewrite (aug_keys _ _ _ Au). rewrite Nm. cbn. intuition discriminate.
    + eapply same_elements_perm; [exact At|]. apply NoDup_Permutation.
      * apply nodup_of_map with (f := item). eapply Permutation_NoDup; [|apply (cm_tags_once _ _ _ _ Cm)].
        eapply same_elements_items; [|exact At]. intros x y H. exact H.
      * apply nodup_of_map with (f := item). apply (aug_tags_once _ _ _ Au). eapply Permutation_NoDup; [|apply (cm_tags_once _ _ _ _ Cm)].
        eapply same_elements_items; [|exact At]. intros x y H. exact H.
      * intros t. rewrite (aug_tags _ _ _ Au). rewrite Nt. cbn. intuition discriminate.
    + rewrite (aug_links _ _ _ Au). exact Alk.
  - rewrite (aug_variant _ _ _ Au). exact Av.
Qed.

Definition directive_event (e : event) : Prop := exists f x d, e = Declared f x /\ item x = D_Directive d.
Lemma nothing_pushed es : Forall directive_event es -> (forall t, tag_stack t es = []) /\ (forall k, meta_stack k es = []).
Proof.
  intro F. unfold tag_stack, meta_stack. split; intro t; induction F as [|e es (f & x & d & -> & It) F IH]; cbn; try rewrite It; auto.
Qed.

Lemma walk_directives globs t f decls es t' : walk globs t f decls es t' -> Forall (fun x => exists d, item x = D_Directive d) decls -> es = map (Declared f) decls.
Proof.
  induction decls as [|x decls IH] in es |- *; intros W F.
  - inversion W; subst. reflexivity.
  - inversion F as [|? ? [d It] F']; subst. inversion W as [|? ? ? ? es' ? Pl W'|]; subst; [|congruence]. cbn. f_equal. apply IH; assumption.
Qed.
Lemma dues_directives canonicalize globs errs es : Forall directive_event es -> forall seen, dues canonicalize globs errs seen es [].
Proof.
  induction 1 as [|e es (f & x & d & -> & It) F IH]; intro seen; [constructor|].
  change (@nil report) with (@nil report ++ []). constructor; [|apply IH]. cbn. rewrite It. reflexivity.
Qed.
Lemma leftover_directives es : Forall directive_event es -> leftover es [].
Proof.
  intro F. destruct (nothing_pushed es F) as [Nt Nm]. exists [], []. split; [constructor|]. split; [intro k; rewrite Nm; cbn; tauto|].
  split; [constructor|]. split; [intro t; rewrite Nt; cbn; tauto|reflexivity].
Qed.
Lemma options_directives es : Forall directive_event es -> options_of es = [] /\ plugins_of es = [].
Proof.
  unfold options_of, plugins_of. induction 1 as [|e es (f & x & d & -> & It) F [IH1 IH2]]; [auto|]. cbn. rewrite It. auto.
Qed.
Lemma yields_directives L E names f : forall decls ds seen out, Forall (common L E names) ds ->
  Forall2 (fun d x => exists d', item x = D_Directive d' /\ alike d d') ds decls -> Forall directive_event seen ->
  yields seen (map (Declared f) decls) out -> Forall2 (fun d y => alike d (item y)) ds out.
Proof.
  induction decls as [|x decls IH]; intros ds seen out Co F Fs Y; inversion F as [|d ? ds' ? (d' & It & Al) F']; subst.
  - inversion Y; subst. constructor.
  - inversion Co as [|? ? Cd Co']; subst.
    assert (Fs' : Forall directive_event (seen ++ [Declared f x])).
    { apply Forall_app. split; [exact Fs|]. constructor; [|constructor]. exists f, x, d'. auto. }
    cbn in Y. inversion Y as [|? ? ? dd dd' out' As Au Sp Y'|? ? ? ? As Y']; subst; cbn in As; rewrite It in As; [|discriminate].
    injection As as <-. cbn [item] in Au. destruct (nothing_pushed seen Fs) as [Nt Nm]. constructor.
    + eapply alike_augmented; eassumption.
    + eapply IH; eassumption.
Qed.

(** ** Order *)
Lemma alike_precede a b c d : alike a c -> alike b d -> must_precede c d -> must_precede a b.
Proof.
  intros [Da _ Va] [Db _ Vb] H. unfold must_precede, same_item in *. rewrite Da, Db.
  assert (O : forall x y, alike_variant (dir_variant x) (dir_variant y) -> (is_open x <-> is_open y) /\ (is_balance x <-> is_balance y)).
  { intros x y V. unfold is_open, is_balance. destruct V; cbn; split; split; try tauto; intros; try discriminate; auto;
      repeat match goal with H : exists _, _ |- _ => destruct H end; try discriminate; eauto. }
  destruct (O _ _ Va), (O _ _ Vb). tauto.
Qed.
Lemma sorted_already l : ForallOrdPairs (fun x y => ~ must_precede (item y) (item x)) l -> sorted_from l l.
Proof.
  intro F. exists (List.seq 0 (List.length l)). split; [reflexivity|]. split.
  - clear F. induction l as [|x l IH]; [reflexivity|]. cbn [List.length List.seq map]. rewrite <- seq_shift, map_map. cbn. f_equal. exact IH.
  - intros i j x y (Lt & X & Y). split.
    + clear - F Lt X Y. revert i j Lt X Y. induction F as [|z l Fz F IH]; intros i j Lt X Y; [destruct i; discriminate|].
      destruct j as [|j]; [lia|]. cbn in Y. destruct i as [|i].
      * cbn in X. injection X as ->. rewrite Forall_forall in Fz. apply Fz. eapply nth_error_In. exact Y.
      * eapply IH; [|exact X|exact Y]. lia.
    + intros _ p q P Q. assert (Le : forall k v, nth_error (List.seq 0 (List.length l)) k = Some v -> v = k).
      { intros k v H. assert (k < List.length l) by (rewrite <- (seq_length (List.length l) 0); apply nth_error_Some; congruence).
        apply nth_error_nth with (d := 0) in H. rewrite seq_nth in H by assumption. lia. }
      apply Le in P. apply Le in Q. subst. exact Lt.
Qed.

(** ** The text of a line *)
Lemma line_lexed L (UO : unicode_ok (le_unicode L))
    (ND : forall c, u_Nd (le_unicode L) c = true -> u_Lu (le_unicode L) c = false /\ u_Lo (le_unicode L) c = false) s ts :
  spells L after_word s ts -> ts <> [] -> Forall DisplayLexed.plain ts ->
  exists out, lex L s = Fine (Some out) /\ map fst out = ts ++ [T_Eol].
Proof.
  intros Sp Ne Pl. destruct (Sp [] 0 []) as (its & W & M); [left; reflexivity|constructor|]. rewrite !app_nil_r in W.
  unfold lex. rewrite (C30_complete L UO _ _ ND W).
  pose proof (attempt_recovery_spec s (recovery_lex L) its) as R.
  assert (Ok : forall e r, In (Err e, r) its -> False).
  { intros e r X. apply (in_map fst) in X. rewrite M in X. apply in_map_iff in X. destruct X as (t & X & _). discriminate. }
  destruct (attempt_recovery s (recovery_lex L) its) as [[toks|]|]; [|destruct R|exfalso; apply R; intros e a b X; destruct (Ok _ _ X)].
  destruct R as [Rt _].
  assert (Q : map fst toks = ts).
  { rewrite Rt. clear - M. revert ts M. induction its as [|[x r] its IH]; intros [|t ts] Q; try discriminate; [reflexivity|]. cbn in Q. injection Q as -> Q. cbn. rewrite (IH ts Q). reflexivity. }
  clear Rt. destruct (C28_keyword_then_colon toks) as (keys & Hk & _). rewrite Hk.
  assert (Qk : keys = keyed_list toks).
  { unfold keyword_then_colon_to_key in Hk. rewrite (keyword_collect (toks, None)) in Hk; [|exact Logic.I|cbn; lia]. injection Hk as <-. reflexivity. }
  assert (Mk : map fst keys = ts) by (rewrite Qk, tkeyed_list, Q; apply tkeyed_plain; exact Pl). clear Qk Hk.
  assert (Ce : Forall (fun x => is_eol (fst x) = false) keys).
  { apply ranged_not_eol. rewrite Mk. eapply Forall_impl; [|exact Pl]. intros a [_ H]. exact H. }
  assert (Nk : keys <> []) by (intros ->; apply Ne; symmetry; exact Mk).
  assert (Lo : SpecLex.lines_of ((T_Eol, (0, 0)) :: keys) [([(T_Eol, (0, 0))], keys)]).
  { replace ((T_Eol, (0, 0)) :: keys) with (SpecLex.joined [([(T_Eol, (0, 0))], keys)]) by (cbn; rewrite app_nil_r; reflexivity).
    constructor; [reflexivity| |].
    - intros r t [X|[]]. injection X as <- <-. split; [discriminate|]. split; [constructor; [reflexivity|constructor]|exact Ce].
    - intros a r t b X N. destruct a as [|? [|? ?]]; [injection X as <- <- <-; congruence|discriminate|discriminate]. }
  exists (layout [([(T_Eol, (0, 0))], keys)] (Some (blen s, blen s))).
  rewrite (handle_eol_indent_layout _ _ _ Lo). split; [reflexivity|].
  assert (St : strip [([(T_Eol, (0, 0))], keys)] = Some (keys, [])).
  { cbn [strip]. destruct keys as [|[u q] k]; [congruence|]. rewrite <- Mk in Pl. cbn in Pl. inversion Pl as [|? ? [N _] _]; subst. destruct u; try reflexivity. exfalso. apply N. reflexivity. }
  unfold layout. rewrite St. cbn. rewrite map_app, Mk. reflexivity.
Qed.

(** ** C46: expressions *)
Section Expressions.
  Context (L : lexer_env) (UO : unicode_ok (le_unicode L)) (RD : reads_decimals (le_decimal L)).
  (** No character is both a digit and a capital or other letter. *)
  Context (ND : forall c, u_Nd (le_unicode L) c = true -> u_Lu (le_unicode L) c = false /\ u_Lo (le_unicode L) c = false).
  Context (D : display_env) (Dok : display_ok D).

  (** The text of an expression, by itself, is read as the expression, to its
      end. *)
  Theorem C46_read_back : forall e id, left_assoc e -> common_numbers e ->
    exists toks n, lex L (display_expr D e) = Fine (Some toks) /\
      p_expr (input_of id (display_expr D e) toks) 0 = Got e n [] [] /\
      map fst (skipn n toks) = [T_Eol].
  Proof.
    intros e id La Cn.
    destruct (line_lexed L UO ND (display_expr D e) (written_with e)) as (out & Lx & M).
    - apply spells_expr; assumption.
    - destruct e; cbn; try discriminate; intro X; apply app_eq_nil in X; destruct X; discriminate.
    - apply plain_expr.
    - exists out, (List.length (written_with e)). split; [exact Lx|]. split.
      + apply (C19_tree_read_back _ 0 e La).
        * exists [], out. split; [reflexivity|]. split; [reflexivity|]. rewrite M, firstn_app, firstn_all, Nat.sub_diag. cbn. rewrite app_nil_r. reflexivity.
        * intros t [r T]. cbn [input_of in_tokens plus] in T. apply (f_equal (option_map fst)) in T. rewrite <- nth_error_map in T. cbn in T.
          rewrite M, nth_error_app2, Nat.sub_diag in T by lia. cbn in T. injection T as <-. intros [X|[X|[X|[X|[]]]]]; discriminate.
      + rewrite <- skipn_map, M, skipn_app, skipn_all, Nat.sub_diag. reflexivity.
  Qed.

  (** The amount of a balance with a tolerance: the text consists of the
      number, the currency, a tilde and the tolerance. *)
  Theorem C51_tolerance_shown : forall E a t, common_amount E (item (at_amount a)) -> at_tolerance a = Some t -> common_number (item t) ->
    exists toks, lex L (display_amount_tol D a) = Fine (Some toks) /\
      map fst toks = written_with (ev_expr (item (am_number (item (at_amount a))))) ++
        [T_Currency (item (am_currency (item (at_amount a)))); T_Tilde; T_Number (item t); T_Eol].
  Proof.
    intros E a t Ca Ta Ct. unfold display_amount_tol. rewrite Ta.
    destruct (spells_amount L UO D E Dok RD _ Ca) as [Sa Fa]. destruct (spells_number L UO D Dok RD _ Ct) as (Sn & Wn & _).
    destruct (line_lexed L UO ND (display_amount D (item (at_amount a)) ++ lit " ~ " ++ de_decimal D (item t)) (t_amount (item (at_amount a)) ++ [T_Tilde; T_Number (item t)])) as (out & Lx & M).
    - apply (spells_operator L UO 126%N T_Tilde); auto; [left; cbn; auto 10|apply lx_symbol; cbn; auto 30|apply not_is_blank; lia|apply word_fresh; exact Wn].
    - intro X. apply app_eq_nil in X. destruct X. discriminate.
    - apply plain_app; [apply plain_amount|repeat (constructor; [plain1|]); constructor].
    - exists out. split; [exact Lx|]. rewrite M. unfold t_amount, t_value. rewrite <- !app_assoc. reflexivity.
  Qed.
  (** A total price is shown with a hash. *)
  Theorem C51_total_price_shown : forall E v c, common_value E v -> common_currency c ->
    exists toks, lex L (display_price D (PS_CurrencyAmount (SE_Total v) c)) = Fine (Some toks) /\
      map fst toks = T_Hash :: written_with (ev_expr v) ++ [T_Currency c; T_Eol].
  Proof.
    intros E v c Cv Cc. cbn [display_price display_scoped].
    destruct (spells_value L UO D E Dok RD _ Cv) as [Sv Fv]. destruct (spells_currency L UO _ Cc) as [Sc Wc].
    destruct (line_lexed L UO ND ((lit "# " ++ display_value D v) ++ lit " " ++ display_currency c) ((T_Hash :: t_value v) ++ [T_Currency c])) as (out & Lx & M).
    - apply spells_then; [|apply tail_word_space; [exact UO|exact Sc|apply word_fresh; exact Wc]].
      apply (spells_app L after_word after_word [35%N] (32%N :: display_value D v) [T_Hash]); [apply spells_symbol; [exact UO|eexists _, _; (split; [reflexivity|]; split; [apply not_opening; lia|lia])|cbn; auto 30]| |intros rest _; right; left; eexists; reflexivity].
      apply spells_after_space; [exact UO|exact Sv|exact Fv].
    - discriminate.
    - apply plain_app; [constructor; [plain1|apply plain_value]|constructor; [plain1|constructor]].
    - exists out. split; [exact Lx|]. rewrite M. cbn. unfold t_value. rewrite <- app_assoc. reflexivity.
  Qed.
End Expressions.

(** ** C51: directives *)
Section Documents.
  Context (L : lexer_env) (E : grammar_env) (En : environment_ok E) (UO : unicode_ok (le_unicode L)) (RD : reads_decimals (le_decimal L)).
  Context (ND : forall c, u_Nd (le_unicode L) c = true -> u_Lu (le_unicode L) c = false /\ u_Lo (le_unicode L) c = false).
  Context (D : display_env) (Dok : display_ok D).
  Context (glob_with : str -> result (list glob_item) str) (canonicalize : path -> option path) (read : path -> result str str).
  Context (Cano : forall p q c d, same_path p q -> canonicalize p = Some c -> canonicalize q = Some d -> same_path c d).
  Context (canonicalize' : path -> option path) (fuel : nat) (root : option path).
  Context (Root : forall p, root = Some p -> canonicalize p <> None).

  Lemma document_includes ds : Forall (common L E default_names) ds -> includes_of L (document D ds) = [].
  Proof.
    intro F. destruct (document_lexed D L UO E default_names Dok RD ND ds F) as (out & Lx & M).
    unfold includes_of. rewrite C38_includes, Lx. destruct (included_strings (input_of 0 (document D ds) out)) as [|x l] eqn:X; [reflexivity|]. exfalso.
    destruct (C38_exact (input_of 0 (document D ds) out) x) as (i & T & _); [rewrite X; left; reflexivity|].
    eapply (laid_no_keyword E (input_of 0 (document D ds) out) K_Include); [|cbn; auto|exact T].
    cbn [input_of in_tokens]. rewrite M. eapply laid_document_; eassumption.
  Qed.

  (** It can be read. *)
  Lemma document_can_be_read ds : Forall (common L E default_names) ds -> exists s, reads_to (includes_of L) glob_with canonicalize read fuel root (document D ds) s.
  Proof.
    intro F. assert (X : exists s, read_with_includes (includes_of L) glob_with canonicalize read fuel root (document D ds) = Some s).
    { unfold read_with_includes, read_start, resolved_includes. rewrite (document_includes ds F). destruct fuel; cbn; eauto. }
    destruct X as [s X]. exists s, s. repeat split; [exact X|reflexivity].
  Qed.
  Lemma document_content ds s : Forall (common L E default_names) ds -> reads_to (includes_of L) glob_with canonicalize read fuel root (document D ds) s ->
    content_iter s = [(0, root, document D ds)].
  Proof.
    intros F (s0 & Rd & Rp & Rc & _ & _ & _ & Pm). unfold read_with_includes, read_start, resolved_includes in Rd. rewrite (document_includes ds F) in Rd.
    assert (X : forall st, rd_pending st = [] -> read_loop (includes_of L) glob_with canonicalize read fuel st = Some st) by (intros st Hp; destruct fuel; cbn; rewrite Hp; reflexivity).
    rewrite X in Rd by reflexivity. injection Rd as <-. cbn in *. apply Permutation_nil in Pm. unfold content_iter. rewrite Rp, Rc, Pm. reflexivity.
  Qed.

  (** The text of directives, one below the other, is parsed to the same
      directives, in order of date. *)
  Theorem C51_read_back : forall ds s, Forall (common L E default_names) ds ->
    reads_to (includes_of L) glob_with canonicalize read fuel root (document D ds) s ->
    exists toks again directives opts warnings, parser_new L s = Fine (Some toks) /\
      parse E canonicalize' s toks = Fine (Some (Success directives opts [] warnings)) /\
      Forall2 (fun d d' => alike d (item d')) ds again /\ sorted_from again directives.
  Proof.
    intros ds s F Reads. pose proof (document_content ds s F Reads) as Ci.
    destruct (document_lexed D L UO E default_names Dok RD ND ds F) as (out & Lx & M).
    set (I := input_of 0 (document D ds) out) in *.
    assert (Lo : laid_out E (map fst (in_tokens I))) by (cbn [I input_of in_tokens]; rewrite M; eapply laid_document_; eassumption).
    assert (Fi : forall id f c, In (id, f, c) (content_iter s) -> fine_content L E id c).
    { rewrite Ci. intros id f c [X|[]]. injection X as <- <- <-. exists out. split; [exact Lx|]. split; [apply laid_computable; exact Lo|].
      intros i name value c T. exfalso. eapply (laid_no_keyword E I K_Option); [exact Lo|cbn; auto|exact T]. }
    destruct (parser_new L s) as [[toks|]|] eqn:Pn.
    2: pose proof (C30_parser L UO _ _ _ fuel root _ s Reads) as X; rewrite Pn in X; destruct X.
    2: pose proof (C30_parser L UO _ _ _ fuel root _ s Reads) as X; rewrite Pn in X;
       destruct X as (id & f & c & Hin & Px); rewrite Ci in Hin; destruct Hin as [Y|[]]; injection Y as <- <- <-; congruence.
    destruct (C03_parse L E En UO _ _ _ Cano canonicalize' fuel root _ s Reads Root toks Pn Fi)
      as (xs & r2 & po & yielded & opts & plugins & reports & sorted & Fs & Ob2 & Pp & So & X).
    destruct (tiles_document L E default_names (env_order E En) D Dok I root initial_rules eq_refl ds 0 F) as (decls & ws & Ti & Al).
    { apply here_all. exact M. }
    assert (Ob : exists po, obeys E po initial_rules).
    { exists default_parser_options. split; cbn; [exact named_default| |reflexivity]. intro t. apply default_names_valid. apply En. }
    assert (Tf : files_tiled L E initial_rules (content_iter s) [(root, decls)] ([] ++ []) (ws ++ []) initial_rules).
    { rewrite Ci. eapply tiled_cons; [exact Lx|exact Ti|constructor]. }
    destruct (files_tiled_read L E En _ _ _ _ _ _ Tf Ob Fi _ _ Fs) as (A & B & C & ->).
    destruct (shape_of L E _ _ _ Cano canonicalize' fuel root _ s Reads Root xs _ Fs) as (rootds & b & Sh & Nd). rewrite A in *. cbn [app] in Sh. injection Sh as <- <-.
    pose proof (pass_spec canonicalize' (included_globs s) (error_paths s) po root [] decls [] Nd) as Z.
    cbn zeta in Z. cbn [app] in Z, Pp. rewrite Pp in Z. destruct Z as (es & rest & rs & left & W & Y & Du & Le & -> & -> & ->).
    assert (Fd : Forall (fun x => exists d, item x = D_Directive d) decls).
    { clear - Al. induction Al as [|d x ds decls (d' & It & _) F IH]; constructor; eauto. }
    pose proof (walk_directives _ _ _ _ _ _ W Fd) as ->.
    assert (Fe : Forall directive_event (map (Declared root) decls)).
    { apply Forall_forall. intros e He. apply in_map_iff in He. destruct He as (x & <- & Hx). rewrite Forall_forall in Fd. destruct (Fd x Hx) as (d & It). exists root, x, d. auto. }
    rewrite (leftover_nil _ _ (leftover_directives _ Fe) Le) in X. pose proof (dues_unique _ _ _ _ _ _ _ (dues_directives _ _ _ _ Fe []) Du) as Aq. inversion Aq as [Eq0 Eq1|]. rewrite <- Eq1 in X. clear Aq.
    destruct (options_directives _ Fe) as [_ Np]. rewrite Np in X. rewrite B in X. cbn in X.
    exists toks, yielded, sorted. do 2 eexists. split; [reflexivity|]. split; [exact X|]. split.
    - eapply yields_directives; [exact F|exact Al|constructor|exact Y].
    - apply sort_sorted. exact So.
  Qed.

  (** If they are in order of date already, to just these. *)
  Theorem C51_in_order : forall ds s, Forall (common L E default_names) ds -> ForallOrdPairs (fun x y => ~ must_precede y x) ds ->
    reads_to (includes_of L) glob_with canonicalize read fuel root (document D ds) s ->
    exists toks directives opts warnings, parser_new L s = Fine (Some toks) /\
      parse E canonicalize' s toks = Fine (Some (Success directives opts [] warnings)) /\
      Forall2 (fun d d' => alike d (item d')) ds directives.
  Proof.
    intros ds s F O Reads. destruct (C51_read_back ds s F Reads) as (toks & again & directives & opts & warnings & Pn & Ps & Al & So).
    exists toks, directives, opts, warnings. split; [exact Pn|]. split; [exact Ps|].
    assert (Oa : ForallOrdPairs (fun x y => ~ must_precede (item y) (item x)) again).
    { clear - O Al. induction Al as [|d x ds again A Al IH]; [constructor|]. inversion O as [|? ? Fd O']; subst. constructor; [|auto].
      clear - Fd A Al. induction Al as [|d2 x2 ds again A2 Al IH]; [constructor|]. inversion Fd as [|? ? N Fd']; subst. constructor; [|auto].
      intro X. apply N. eapply alike_precede; eassumption. }
    rewrite (sorted_from_unique _ _ _ So (sorted_already _ Oa)). exact Al.
  Qed.
End Documents.

Print Assumptions C46_read_back.
Print Assumptions C51_read_back.
Print Assumptions C51_in_order.

(** ** A way to show numbers and dates *)

(** The last [k] digits of a number. *)
Fixpoint fixed (k : nat) (n : N) : str :=
  match k with O => [] | S k' => fixed k' (n / 10)%N ++ [(48 + n mod 10)%N] end.
(** Without zeros in front, but with at least [k] digits. *)
Fixpoint shorten (k : nat) (s : str) : str :=
  match s with
  | c :: r => if ((c =? 48)%N && (k <? List.length s))%bool then shorten k r else s
  | [] => []
  end.
Definition ex_show_decimal (d : decimal) : str :=
  let s := shorten (S (dec_scale d)) (fixed 29 (dec_mant d)) in
  let i := firstn (List.length s - dec_scale d) s in
  let f := skipn (List.length s - dec_scale d) s in
  (if dec_neg d then lit "-" else []) ++ i ++ match f with [] => [] | _ => 46%N :: f end.
Definition ex_show_date (d : date) : str := fixed 4 (d_year d) ++ 45%N :: fixed 2 (d_month d) ++ 45%N :: fixed 2 (d_day d).
Definition ex_display : display_env := mk_display_env ex_show_decimal ex_show_date (@rev _) (@rev _).

Lemma fixed_length k : forall n, List.length (fixed k n) = k.
Proof. induction k as [|k IH]; intro n; [reflexivity|]. cbn [fixed]. rewrite app_length, IH. cbn. lia. Qed.
Lemma fixed_digits k : forall n, Forall digit (fixed k n).
Proof.
  induction k as [|k IH]; intro n; [constructor|]. cbn [fixed]. apply Forall_app. split; [apply IH|]. constructor; [|constructor].
  unfold digit. pose proof (N.mod_lt n 10 ltac:(lia)). lia.
Qed.
Lemma fixed_value k : forall n, (n < 10 ^ N.of_nat k)%N -> decimal_value (fixed k n) = n.
Proof.
  induction k as [|k IH]; intros n H; [cbn in *; lia|]. cbn [fixed]. rewrite num_snoc, IH.
  - pose proof (N.div_mod n 10 ltac:(lia)). lia.
  - rewrite Nat2N.inj_succ, N.pow_succ_r' in H. apply N.div_lt_upper_bound; lia.
Qed.
Lemma shorten_spec k : forall s, Forall digit s -> k <= List.length s ->
  decimal_value (shorten k s) = decimal_value s /\ Forall digit (shorten k s) /\ k <= List.length (shorten k s).
Proof.
  induction s as [|c s IH]; intros F H; [cbn in *; auto|]. cbn [shorten].
  destruct (N.eqb_spec c 48) as [->|_]; cbn [andb]; [|auto]. destruct (Nat.ltb_spec k (List.length (48%N :: s))); [|auto].
  inversion F; subst. cbn in *. destruct (IH ltac:(assumption) ltac:(lia)) as (A & B & C). split; [rewrite A; reflexivity|auto].
Qed.
Lemma ex_shows_decimals : shows_decimals ex_show_decimal.
Proof.
  intros m s Hm Hs. unfold ex_show_decimal. cbn [dec_neg dec_mant dec_scale app].
  destruct (shorten_spec (S s) (fixed 29 m) (fixed_digits 29 m)) as (V & F & Ln); [rewrite fixed_length; lia|].
  rewrite fixed_value in V by (eapply N.lt_trans; [exact Hm|reflexivity]).
  set (x := shorten (S s) (fixed 29 m)) in *. clearbody x.
  exists (firstn (List.length x - s) x), (skipn (List.length x - s) x). split; [reflexivity|]. split; [|split; [|split; [|split]]].
  - intro X. apply (f_equal (@List.length _)) in X. rewrite firstn_length in X. cbn in X. lia.
  - rewrite <- (firstn_skipn (List.length x - s) x) in F. apply Forall_app in F. tauto.
  - rewrite <- (firstn_skipn (List.length x - s) x) in F. apply Forall_app in F. tauto.
  - rewrite skipn_length. lia.
  - rewrite firstn_skipn. exact V.
Qed.
Lemma ex_shows_dates : shows_dates ex_show_date.
Proof.
  intros y m d Hy Cd. unfold ex_show_date. cbn [d_year d_month d_day].
  assert (Hm : (m < 100)%N /\ (d < 100)%N).
  { destruct Cd as (n & M & Hd). destruct M as [m Hm|m Hm| |]; try cbn in Hm; intuition lia. }
  exists (fixed 4 y), (fixed 2 m), (fixed 2 d). split; [reflexivity|]. rewrite !fixed_length, !fixed_value by (cbn; lia).
  repeat split; apply fixed_digits.
Qed.
Lemma ex_display_ok : display_ok ex_display.
Proof. split; cbn; [exact ex_shows_decimals|exact ex_shows_dates|intro l; apply Permutation_rev|intro l; apply Permutation_rev]. Qed.

(** ** Cases *)

(** Text which is not in a file, parsed; then displayed, and parsed again. *)
Definition ex_parse (content : str) : outcome (option parsed_as) :=
  match read_with_includes (includes_of P_Lexer.ex_env) ex_glob ex_canonicalize ex_read 5 None content with
  | Some s => match parser_new P_Lexer.ex_env s with
              | Fine (Some toks) => parse P_Grammar.ex_env ex_canonicalize s toks
              | _ => Panic
              end
  | None => Panic
  end.
Definition ex_directives (r : outcome (option parsed_as)) : option (list directive) :=
  match r with Fine (Some (Success ds _ _ _)) => Some (map item ds) | _ => None end.
Definition ex_text (r : outcome (option parsed_as)) : str :=
  match ex_directives r with Some ds => document ex_display ds | None => [] end.
Definition ex_line (s : string) : str := lit s ++ [10%N].

Definition ex_ledger : str :=
  ex_line "2024-02-29 * ""Payee"" ""Some words"" #trip #food ^inv-1" ++ ex_line "  receipt: ""a.pdf""" ++ ex_line "  sum: -1 - 2 * (3.50 + 4) EUR" ++
  ex_line "  ! Assets:Cash  -1,234.50 USD { 5 # 6 CHF, 2024-01-01, ""lot"" } @ 4 EUR" ++ ex_line "    date: 2024-03-01" ++ ex_line "  Expenses:Food" ++
  ex_line "2024-01-01 open Assets:Cash USD,CHF ""STRICT""" ++ ex_line "2024-03-01 custom ""budget"" Assets:Cash TRUE 10.00 USD" ++
  ex_line "2024-03-01 balance Assets:Cash 100 USD".

Definition ex_ledger_shown : str :=
  ex_line "2024-01-01 open Assets:Cash USD,CHF ""STRICT""" ++
  ex_line "2024-02-29 * ""Payee"" ""Some words"" #food #trip ^inv-1" ++ ex_line "  sum: -1 - 2 * (3.50 + 4) EUR" ++ ex_line "  receipt: ""a.pdf""" ++
  ex_line "  ! Assets:Cash -1234.50 USD {5 # 6 CHF, 2024-01-01, ""lot""} @ 4 EUR" ++ ex_line "  date: 2024-03-01" ++ ex_line "  Expenses:Food" ++
  ex_line "2024-03-01 balance Assets:Cash 100 USD" ++ ex_line "2024-03-01 custom ""budget"" Assets:Cash TRUE 10.00 USD".
Example ex_shown : ex_text (ex_parse ex_ledger) = ex_ledger_shown.
Proof. vm_compute. reflexivity. Qed.
(** Displaying what is parsed from that shows the same again, but for the order
    of tags and keys, which is reversed each time. *)
Example ex_shown_again : ex_text (ex_parse (ex_text (ex_parse ex_ledger_shown))) = ex_ledger_shown.
Proof. vm_compute. reflexivity. Qed.
Example ex_expr_again : exists toks, lex P_Lexer.ex_env (display_expr ex_display ex_tree) = Fine (Some toks) /\
  display_expr ex_display ex_tree = lit "1 - 2 - 3 * (4 + 5)" /\
  p_expr (input_of 0 (display_expr ex_display ex_tree) toks) 0 = Got ex_tree 11 [] [].
Proof. eexists. split; [vm_compute; reflexivity|]. split; vm_compute; reflexivity. Qed.

(** ** What cannot be read again

    In each case the libraries do what is relied on, and [content] is parsed
    without an error. *)
Definition libraries_ok (L : lexer_env) (E : grammar_env) (D : display_env) : Prop :=
  unicode_ok (le_unicode L) /\ reads_decimals (le_decimal L) /\
  (forall c, u_Nd (le_unicode L) c = true -> u_Lu (le_unicode L) c = false /\ u_Lo (le_unicode L) c = false) /\
  environment_ok E /\ display_ok D.
Lemma ex_libraries_ok : libraries_ok P_Lexer.ex_env P_Grammar.ex_env ex_display.
Proof.
  split; [exact arabic_ok|]. split; [exact ex_reads_decimals|]. split; [exact arabic_disjoint|]. split; [|exact ex_display_ok].
  split; [exact (wset_unicode _ _ _ ex_set)|reflexivity].
Qed.
(** Parsing text which is not in a file. *)
Inductive parses (L : lexer_env) (E : grammar_env) (content : str) : parsed_as -> Prop :=
| parses_intro glob_with canonicalize read fuel s toks result :
    read_with_includes (includes_of L) glob_with canonicalize read fuel None content = Some s ->
    parser_new L s = Fine (Some toks) -> parse E canonicalize s toks = Fine (Some result) -> parses L E content result.
Definition not_read_again (content : str) : Prop := exists L E D d opts ws es ws',
  libraries_ok L E D /\ parses L E content (Success [d] opts [] ws) /\
  parses L E (document D [item d]) (Failure es ws').
Lemma ex_parses content r : ex_parse content = Fine (Some r) -> parses P_Lexer.ex_env P_Grammar.ex_env content r.
Proof.
  unfold ex_parse. destruct (read_with_includes _ _ _ _ _ _ _) as [s|] eqn:X; [|discriminate].
  destruct (parser_new P_Lexer.ex_env s) as [[toks|]|] eqn:Y; [|discriminate|discriminate]. intro Z. econstructor; eassumption.
Qed.
Lemma ex_not_read_again content :
  match ex_parse content with
  | Fine (Some (Success [d] _ [] _)) => match ex_parse (document ex_display [item d]) with Fine (Some (Failure _ _)) => True | _ => False end
  | _ => False
  end -> not_read_again content.
Proof.
  intro H. destruct (ex_parse content) as [[[[|d [|? ?]] opts [|? ?] ws|]|]|] eqn:X; try contradiction.
  destruct (ex_parse (document ex_display [item d])) as [[[|es ws']|]|] eqn:Y; try contradiction.
  exists P_Lexer.ex_env, P_Grammar.ex_env, ex_display, d, opts, ws, es, ws'. split; [exact ex_libraries_ok|].
  split; apply ex_parses; assumption.
Qed.

(** A tolerance is shown after the currency. *)
Theorem C51_tolerance_refuted : not_read_again (ex_line "2024-01-01 balance Assets:Cash 10 ~ 0.1 USD").
Proof. apply ex_not_read_again. vm_compute. exact Logic.I. Qed.
(** A total price is shown with the sign which is for total costs. *)
Theorem C51_total_price_refuted : not_read_again (ex_line "2024-01-01 * ""a""" ++ ex_line "  Assets:Cash 1 USD @@ 2 CHF").
Proof. apply ex_not_read_again. vm_compute. exact Logic.I. Qed.
(** A quote is shown as it is. *)
Theorem C51_quote_refuted : not_read_again (ex_line "2024-01-01 note Assets:Cash ""a \""b""").
Proof. apply ex_not_read_again. vm_compute. exact Logic.I. Qed.

(** So is one which makes two strings of one: what is read is something else. *)
Definition has_payee (d : directive) : bool := match dir_variant d with V_Transaction _ (Some _) _ _ => true | _ => false end.
Lemma alike_payee d d' : alike d d' -> has_payee d = has_payee d'.
Proof. intros [_ _ V]. unfold has_payee. destruct V as [f f' p p' n n' ps ps' _ P _ _| | | | | | | | | | |]; try reflexivity. destruct p, p'; cbn in P; tauto. Qed.
Lemma ex_read_differently content :
  match ex_parse content with
  | Fine (Some (Success [d] _ [] _)) =>
      match ex_parse (document ex_display [item d]) with
      | Fine (Some (Success [d'] _ [] _)) => Bool.eqb (has_payee (item d)) (has_payee (item d')) = false
      | _ => False
      end
  | _ => False
  end -> exists L E D d d' opts ws opts' ws',
  libraries_ok L E D /\ parses L E content (Success [d] opts [] ws) /\
  parses L E (document D [item d]) (Success [d'] opts' [] ws') /\ ~ alike (item d) (item d').
Proof.
  intro H. destruct (ex_parse content) as [[[[|d [|? ?]] opts [|? ?] ws|]|]|] eqn:X; try contradiction.
  destruct (ex_parse (document ex_display [item d])) as [[[[|d' [|? ?]] opts' [|? ?] ws'|]|]|] eqn:Y; try contradiction.
  exists P_Lexer.ex_env, P_Grammar.ex_env, ex_display, d, d', opts, ws, opts', ws'. split; [exact ex_libraries_ok|].
  split; [apply ex_parses; exact X|]. split; [apply ex_parses; exact Y|].
  intro A. apply alike_payee in A. rewrite A, Bool.eqb_reflx in H. discriminate.
Qed.
Theorem C51_split_string_refuted : exists L E D d d' opts ws opts' ws',
  libraries_ok L E D /\ parses L E (ex_line "2024-01-01 * ""a\"" \""b""") (Success [d] opts [] ws) /\
  parses L E (document D [item d]) (Success [d'] opts' [] ws') /\ ~ alike (item d) (item d').
Proof. apply ex_read_differently. vm_compute. reflexivity. Qed.

(** The hypotheses of [C51_tolerance_shown] and [C51_total_price_shown]. *)
Definition ex_ten : expr_value := mk_ev (op_rescale (g_ops P_Grammar.ex_env) (mk_dec false 10 0) 0) (E_Value (mk_dec false 10 0)).
Example ex_ten_common : common_value P_Grammar.ex_env ex_ten /\ common_currency (lit "USD") /\ common_number (mk_dec false 1 1).
Proof.
  assert (N : forall m s, (m < 2 ^ 96)%N -> s <= 28 -> common_number (mk_dec false m s)) by (intros; repeat split; assumption).
  split; [|split; [|apply N; [reflexivity|lia]]].
  - split; [repeat constructor|]. split; [apply N; [reflexivity|lia]|]. exists (mk_dec false 10 0), 0. split; [constructor|]. split; [|reflexivity].
    split; [intros d Hd; inversion Hd; subst; cbn; lia|]. exists (mk_dec false 10 0). split; [constructor|reflexivity].
  - split; [|split].
    + left. exists 85%N, [83%N; 68%N]. split; [reflexivity|]. unfold currency_middle, upper. split; [lia|]. repeat (constructor; [lia|]). constructor.
    + intros [X|[X|[X|[]]]]; discriminate.
    + apply (proj1 (P_Types.C18_accepts (lit "USD") (lit "USD")) eq_refl).
Qed.

Print Assumptions C51_tolerance_shown.
Print Assumptions C51_total_price_shown.
Print Assumptions C51_tolerance_refuted.
Print Assumptions C51_total_price_refuted.
Print Assumptions C51_quote_refuted.
Print Assumptions C51_split_string_refuted.
