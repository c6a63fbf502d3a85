(** * C84: names, dates and strings in several files *)
From Coq Require Import String Ascii.
From Coq Require Import List NArith ZArith Arith Bool Lia Permutation.
From Verif Require Import Base BaseFacts Text Path PathFacts Sources Types SpecTypes TypesFacts P_Types SortM SpecSort P_Sort Options SpecOptions OptionsFacts P_Options
  Pragma SpecPragma PragmaRun P_Pragma Read SpecRead ReadFacts P_Read
  Token Lexer SpecLexer P_Lexer Peg PegFacts Grammar SpecExpr SpecGrammar SpecDirective SpecDisplay SpecLedger SpecAlike ExprFacts P_Grammar
  Parse SpecParse SpecWhole ParseFacts ParseOnce ParseFile P_File P_Includes P_Parse IncludeTokens P_Order P_Complete AlikeEquiv AlikeRead AlikeFile AlikeWalk AlikeOptions SortFacts SimCopy SpecPaste Paste P_Paste SpecLayout P_Layout SpecAppend Append P_Append
  SpecRename SpecNames Names NamesRun P_Names.
Import SpecPragma Read.
Import ListNotations.
Local Open Scope nat_scope.

Lemma placed_trans R a b c : alike_declaration eq a b -> alike_declaration R b c -> alike_declaration R a c.
Proof.
  assert (Pt : forall p q r, alike_pragma eq p q -> alike_pragma R q r -> alike_pragma R p r).
  { intros p q r A B. destruct A as [t t' S|t t' S|x x' S Q|t t' S|t t' S|x x' S|o o' S]; inversion B; subst; constructor; unfold same_item in *; try congruence.
    - match goal with H : alike_key_value x' _ |- _ => destruct H as [S3 S4] end. destruct S as [S1 S2]. split; [eapply item_trans; eassumption|eapply meta_value_trans; eassumption].
    - eapply plugin_trans; eassumption. }
  intros [d d' Q Q' A Di|p p' Q Q' A] [e e' Q1 Q1' B Di'|q q' Q1 Q1' B]; rewrite Q' in Q1; try discriminate; injection Q1 as <-.
  - eapply ad_directive; [exact Q|exact Q1'|eapply alike_trans; eassumption|exact Di].
  - eapply ad_pragma; [exact Q|exact Q1'|eapply Pt; eassumption].
Qed.

Lemma renamed_includes L n c c' : renamed L n c c' -> includes_of L c = includes_of L c'.
Proof.
  intros (ts & ts' & Lx & Lx' & Q & _ & Ki). unfold includes_of. rewrite !C38_includes, Lx, Lx'.
  assert (G : forall us, map fst us = map (name_token n) (map fst ts) -> included_strings (input_of 0 c ts) = included_strings (input_of 0 c' us)); [|exact (G ts' Q)].
  clear Lx' ts' Q. intros us Q. unfold included_strings. cbn [input_of in_tokens].
  assert (Ln : List.length us = List.length ts) by (apply (f_equal (@List.length _)) in Q; rewrite !map_length in Q; exact Q). rewrite Ln.
  apply flat_map_ext. intro i. unfold included_at. cbn [input_of in_tokens].
  assert (T : forall j, option_map fst (nth_error us j) = option_map (name_token n) (option_map fst (nth_error ts j))).
  { intro j. pose proof (f_equal (fun l => nth_error l j) Q) as H. cbn beta in H. rewrite !nth_error_map in H. exact H. }
  pose proof (T i) as T0. pose proof (T (S i)) as T1. clear T.
  destruct (nth_error ts i) as [[t r]|] eqn:A; destruct (nth_error us i) as [[u r']|]; try discriminate T0; [|reflexivity]. cbn in T0. injection T0 as ->.
  assert (Kw : t = T_Keyword K_Include \/ t <> T_Keyword K_Include) by (destruct t as [| | |?| | | | | | | | | | | | | | | | | |?|k|?|?|?|?|?|?|?|?| | | | |?]; try (right; discriminate); destruct k; (left; reflexivity) || (right; discriminate)).
  destruct Kw as [->|Nk].
  - cbn [name_token]. destruct (nth_error ts (S i)) as [[v q]|] eqn:B; destruct (nth_error us (S i)) as [[w q']|]; try discriminate T1; [|reflexivity]. cbn in T1. injection T1 as ->.
    destruct v; try reflexivity. cbn [name_token]. f_equal. symmetry. eapply (include_kept n (input_of 0 c ts) Ki i); [exists r; exact A|exists q; exact B].
  - transitivity (@nil str); [|symmetry].
    + destruct t; try reflexivity. destruct k; try reflexivity. contradiction.
    + destruct t; try reflexivity. destruct k; try reflexivity. contradiction.
Qed.

(** ** The declarations of the files *)
Lemma named_tiles L E (En : environment_ok E) n (Fa : faithful (g_unicode E) n) id file c ts c' ts' (R : span -> span -> Prop) :
  map fst ts' = map (name_token n) (map fst ts) -> keeps_options (on_string n) (map fst ts) -> keeps_includes (on_string n) (map fst ts) ->
  lex L c = Fine (Some ts) -> lex L c' = Fine (Some ts') ->
  (forall sp sp', token_place L (id, file, c) (id, file, c') sp sp' -> R sp sp') ->
  forall r r' ds ws r1, alike_rules r r' -> tiles E (input_of id c ts) file r 0 ds [] ws r1 ->
  exists ds' ws' r1', tiles E (input_of id c' ts') file r' 0 ds' [] ws' r1' /\ Forall2 (alike_declaration R) (map (in_place (name_declaration n)) ds) ds' /\
    map rp_problem ws = map rp_problem ws' /\ alike_rules r1 r1'.
Proof.
  intros Q Ko Ki Lx Lx' Pl r r' ds ws r1 Ar T.
  set (tj := map (fun x => (name_token n (fst x), snd x)) ts). set (I := input_of id c ts) in *. set (J0 := input_of id c tj).
  assert (Tk : in_tokens J0 = map (fun x => (name_token n (fst x), snd x)) (in_tokens I)) by reflexivity.
  destruct (tiles_J E n I J0 Fa (env_order _ En) eq_refl eq_refl Tk (fun i j e S => proj1 (proj1 (bounds I) i j e S)) file Ko Ki eq (fun _ => eq_refl)
    (fun r0 i H => ParseOnce.not_indented E I file r0 i H) r 0 ds ws r1 T) as (db & TJ & AlN).
  assert (Same : map fst (in_tokens J0) = map fst (in_tokens (input_of id c' ts'))) by (cbn; rewrite Q; unfold tj; rewrite !map_map; reflexivity).
  destruct (same_tiles E J0 (input_of id c' ts') file R Same (env_order _ En)) with (2 := TJ) (r' := r') as (ds' & ws' & r1' & T' & Al & W & Ar'); [|exact Ar|].
  { intros k t Tt. apply Pl. apply (tok_I n I J0 Tk) in Tt. destruct Tt as (u & Tu & Qu). destruct u; try discriminate.
    exists ts, ts', k, s. repeat (split; [assumption|]). split; [apply (text_J n I J0 eq_refl eq_refl Tk)|reflexivity]. }
  exists ds', ws', r1'. split; [exact T'|]. split; [|auto]. clear - AlN Al. revert ds' Al. induction AlN as [|x y l l' A F IH]; intros ds' B; inversion B; subst; constructor; eauto. eapply placed_trans; eassumption.
Qed.
Lemma named_files_tiled L E (En : environment_ok E) n (Fa : faithful (g_unicode E) n) (R : span -> span -> Prop) : forall cs cs',
  Forall2 (fun x y => fst x = fst y /\ renamed L n (snd x) (snd y)) cs cs' ->
  Forall2 (fun x y => forall sp sp', token_place L x y sp sp' -> R sp sp') cs cs' ->
  forall r r' fs ws r1, alike_rules r r' -> files_tiled L E r cs fs [] ws r1 ->
  exists fs' ws' r1', files_tiled L E r' cs' fs' [] ws' r1' /\ Forall2 (alike_file R) (map (name_file n) fs) fs' /\ map rp_problem ws = map rp_problem ws' /\ alike_rules r1 r1'.
Proof.
  intros cs cs' F. induction F as [|[[id file] c] [[id' file'] c'] cs cs' [Q T] F IH]; intros P r r' fs ws r1 Ar Ti.
  - inversion Ti; subst. exists [], [], r'. repeat (split; [try constructor; try reflexivity|]); exact Ar || apply Ar.
  - remember (@nil report) as es0 eqn:Qe in Ti. inversion Ti as [|r0 i0 f0 c0 toks cs0 ds es ws1 r2 fs1 es' ws2 r3 Lx Tl Tr]; subst.
    match goal with H : _ ++ _ = [] |- _ => apply app_eq_nil in H; destruct H as [-> ->] end. cbn in Q. injection Q as <- <-.
    inversion P as [|? ? ? ? Px Pr]; subst. destruct T as (ts & ts' & L1 & L2 & Tq & Ko & Ki). cbn [snd] in L1, L2. rewrite Lx in L1. injection L1 as <-.
    destruct (named_tiles L E En n Fa id file c toks c' ts' R Tq Ko Ki Lx L2 Px _ _ _ _ _ Ar Tl) as (ds' & ws1' & r2' & Tl' & Fd & W1 & Ar2).
    destruct (IH Pr _ _ _ _ _ Ar2 Tr) as (fs' & ws2' & r3' & Tr' & Ff & W2 & Ar3).
    exists ((file, ds') :: fs'), (ws1' ++ ws2'), r3'. split; [change (@nil report) with (@nil report ++ []); econstructor; eassumption|].
    split; [cbn [map]; constructor; [split; [reflexivity|exact Fd]|exact Ff]|]. split; [rewrite !map_app, W1, W2; reflexivity|exact Ar3].
Qed.
Lemma renamed_fine L E n (Fa : faithful (g_unicode E) n) id c c' : renamed L n c c' -> fine_content L E id c -> fine_content L E id c'.
Proof.
  intros (ts & ts' & Lx & Lx' & Q & Ko & _) (t & X & C & O). rewrite Lx in X. injection X as <-.
  set (tj := map (fun x => (name_token n (fst x), snd x)) ts). set (I := input_of id c ts) in *. set (J0 := input_of id c tj).
  assert (Tk : in_tokens J0 = map (fun x => (name_token n (fst x), snd x)) (in_tokens I)) by reflexivity.
  assert (Same : map fst (in_tokens J0) = map fst (in_tokens (input_of id c' ts'))) by (cbn; rewrite Q; unfold tj; rewrite !map_map; reflexivity).
  exists ts'. split; [exact Lx'|]. split.
  - eapply same_computable; [exact Same|]. exact (computable_J E n I J0 Fa Tk C).
  - eapply same_fine_options; [exact Same|]. exact (fine_options_J n I J0 Tk Ko O).
Qed.
Lemma files_among L E : forall r cs fs es ws r', files_tiled L E r cs fs es ws r' ->
  Forall (file_all (dated (flat_map (fun x => match lex L (snd x) with Fine (Some ts) => dates_in (map fst ts) | _ => [] end) cs))) fs.
Proof.
  intros r cs fs es ws r' T. induction T as [r|r id f c ts cs ds es ws r1 fs es' ws' r' Lx T Ts IH]; constructor.
  - pose proof (tiles_among _ _ _ _ _ _ _ _ _ T) as X. unfold file_all. cbn [snd]. eapply Forall_impl; [|exact X]. intros d Hd. unfold dated in *. destruct (item d) as [x|]; [|exact Logic.I].
    cbn [flat_map snd]. rewrite Lx. apply in_or_app. left. exact Hd.
  - eapply Forall_impl; [|exact IH]. intros x Hx. unfold file_all in *. eapply Forall_impl; [|exact Hx]. intros d Hd. unfold dated in *. destruct (item d) as [y|]; [|exact Logic.I].
    cbn [flat_map snd]. apply in_or_app. right. exact Hd.
Qed.

Section Files.
  Context (L : lexer_env) (E : grammar_env) (En : environment_ok E) (U : unicode_ok (le_unicode L)).
  Context (glob_with : str -> result (list glob_item) str) (canonicalize : path -> option path).
  Context (Cano : forall p q c d, same_path p q -> canonicalize p = Some c -> canonicalize q = Some d -> same_path c d).
  Context (canonicalize' : path -> option path) (root : option path).
  Context (Root : forall p, root = Some p -> canonicalize p <> None).

  Lemma reads_itself read fuel content s : read_with_includes (includes_of L) glob_with canonicalize read fuel root content = Some s ->
    reads_to (includes_of L) glob_with canonicalize read fuel root content s.
  Proof. intro H. exists s. repeat (split; [auto|]). apply Permutation_refl. Qed.
  (** Files whose declarations are without errors are parsed successfully. *)
  Lemma all_parses read fuel content s rootds others r' ws es rest :
    read_with_includes (includes_of L) glob_with canonicalize read fuel root content = Some s ->
    (forall id f c, In (id, f, c) (content_iter s) -> fine_content L E id c) ->
    files_tiled L E initial_rules (content_iter s) ((root, rootds) :: others) [] ws r' ->
    walk (included_globs s) others root rootds es rest -> dues canonicalize' (included_globs s) (error_paths s) [] es [] -> leftover es [] ->
    exists po yielded sorted, yields [] es yielded /\ sorted_from yielded sorted /\ obeys E po r' /\
      parsed_from L E canonicalize' s = Fine (Some (Success sorted (fst (assimilate_all (options_new po) (options_of es))) (plugins_of es) ws)).
  Proof.
    intros Rd Fi Ti W Du Le. pose proof (reads_itself _ _ _ _ Rd) as Reads.
    assert (Pn : exists toks, parser_new L s = Fine (Some toks)).
    { pose proof (C30_parser L U glob_with canonicalize read fuel root content s Reads) as X. destruct (parser_new L s) as [[t2|]|]; [eauto|contradiction|].
      destruct X as (id & f & c & Hin & Pc). destruct (Fi id f c Hin) as (t & Q & _). congruence. }
    destruct Pn as (toks & Pn).
    destruct (C03_parse L E En U glob_with canonicalize read Cano canonicalize' fuel root content s Reads Root toks Pn Fi)
      as (xs & r3 & po & ds3 & opts3 & plugins3 & reports & sorted & Fs & Ob3 & Pp & So3 & X).
    destruct (files_tiled_read L E En _ _ _ _ _ _ Ti (obeyed E En) Fi _ _ Fs) as (A & B & Cw & ->).
    destruct (shape_of L E glob_with canonicalize read Cano canonicalize' fuel root content s Reads Root xs _ Fs) as (rootds' & b & Sh & Nd). rewrite A in Sh. cbn [app] in Sh, Nd. injection Sh as <- <-.
    rewrite A in Pp. pose proof (pass_spec canonicalize' (included_globs s) (error_paths s) po root [] rootds others Nd) as Z3. cbn zeta in Z3. cbn [app] in Z3. rewrite Pp in Z3.
    destruct Z3 as (es3 & rest3 & rs & lft & W3 & Y3 & Du3 & Le3 & -> & -> & ->).
    destruct (proj1 (walk_unique (included_globs s)) _ _ _ _ _ W (names_distinct_app_r [(root, rootds)] _ Nd) _ _ W3) as [<- <-].
    pose proof (dues_unique _ _ _ _ _ _ _ Du Du3) as Ar. inversion Ar as [Q0 Q2|]. rewrite <- Q2 in *. clear Ar Q2.
    rewrite (leftover_nil _ _ Le Le3) in *. cbn zeta in X. rewrite B, Cw in X. cbn [map app] in X.
    exists po, ds3, sorted. split; [exact Y3|]. split; [apply sort_sorted; exact So3|]. split; [exact Ob3|]. unfold parsed_from. rewrite Pn. exact X.
  Qed.
  Lemma ruled_opts po po2 rA r2 es es2 : obeys E po rA -> obeys E po2 r2 -> alike_rules rA r2 -> map opt_variant (options_of es) = map opt_variant (options_of es2) ->
    alike_options (fst (assimilate_all (options_new po) (options_of es))) (fst (assimilate_all (options_new po2) (options_of es2))).
  Proof.
    intros Ob Ob2 [Qn Ql] Q. pose proof (alike_assimilate_all (options_of es) (options_of es2) (options_new po) (options_new po2) Q (alike_fields_new _ _)) as Fo. destruct Fo.
    assert (Po : forall p os, os_parser_options (fst (assimilate_all (options_new p) os)) = p).
    { intros p os. pose proof (C12_first_wins p os) as X. cbn zeta in X. tauto. }
    constructor; auto.
    + intro t. unfold options_account_type_name. rewrite !Po. rewrite (proj1 (ob_named _ _ _ Ob)), (proj1 (ob_named _ _ _ Ob2)), Qn. reflexivity.
    + unfold options_long_string_maxlines. rewrite !Po. rewrite <- (ob_limit _ _ _ Ob), <- (ob_limit _ _ _ Ob2) in Ql. unfold line_limit in Ql.
      destruct (po_maxlines po), (po_maxlines po2); cbn in *; try discriminate; auto.
  Qed.

  (** Replace each file by another one with other names, dates and strings: the
      ledger is the same under these. *)
  Theorem C84_files : forall n read read' fuel content content' s ds opts ps ws,
    faithful (g_unicode E) n -> same_reading (renamed L n) read read' -> renamed L n content content' ->
    read_with_includes (includes_of L) glob_with canonicalize read fuel root content = Some s ->
    keeps_order (on_date n) (dates_in_files L s) ->
    (forall id f c, In (id, f, c) (content_iter s) -> fine_content L E id c) ->
    parsed_from L E canonicalize' s = Fine (Some (Success ds opts ps ws)) ->
    exists s' ds' opts' ps' ws',
      read_with_includes (includes_of L) glob_with canonicalize read' fuel root content' = Some s' /\
      parsed_from L E canonicalize' s' = Fine (Some (Success ds' opts' ps' ws')) /\
      Forall2 (fun d d' => alike (name_directive n (item d)) (item d')) ds ds' /\
      alike_options opts opts' /\ Forall2 (fun p p' => alike_plugin (name_plugin n p) p') ps ps' /\ map rp_problem ws = map rp_problem ws'.
  Proof.
    intros n read read' fuel content content' s ds opts ps ws Fa Same Rn Rd Kp Fi Pf.
    pose proof (alike_read L glob_with canonicalize read read' (renamed L n) (fun c c' H => renamed_includes L n c c' H) Same fuel root content content' Rn) as H.
    rewrite Rd in H. destruct (read_with_includes (includes_of L) glob_with canonicalize read' fuel root content') as [s'|] eqn:Rd'; [|contradiction].
    destruct H as [[Sr Sg Se Sc] _]. exists s'.
    unfold parsed_from in Pf. destruct (parser_new L s) as [[toks|]|] eqn:Pn; try discriminate.
    pose proof (reads_itself _ _ _ _ Rd) as Reads.
    destruct (success_all L E En U glob_with canonicalize read Cano canonicalize' fuel root content s Reads Root toks ds opts ps ws Pn Fi Pf)
      as (rootds & others & rE & po & es & rest & yielded & Ti & Nd & W & Du & Le & Y & So & Ob & -> & ->).
    set (K := fun sp sp' => exists x y, In (x, y) (combine (content_iter s) (content_iter s')) /\ token_place L x y sp sp').
    assert (Kin : forall a b a' b', K a a' -> K b b' -> a = b -> a' = b').
    { assert (Si : forall x y, In (x, y) (combine (content_iter s) (content_iter s')) -> fst (fst x) = fst (fst y)).
      { clear - Sc. intros x y Hin. induction Sc as [|u v l l' [Q _] F IH]; [destruct Hin|]. destruct Hin as [Z|Hin]; [injection Z as <- <-; now rewrite Q|auto]. }
      intros a b a' b' (x & y & Hin & P) (x' & y' & Hin' & P'). apply (token_place_functional L x y x' y'); auto; [intros c ts; apply lexed_separate; exact U|].
      intro Q. pose proof (proj1 (C05_ids _ _ _ _ _ _ _ _ Reads)) as Nd'.
      clear - Nd' Hin Hin' Q. revert Nd' Hin Hin'. generalize (content_iter s') as m. induction (content_iter s) as [|u l IH]; intros m Nd' Hin Hin'; [destruct Hin|].
      destruct m as [|v m]; [destruct Hin|]. cbn in Nd'. apply NoDup_cons_iff in Nd'. destruct Nd' as [Nu Nd']. cbn in Hin, Hin'.
      destruct Hin as [Z|Hin], Hin' as [Z'|Hin'].
      - injection Z as <- <-. injection Z' as <- <-. auto.
      - exfalso. injection Z as <- <-. apply Nu. rewrite Q. apply (in_map (fun x => fst (fst x))). eapply in_combine_l. exact Hin'.
      - exfalso. injection Z' as <- <-. apply Nu. rewrite <- Q. apply (in_map (fun x => fst (fst x))). eapply in_combine_l. exact Hin.
      - exact (IH m Nd' Hin Hin'). }
    assert (Pl : Forall2 (fun x y => forall sp sp', token_place L x y sp sp' -> K sp sp') (content_iter s) (content_iter s')).
    { assert (In1 : forall x y, In (x, y) (combine (content_iter s) (content_iter s')) -> forall sp sp', token_place L x y sp sp' -> K sp sp') by (intros x y Hin sp sp' P; exists x, y; auto).
      clearbody K. clear - Sc In1. induction Sc as [|x y l l' A F IH]; constructor; [apply In1; left; reflexivity|]. apply IH. intros u v Hin. apply In1. right. exact Hin. }
    destruct (named_files_tiled L E En n Fa K _ _ Sc Pl initial_rules initial_rules _ _ _ (conj eq_refl eq_refl) Ti) as (fs' & ws' & r1' & Ti' & Ff & Qw & Ar).
    cbn [map] in Ff. inversion Ff as [|? [root' rootds'] ? others' [Qr Fr] Fo]; subst. cbn [fst snd name_file] in Qr, Fr. subst root'.
    pose proof (proj1 (named_walk n (included_globs s)) _ _ _ _ _ W) as Wn.
    destruct (proj1 (alike_walk K (included_globs s)) _ _ _ _ _ Wn _ _ Fo Fr) as (es' & rest' & W' & Ae & _).
    pose proof (named_dues _ n Fa _ _ _ _ _ Du) as Dn. cbn [map] in Dn.
    pose proof (alike_dues K Kin _ _ _ _ _ Dn [] es' (Forall2_nil _) Ae) as Du'.
    pose proof (alike_leftover K _ _ Ae (named_leftover _ n Fa _ Le)) as Le'.
    assert (Fi' : forall id f c, In (id, f, c) (content_iter s') -> fine_content L E id c).
    { intros id f c Hin. destruct (forall2_in_r _ _ _ Sc _ Hin) as ([[id0 f0] c0] & Hin' & Q & A). cbn in Q, A. injection Q as -> ->. eapply renamed_fine; [exact Fa|exact A|]. apply (Fi id f). exact Hin'. }
    rewrite Sg in W', Du'. rewrite Se in Du'.
    destruct (all_parses read' fuel content' s' rootds' others' r1' ws' es' rest' Rd' Fi' Ti' W' Du' Le') as (po2 & y2 & sorted & Y2 & So2 & Ob2 & Ps).
    exists sorted, (fst (assimilate_all (options_new po2) (options_of es'))), (plugins_of es'), ws'.
    split; [reflexivity|]. split; [exact Ps|]. split; [|split; [|split; [|exact Qw]]].
    - assert (KpY : keeps_order (on_date n) (dates_of yielded)).
      { eapply keeps_fewer; [|exact Kp]. eapply yields_among; [|exact Y]. pose proof (files_among _ _ _ _ _ _ _ _ Ti) as Am. inversion Am; subst.
        exact (proj1 (proj1 (walk_all (dated (dates_in_files L s)) (included_globs s)) _ _ _ _ _ W ltac:(assumption) ltac:(assumption))). }
      pose proof (named_yields _ n Fa _ _ _ Y) as Yn. cbn [map] in Yn.
      assert (X : Forall2 (fun d d' => alike (item d) (item d')) (map (in_place (name_directive n)) ds) sorted).
      { eapply alike_sorted; [|exact (named_sorted n _ _ KpY So)|exact So2]. eapply (alike_yields K); [exact Yn|apply Forall2_nil|exact Ae|exact Y2]. }
      clear - X. remember (map (in_place (name_directive n)) ds) as l eqn:Q. revert ds Q.
      induction X as [|x y l l' A Al IH]; intros [|d ds] Q; try discriminate; constructor; cbn in Q; injection Q as -> Q; auto.
    - apply (ruled_opts _ _ rE r1'); auto. rewrite <- (named_options n es). eapply alike_options_of. exact Ae.
    - pose proof (alike_plugins_of K _ _ Ae) as X. rewrite (named_plugins n) in X. clear - X. remember (map (name_plugin n) _) as l eqn:Q in X. revert Q. generalize (plugins_of es) as l0.
      induction X as [|x y l l' A Al IH]; intros [|d l0] Q; try discriminate; constructor; cbn in Q; injection Q as -> Q; auto.
  Qed.
  (** If the one can be changed back into the other, one is parsed successfully just
      when the other one is. *)
  Theorem C84_exactly : forall n n' read read' fuel content content' s s',
    faithful (g_unicode E) n -> faithful (g_unicode E) n' ->
    same_reading (renamed L n) read read' -> renamed L n content content' -> same_reading (renamed L n') read' read -> renamed L n' content' content ->
    read_with_includes (includes_of L) glob_with canonicalize read fuel root content = Some s ->
    read_with_includes (includes_of L) glob_with canonicalize read' fuel root content' = Some s' ->
    keeps_order (on_date n) (dates_in_files L s) -> keeps_order (on_date n') (dates_in_files L s') ->
    (forall id f c, In (id, f, c) (content_iter s) -> fine_content L E id c) ->
    (exists ds opts ps ws, parsed_from L E canonicalize' s = Fine (Some (Success ds opts ps ws))) <->
    (exists ds opts ps ws, parsed_from L E canonicalize' s' = Fine (Some (Success ds opts ps ws))).
  Proof.
    intros n n' read read' fuel content content' s s' Fa Fb Sr Rc Sr' Rc' Rd Rd' Kp Kp2 Fi.
    pose proof (alike_read L glob_with canonicalize read read' (renamed L n) (fun c c' H => renamed_includes L n c c' H) Sr fuel root content content' Rc) as H.
    rewrite Rd, Rd' in H. destruct H as [[_ _ _ Sc] _].
    assert (Fi' : forall id f c, In (id, f, c) (content_iter s') -> fine_content L E id c).
    { intros id f c Hin. destruct (forall2_in_r _ _ _ Sc _ Hin) as ([[id0 f0] c0] & Hin' & Q & A). cbn in Q, A. injection Q as -> ->. eapply renamed_fine; [exact Fa|exact A|]. apply (Fi id f). exact Hin'. }
    split; intros (ds & opts & ps & ws & P).
    - destruct (C84_files n read read' fuel content content' s ds opts ps ws Fa Sr Rc Rd Kp Fi P) as (s2 & ds' & opts' & ps' & ws' & R2 & P2 & _). rewrite Rd' in R2. injection R2 as <-. eauto.
    - destruct (C84_files n' read' read fuel content' content s' ds opts ps ws Fb Sr' Rc' Rd' Kp2 Fi' P) as (s2 & ds' & opts' & ps' & ws' & R2 & P2 & _). rewrite Rd in R2. injection R2 as <-. eauto.
  Qed.
End Files.

(** ** A case: two files, the second one included twice, where everything is called
    otherwise *)
Definition ex_all_naming : naming :=
  mk_naming (on_currency ex_naming) (on_tag ex_naming) (on_link ex_naming) (on_key ex_naming) ex_later (looked_up [(lit "x", lit "lunch"); (lit "p.q", lit "r")]).
Definition ex_first : str :=
  lit "pushtag #trip" ++ [10%N] ++ lit "pushmeta note: 3 USD" ++ [10%N] ++ lit "include ""b.bean""" ++ [10%N] ++ lit "include ""b.bean""" ++ [10%N] ++
  lit "2024-01-02 txn ""x"" ^inv-1" ++ [10%N] ++ lit "  Assets:B 1+2 USD" ++ [10%N] ++ lit "poptag #trip" ++ [10%N] ++ lit "popmeta note:" ++ [10%N].
Definition ex_first_b : str := lit "plugin ""p.q""" ++ [10%N] ++ lit "2024-01-01 open Assets:B USD" ++ [10%N] ++ lit "  note: ""x""" ++ [10%N].
Definition ex_second : str :=
  lit "pushtag  #y2024/03" ++ [10%N] ++ lit "pushmeta opmerking: 3 EUR" ++ [10%N] ++ lit "include ""b.bean""" ++ [10%N] ++ lit "include  ""b.bean""" ++ [10%N] ++
  lit "2025-01-20 txn ""lunch"" ^b.7" ++ [10%N] ++ lit "  Assets:B 1+2 EUR" ++ [10%N] ++ lit "poptag #y2024/03" ++ [10%N] ++ lit "popmeta opmerking:" ++ [10%N].
Definition ex_second_b : str := lit "plugin ""r""" ++ [10%N] ++ lit "2025-01-01 open Assets:B EUR" ++ [10%N] ++ lit "  opmerking: ""lunch""" ++ [10%N].

Fixpoint check_includes (f : str -> str) (ts : list token) : bool :=
  match ts with
  | T_Keyword K_Include :: ((T_String s :: _) as rest) => str_eqb (f s) s && check_includes f rest
  | _ :: rest => check_includes f rest
  | [] => true
  end.
Lemma check_includes_ok f ts : check_includes f ts = true -> keeps_includes f ts.
Proof.
  intros H a. revert ts H. induction a as [|x a IH]; intros ts H s b ->.
  - cbn in H. apply andb_prop in H. destruct H as [H _]. rewrite str_eqb_eq in H. exact H.
  - apply (IH (a ++ T_Keyword K_Include :: T_String s :: b)) with (b := b); [|reflexivity].
    cbn [app] in H. remember (a ++ _) as rest. clear - H.
    destruct x; try exact H.
    all: try (match goal with k : keyword |- _ => destruct k end; try exact H; destruct rest as [|y rest]; [exact H|]; destruct y; try exact H; cbn in H |- *; apply andb_prop in H; tauto).
Qed.
Lemma check_renamed n c c' : check_content P_Lexer.ex_env P_Grammar.ex_env 0 c = true -> check_content P_Lexer.ex_env P_Grammar.ex_env 0 c' = true ->
  map fst (ex_lexed c') = map (name_token n) (map fst (ex_lexed c)) -> check_options (on_string n) (map fst (ex_lexed c)) = true -> check_includes (on_string n) (map fst (ex_lexed c)) = true ->
  renamed P_Lexer.ex_env n c c'.
Proof. intros C C' Q O Ic. exists (ex_lexed c), (ex_lexed c'). auto 10 using ex_lexes, check_options_ok, check_includes_ok. Qed.
Lemma faithful_with U n f g : faithful U n -> harmless g -> faithful U (mk_naming (on_currency n) (on_tag n) (on_link n) (on_key n) f g).
Proof. intros [A B C D _ _] [X Y]. constructor; cbn; auto. Qed.

(** What comes out of two files. *)
Definition ex_two (a b : str) : option (sources * parsed_as) :=
  match read_with_includes (includes_of P_Lexer.ex_env) ex_glob ex_canonicalize (ex_read_b b) 5 ex_root a with
  | Some s => match parsed_from P_Lexer.ex_env P_Grammar.ex_env ex_canonicalize s with Fine (Some x) => Some (s, x) | _ => None end
  | None => None
  end.
Lemma ex_two_is a b s x : ex_two a b = Some (s, x) ->
  read_with_includes (includes_of P_Lexer.ex_env) ex_glob ex_canonicalize (ex_read_b b) 5 ex_root a = Some s /\ parsed_from P_Lexer.ex_env P_Grammar.ex_env ex_canonicalize s = Fine (Some x).
Proof.
  unfold ex_two. intro H. destruct (read_with_includes _ _ _ _ _ _ _) as [s0|]; [|discriminate]. destruct (parsed_from _ _ _ s0) as [[y|]|] eqn:Q; try discriminate. injection H as <- <-. auto.
Qed.
Definition ex_contents (a b : str) : list (nat * option path * str) :=
  match ex_two a b with Some (s, _) => content_iter s | None => [] end.

Example C84_files_ex : exists s ds opts ps ws,
  faithful (g_unicode P_Grammar.ex_env) ex_all_naming /\
  same_reading (renamed P_Lexer.ex_env ex_all_naming) (ex_read_b ex_first_b) (ex_read_b ex_second_b) /\ renamed P_Lexer.ex_env ex_all_naming ex_first ex_second /\
  read_with_includes (includes_of P_Lexer.ex_env) ex_glob ex_canonicalize (ex_read_b ex_first_b) 5 ex_root ex_first = Some s /\
  keeps_order (on_date ex_all_naming) (dates_in_files P_Lexer.ex_env s) /\
  (forall id f c, In (id, f, c) (content_iter s) -> fine_content P_Lexer.ex_env P_Grammar.ex_env id c) /\
  parsed_from P_Lexer.ex_env P_Grammar.ex_env ex_canonicalize s = Fine (Some (Success ds opts ps ws)) /\ List.length ds = 2 /\ num_sources s = 2.
Proof.
  destruct (ex_two ex_first ex_first_b) as [[s [ds opts ps ws|]]|] eqn:X; try (vm_compute in X; discriminate X).
  exists s, ds, opts, ps, ws. destruct (ex_two_is _ _ _ _ X) as [Rd Ps].
  split; [apply faithful_with; [exact ex_faithful|apply looked_up_harmless; vm_compute; reflexivity]|].
  split; [intro p; unfold ex_read_b; destruct (path_eqb p (lit "/d/b.bean")); [|reflexivity]; apply check_renamed; vm_compute; reflexivity|].
  split; [apply check_renamed; vm_compute; reflexivity|]. split; [exact Rd|]. split.
  { assert (D : dates_in_files P_Lexer.ex_env s = [mk_date 2024 1 2; mk_date 2024 1 1]).
    { clear - Rd. vm_compute in Rd. injection Rd as <-. vm_compute. reflexivity. }
    rewrite D. unfold keeps_order, before, ex_all_naming, ex_later. cbn [In on_date]. intros x y Hx Hy.
    repeat match goal with H0 : _ \/ _ |- _ => destruct H0 as [H0|H0] | H0 : False |- _ => destruct H0 end; subst x y; cbn; lia. }
  split.
  { assert (D : content_iter s = [(0, ex_root, ex_first); (1, Some (lit "/d/b.bean"), ex_first_b)]).
    { clear - Rd. vm_compute in Rd. injection Rd as <-. vm_compute. reflexivity. }
    rewrite D. intros id f c [Q|[Q|[]]]; injection Q as <- <- <-; apply check_content_ok; vm_compute; reflexivity. }
  split; [exact Ps|]. clear - X. vm_compute in X. injection X as <- <- _ _ _. split; reflexivity.
Qed.

(** And back. *)
Definition ex_back_naming : naming :=
  mk_naming (on_currency ex_naming) (on_tag ex_naming) (on_link ex_naming) (on_key ex_naming)
    (fun d => mk_date (d_year d - 1) (d_month d) (if (d_day d =? 20)%N then 2 else d_day d)) (looked_up [(lit "lunch", lit "x"); (lit "r", lit "p.q")]).
Example C84_exactly_ex : exists s s',
  faithful (g_unicode P_Grammar.ex_env) ex_all_naming /\ faithful (g_unicode P_Grammar.ex_env) ex_back_naming /\
  same_reading (renamed P_Lexer.ex_env ex_all_naming) (ex_read_b ex_first_b) (ex_read_b ex_second_b) /\ renamed P_Lexer.ex_env ex_all_naming ex_first ex_second /\
  same_reading (renamed P_Lexer.ex_env ex_back_naming) (ex_read_b ex_second_b) (ex_read_b ex_first_b) /\ renamed P_Lexer.ex_env ex_back_naming ex_second ex_first /\
  read_with_includes (includes_of P_Lexer.ex_env) ex_glob ex_canonicalize (ex_read_b ex_first_b) 5 ex_root ex_first = Some s /\
  read_with_includes (includes_of P_Lexer.ex_env) ex_glob ex_canonicalize (ex_read_b ex_second_b) 5 ex_root ex_second = Some s' /\
  keeps_order (on_date ex_all_naming) (dates_in_files P_Lexer.ex_env s) /\ keeps_order (on_date ex_back_naming) (dates_in_files P_Lexer.ex_env s') /\
  (forall id f c, In (id, f, c) (content_iter s) -> fine_content P_Lexer.ex_env P_Grammar.ex_env id c).
Proof.
  destruct C84_files_ex as (s & _ & _ & _ & _ & Fa & Sr & Rn & Rd & Kp & Fi & _).
  destruct (ex_two ex_second ex_second_b) as [[s' x]|] eqn:X; try (vm_compute in X; discriminate X). destruct (ex_two_is _ _ _ _ X) as [Rd' _].
  exists s, s'. split; [exact Fa|]. split; [apply faithful_with; [exact ex_faithful|apply looked_up_harmless; vm_compute; reflexivity]|]. split; [exact Sr|]. split; [exact Rn|].
  split; [intro p; unfold ex_read_b; destruct (path_eqb p (lit "/d/b.bean")); [|reflexivity]; apply check_renamed; vm_compute; reflexivity|].
  split; [apply check_renamed; vm_compute; reflexivity|]. split; [exact Rd|]. split; [exact Rd'|]. split; [exact Kp|]. split; [|exact Fi].
  assert (D : dates_in_files P_Lexer.ex_env s' = [mk_date 2025 1 20; mk_date 2025 1 1]).
  { clear - Rd'. vm_compute in Rd'. injection Rd' as <-. vm_compute. reflexivity. }
  rewrite D. unfold keeps_order, before, ex_back_naming. cbn [In on_date]. intros a b Ha Hb.
  repeat match goal with H0 : _ \/ _ |- _ => destruct H0 as [H0|H0] | H0 : False |- _ => destruct H0 end; subst a b; cbn; lia.
Qed.

(** If what an include says changes, another file is looked for. *)
Theorem C84_includes_refuted : exists L E n glob_with canonicalize read root fuel a c ta tc s s' ds opts ps ws es ws',
  unicode_ok (le_unicode L) /\ environment_ok E /\ faithful (g_unicode E) n /\
  lex L a = Fine (Some ta) /\ lex L c = Fine (Some tc) /\ map fst tc = map (name_token n) (map fst ta) /\ keeps_options (on_string n) (map fst ta) /\
  read_with_includes (includes_of L) glob_with canonicalize read fuel root a = Some s /\ parsed_from L E canonicalize s = Fine (Some (Success ds opts ps ws)) /\
  read_with_includes (includes_of L) glob_with canonicalize read fuel root c = Some s' /\ parsed_from L E canonicalize s' = Fine (Some (Failure es ws')).
Proof.
  pose (n := restrung (looked_up [(lit "b.bean", lit "c.bean")])).
  pose (a := lit "include ""b.bean""" ++ [10%N]). pose (c := lit "include ""c.bean""" ++ [10%N]).
  assert (Ca : check_content P_Lexer.ex_env P_Grammar.ex_env 0 a = true) by (vm_compute; reflexivity).
  assert (Cc : check_content P_Lexer.ex_env P_Grammar.ex_env 0 c = true) by (vm_compute; reflexivity).
  destruct (ex_two a ex_first_b) as [[s [ds opts ps ws|]]|] eqn:X; try (vm_compute in X; discriminate X).
  destruct (ex_two c ex_first_b) as [[s' [|es ws']]|] eqn:Y; try (vm_compute in Y; discriminate Y).
  exists P_Lexer.ex_env, P_Grammar.ex_env, n, ex_glob, ex_canonicalize, (ex_read_b ex_first_b), ex_root, 5, a, c, (ex_lexed a), (ex_lexed c), s, s', ds, opts, ps, ws, es, ws'.
  destruct (ex_two_is _ _ _ _ X), (ex_two_is _ _ _ _ Y).
  split; [exact P_Lexer.arabic_ok|]. split; [exact P_File.ex_environment|]. split; [apply restrung_faithful; apply looked_up_harmless; vm_compute; reflexivity|].
  split; [apply ex_lexes; exact Ca|]. split; [apply ex_lexes; exact Cc|]. split; [vm_compute; reflexivity|]. split; [apply check_options_ok; vm_compute; reflexivity|]. auto.
Qed.
(** It is not enough that the order of the dates is kept within each file. *)
Theorem C84_order_refuted : exists L E f glob_with canonicalize read read' root fuel a c s s' ds opts ps ws ds' opts' ps' ws',
  unicode_ok (le_unicode L) /\ environment_ok E /\ same_reading (renamed L (redated f)) read read' /\ renamed L (redated f) a c /\
  read_with_includes (includes_of L) glob_with canonicalize read fuel root a = Some s /\ parsed_from L E canonicalize s = Fine (Some (Success ds opts ps ws)) /\
  (forall id p t ts, In (id, p, t) (content_iter s) -> lex L t = Fine (Some ts) -> keeps_order f (dates_in (map fst ts))) /\
  read_with_includes (includes_of L) glob_with canonicalize read' fuel root c = Some s' /\ parsed_from L E canonicalize s' = Fine (Some (Success ds' opts' ps' ws')) /\
  ~ Forall2 (fun d d' => alike (name_directive (redated f) (item d)) (item d')) ds ds'.
Proof.
  pose (f := fun d : date => mk_date (d_year d) (d_month d) (4 - d_day d)).
  pose (a := lit "include ""b.bean""" ++ [10%N] ++ lit "2024-01-03 close Assets:B" ++ [10%N]). pose (b := lit "2024-01-01 open Assets:B" ++ [10%N]).
  pose (c := lit "include ""b.bean""" ++ [10%N] ++ lit "2024-01-01 close Assets:B" ++ [10%N]). pose (d := lit "2024-01-03 open Assets:B" ++ [10%N]).
  destruct (ex_two a b) as [[s [ds opts ps ws|]]|] eqn:X; try (vm_compute in X; discriminate X).
  destruct (ex_two c d) as [[s' [ds' opts' ps' ws'|]]|] eqn:Y; try (vm_compute in Y; discriminate Y).
  exists P_Lexer.ex_env, P_Grammar.ex_env, f, ex_glob, ex_canonicalize, (ex_read_b b), (ex_read_b d), ex_root, 5, a, c, s, s', ds, opts, ps, ws, ds', opts', ps', ws'.
  destruct (ex_two_is _ _ _ _ X) as [Rd Ps], (ex_two_is _ _ _ _ Y) as [Rd' Ps'].
  split; [exact P_Lexer.arabic_ok|]. split; [exact P_File.ex_environment|].
  split; [intro p; unfold ex_read_b; destruct (path_eqb p (lit "/d/b.bean")); [|reflexivity]; apply check_renamed; vm_compute; reflexivity|].
  split; [apply check_renamed; vm_compute; reflexivity|]. split; [exact Rd|]. split; [exact Ps|]. split.
  { assert (D : content_iter s = [(0, ex_root, a); (1, Some (lit "/d/b.bean"), b)]).
    { clear - Rd. vm_compute in Rd. injection Rd as <-. vm_compute. reflexivity. }
    rewrite D. assert (One : forall t x ts, lex P_Lexer.ex_env t = Fine (Some ts) -> dates_in (map fst (ex_lexed t)) = [x] -> check_content P_Lexer.ex_env P_Grammar.ex_env 0 t = true -> keeps_order f (dates_in (map fst ts))).
    { intros t x ts Lx Q Ct. apply ex_lexes in Ct. rewrite Lx in Ct. injection Ct as ->. rewrite Q. intros u v [<-|[]] [<-|[]] B. destruct (before_irrefl _ B). }
    intros id p t ts [Q|[Q|[]]] Lx; injection Q as <- <- <-; (eapply One; [exact Lx|vm_compute; reflexivity|vm_compute; reflexivity]). }
  split; [exact Rd'|]. split; [exact Ps'|].
  clear - X Y. vm_compute in X, Y. injection X as _ <- _ _ _. injection Y as _ <- _ _ _. intro F.
  inversion F as [|? ? ? ? [A _ _] F']; subst. cbv in A. discriminate.
Qed.

Print Assumptions C84_files.
Print Assumptions C84_includes_refuted.
Print Assumptions C84_order_refuted.
Print Assumptions C84_exactly.
