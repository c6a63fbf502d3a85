(** * C78: splitting a ledger into files changes nothing *)
From Coq Require Import String Ascii.
From Coq Require Import List NArith ZArith Arith Bool Lia Permutation.
From Verif Require Import Base BaseFacts Text Path PathFacts Sources Types SpecTypes TypesFacts P_Types SortM SpecSort SortFacts P_Sort Options SpecOptions OptionsFacts P_Options
  Pragma SpecPragma PragmaRun P_Pragma Read SpecRead ReadFacts P_Read
  Token Lexer SpecLexer P_Lexer Peg PegFacts Grammar SpecExpr SpecGrammar SpecDirective SpecDisplay SpecLedger SpecAlike P_Grammar
  Parse SpecParse SpecWhole ParseFacts ParseOnce ParseFile P_File P_Includes P_Parse IncludeTokens P_Order P_Complete AlikeRead AlikeFile AlikeWalk AlikeOptions
  Sim SimValues SimGrammar SimFile SimCopy SpecPaste Paste Parts PasteFine P_Paste P_Total SpecAppend Append SpecLocal Local P_Append P_Local SpecSplit Split P_PasteNeeds.
Import SpecPragma Read.
Import ListNotations.
Local Open Scope nat_scope.
Local Notation tok := SpecGrammar.tok.
Local Notation ended := SpecAppend.ended.

(** ** The reports *)
Section Dues.
  Context (root : option path) (canonicalize canonicalize' : path -> option path) (globs globs' : list (path * included_glob)) (errors errors' : list (option path * str)).
  Lemma unstrip_due seen f d seen' d' : is_include (item d) = false -> Forall2 (alike_event any) seen' (strip root seen) -> alike_declaration any d' d ->
    due canonicalize' globs' errors' seen' (here root d') [] -> due canonicalize globs errors seen (Declared f d) [].
  Proof.
    intros Ni F A D. cbn in D |- *. destruct A as [x y Q Q' _ _|p p' Q Q' P]; rewrite Q in D; rewrite Q' in Ni |- *; [reflexivity|].
    destruct P as [x x' S|x x' S|x x' S Rx|x x' S|x x' S|x x' S|x x' S]; try reflexivity; try discriminate.
    - unfold same_item in S. rewrite S in D. pose proof (alike_none _ _ _ (alike_tag_stack any (item x') _ _ F)) as H. rewrite strip_tags in H.
      destruct (tag_stack (item x') seen); [|reflexivity]. rewrite (proj2 H eq_refl) in D. discriminate.
    - unfold same_item in S. rewrite S in D. pose proof (alike_none _ _ _ (alike_meta_stack any (item x') _ _ F)) as H. rewrite strip_metas in H.
      destruct (meta_stack (item x') seen); [|reflexivity]. rewrite (proj2 H eq_refl) in D. discriminate.
    - destruct (due_report (options_of seen') x) eqn:Dr; [discriminate|]. pose proof (alike_options_of any _ _ F) as Qo. rewrite strip_options in Qo.
      rewrite (alike_due_report _ _ _ _ Qo S Dr). reflexivity.
  Qed.
  Lemma unstrip_dues es : Forall (good globs) es -> forall seen seen' ds', dues canonicalize' globs' errors' seen' (map (here root) ds') [] ->
    Forall2 (alike_event any) seen' (strip root seen) -> Forall2 (alike_declaration any) ds' (plain es) -> dues canonicalize globs errors seen es [].
  Proof.
    intro G. induction G as [|e es Ge G IH]; intros seen seen' ds' D F Fe; [constructor|]. change (@nil report) with (@nil report ++ []).
    destruct e as [f d|sp p [k|]]; [| |destruct Ge].
    - unfold plain in Fe. cbn [flat_map] in Fe. fold (plain es) in Fe. destruct (is_include (item d)) eqn:X; cbn [app] in Fe.
      + constructor; [|eapply IH; [exact D| |exact Fe]; rewrite strip_app, strip_cons, X; cbn; rewrite app_nil_r; exact F].
        cbn in Ge |- *. destruct (item d) as [|[]]; try discriminate. destruct (Ge _ eq_refl) as (p & ps & ->). reflexivity.
      + inversion Fe as [|d' ? ds0 ? A Fr]; subst. cbn [map] in D. remember (@nil report) as rs eqn:Qr in D. inversion D as [|? ? ? r1 r2 De Dr]; subst.
        match goal with Q : _ ++ _ = [] |- _ => apply app_eq_nil in Q; destruct Q as [-> ->] end.
        constructor; [eapply unstrip_due; eassumption|]. eapply IH; [exact Dr| |exact Fr]. rewrite strip_app, strip_cons, X. apply Forall2_app; [exact F|]. constructor; [constructor; exact A|constructor].
    - constructor; [reflexivity|]. eapply IH; [exact D| |exact Fe]. rewrite strip_app. unfold strip at 2. cbn. rewrite app_nil_r. exact F.
  Qed.
End Dues.

Section Whole.
  Context (L : lexer_env) (E : grammar_env) (En : environment_ok E) (U : unicode_ok (le_unicode L)).
  Context (glob_with : str -> result (list glob_item) str) (canonicalize : path -> option path) (read : path -> result str str).
  Context (Cano : forall p q c d, same_path p q -> canonicalize p = Some c -> canonicalize q = Some d -> same_path c d).
  Context (Glob : glob_agrees glob_with).
  Context (fuel : nat) (root : option path) (content : str) (s : sources).
  Context (Reads : reads_to (includes_of L) glob_with canonicalize read fuel root content s).
  Context (Root : forall p, root = Some p -> canonicalize p <> None).
  Local Notation an_include := (an_include L s).

  Definition met (f : option path) (text : str) : Prop := exists id c, In (id, f, c) (content_iter s) /\ In text (includes_of L c).
  Lemma globs_met f text items : met f text -> glob_with (resolve_included_path f text) = Ok items ->
    exists ps, glob_of (included_globs s) f text = Some (Expanded ps) /\ Forall2 same_path ps (map item_path items).
  Proof.
    intros (id & c & Hin & Ht) W. destruct (C04_includes_globbed _ _ _ _ _ _ _ _ Reads id f c text Hin Ht) as (g & G).
    pose proof (globs_found L glob_with canonicalize read Glob fuel root content s Reads f text g items G W) as F.
    destruct (read_any_spec _ _ _ _ _ _ _ _ Reads) as (log & H). destruct (ra_globs _ _ _ _ _ _ _ _ H _ _ G) as (q & Sp & _ & Qg). destruct (Glob _ _ _ Sp W) as (items' & W' & _).
    unfold glob_result in Qg. rewrite W' in Qg. subst g. eexists. split; [exact G|exact F].
  Qed.

  Lemma files_made rE : forall cs il tt, tokens_of L cs tt ->
    (forall id f c, In (id, f, c) cs -> fine_content L E id c) ->
    il = map (fun x => match lex L (snd x) with Fine (Some ts) => (snd (fst x), input_of (fst (fst x)) (snd x) ts) | _ => (None, mk_input 0 [] 0) end) cs ->
    tt = map tokened il /\
    forall fl, map in_of fl = il -> Forall (well E rE an_include) fl -> files_tiled L E rE cs (map decls_of fl) [] (flat_map sf_warnings fl) rE.
  Proof.
    intros cs il tt Tk. revert il. induction Tk as [|[[id f] c] [n us] cs tt (Nm & ts & Lx & Us) Tk IH]; intros il Fi ->.
    - split; [reflexivity|]. intros fl Q _. apply map_eq_nil in Q. subst fl. constructor.
    - cbn [fst snd map] in *. rewrite Lx. subst n us. destruct (IH _ (fun id' f' c' H => Fi id' f' c' (or_intror H)) eq_refl) as [-> Z]. split; [reflexivity|].
      intros fl Q Wl. destruct fl as [|x fl]; [discriminate|]. injection Q as Qn Qi Q. pose proof (Forall_inv Wl) as Wx. pose proof (Forall_inv_tail Wl) as Wl'. cbn [map flat_map]. change (@nil report) with (@nil report ++ []).
      unfold decls_of at 1. rewrite Qn. econstructor; [exact Lx| |exact (Z fl Q Wl')]. rewrite <- Qi, <- Qn. apply (wl_tiles _ _ _ _ Wx).
  Qed.

  Lemma files_fine : forall cs tt, tokens_of L cs tt -> Forall (fun x => fine_tokens E (snd x)) tt -> forall id f c, In (id, f, c) cs -> fine_content L E id c.
  Proof.
    intros cs tt Tk. induction Tk as [|[[id0 f0] c0] [n us] cs tt (Nm & ts & Lx & Us) Tk IH]; intros Fi id f c Hin; [destruct Hin|]. cbn [fst snd] in *.
    pose proof (Forall_inv Fi) as F0. pose proof (Forall_inv_tail Fi) as Ft. destruct Hin as [X|Hin]; [|exact (IH Ft id f c Hin)]. injection X as <- <- <-.
    apply (content_tokens L E id0 c0 ts Lx). rewrite <- Us. exact F0.
  Qed.
  Lemma unstrip_leftover es : leftover (strip root es) [] -> leftover es [].
  Proof.
    rewrite !leftover_none. intros [A B]. split; intro x; [rewrite <- (strip_tags root)|rewrite <- (strip_metas root)]; auto.
  Qed.

  (** When the tokens of the files make up, by their includes, those of a text
      which is read without errors, the files are read without errors, and alike.
      Warnings for the texts of includes are added. *)
  Theorem C78_split : forall rts tt content2 ts2 directives2 opts2 plugins2 warnings2,
    ledger_is L E canonicalize root content2 (Success directives2 opts2 plugins2 warnings2) -> fine_content L E 0 content2 -> lex L content2 = Fine (Some ts2) ->
    tokens_of L (content_iter s) ((root, rts) :: tt) ->
    spread glob_with tt root rts (map fst ts2) [] ->
    (forall ts, lex L content = Fine (Some ts) -> rules_first (input_of 0 content ts)) ->
    (forall id f c ts, In (id, f, c) (tl (content_iter s)) -> lex L c = Fine (Some ts) -> ~ sets_rules (input_of id c ts) /\ ~ sets_documents (input_of id c ts)) ->
    exists toks directives opts plugins warnings more,
      parser_new L s = Fine (Some toks) /\
      parse E canonicalize s toks = Fine (Some (Success directives opts plugins warnings)) /\
      Forall2 (fun d d' => alike (item d) (item d')) directives2 directives /\ alike_options opts2 opts /\ Forall2 alike_plugin plugins2 plugins /\
      Permutation (map rp_problem warnings) (map rp_problem warnings2 ++ more) /\
      Forall (fun p => exists by_default limit text, an_include text /\ p = StringTooLong by_default limit (lines_of text)) more.
  Proof.
    intros rts tt content2 ts2 directives2 opts2 plugins2 warnings2 Le2 Fc2 Lx2 Tk Sp Rf No.
    destruct (read_any_spec _ _ _ _ _ _ _ _ Reads) as (log & H).
    assert (Hc : content_iter s = (0, root, content) :: tl (content_iter s)).
    { unfold content_iter. rewrite (ra_root _ _ _ _ _ _ _ _ H), (ra_root_content _ _ _ _ _ _ _ _ H). reflexivity. }
    assert (Wo : without K_Include (map fst ts2)) by (intro X; exact (proj1 (pasted_free glob_with) _ _ _ _ _ (spread_pasted _ _ _ _ _ _ Sp) X)).
    pose proof (proj1 (content_tokens L E 0 content2 ts2 Lx2) Fc2) as Ft2. destruct (spread_fine E _ _ _ _ _ _ Sp Ft2) as [Fr Fo]. specialize (Fo (Forall_nil _)).
    assert (Fi : forall id f c, In (id, f, c) (content_iter s) -> fine_content L E id c) by (apply (files_fine _ _ Tk); constructor; assumption).
    destruct Fc2 as (t & X & C2 & F2). rewrite Lx2 in X. injection X as <-.
    destruct (alone_success L E En U canonicalize root Cano Root content2 ts2 Lx2 C2 F2 Wo _ _ _ _ Le2) as (ds' & rF & po2 & ys & T2 & Np & Du & Lf & Y & So & Ob & -> & ->).
    rewrite Hc in Tk. inversion Tk as [|? ? ? ? (_ & ts0 & Lx0 & Us') Tk']; subst. cbn [fst snd] in *. subst rts.
    assert (F0 : fine_content L E 0 content) by (eapply Fi; rewrite Hc; left; reflexivity). destruct F0 as (t & X & C0 & F0). rewrite Lx0 in X. injection X as <-.
    set (I := input_of 0 content ts0) in *. set (J := input_of 0 content2 ts2) in *.
    assert (Me : meets met an_include root I).
    { intros k t T1 T3. assert (In t (includes_of L content)) by (unfold includes_of; rewrite C38_includes, Lx0; apply (in_included I); exists k; auto).
      split; [exists 0, content|exists 0, root, content]; (split; [rewrite Hc; left; reflexivity|assumption]). }
    destruct (files_made initial_rules _ _ _ Tk' ltac:(intros; eapply Fi; rewrite Hc; right; eassumption) eq_refl) as [Qt _].
    assert (Fit : Forall (fit E met an_include) (map (fun x => match lex L (snd x) with Fine (Some ts) => (snd (fst x), input_of (fst (fst x)) (snd x) ts) | _ => (None, mk_input 0 [] 0) end) (tl (content_iter s)))).
    { apply Forall_map. apply Forall_forall. intros [[id f] c] Hin. cbn [fst snd]. assert (Hin' : In (id, f, c) (content_iter s)) by (rewrite Hc; right; exact Hin).
      destruct (Fi _ _ _ Hin') as (t & X & Cx & Fx). rewrite X. destruct (No _ _ _ _ Hin X). constructor; auto. cbn [fst snd]. intros k u T1 T3.
      assert (In u (includes_of L c)) by (unfold includes_of; rewrite C38_includes, X; apply (in_included (input_of 0 c t)); exists k; auto).
      split; [exists id, c|exists id, f, c]; auto. }
    destruct (root_core E En root (included_globs s) glob_with met globs_met I J C0 F0 C2 F2 an_include Me ltac:(intros a b Ta Hab; exact (Rf ts0 Lx0 a b Ta Hab)) initial_rules tt _ _ _ _ ds' warnings2 rF
      (kin_initial E En) Sp Qt Fit) as (il1 & rE & Q1 & _ & Ki & Rd); [split; [apply Nat.le_0_l|reflexivity]|split; [apply Nat.le_0_l|reflexivity]|exact T2|].
    symmetry in Q1. apply map_eq_nil in Q1. subst il1. destruct (Rd [] eq_refl (Forall_nil _)) as (fl & ds & ws & es & more & Qf & Wl & T0 & W & Al & Go & Lo & Pe).
    destruct (files_made rE _ _ _ Tk' ltac:(intros; eapply Fi; rewrite Hc; right; eassumption) eq_refl) as [_ Z]. pose proof (Z fl Qf Wl) as Tf.
    assert (Ti : files_tiled L E initial_rules (content_iter s) ((root, ds) :: map decls_of fl) [] (ws ++ flat_map sf_warnings fl) rE).
    { rewrite Hc. change (@nil report) with (@nil report ++ []). econstructor; [exact Lx0|exact T0|exact Tf]. }
    assert (Pn : exists toks, parser_new L s = Fine (Some toks)).
    { pose proof (C30_parser L U glob_with canonicalize read fuel root content s Reads) as X. destruct (parser_new L s) as [[t2|]|]; [eauto|contradiction|].
      destruct X as (id & f & c & Hin & Pc). destruct (Fi id f c Hin) as (t & Q & _). congruence. }
    destruct Pn as (toks & Pn).
    destruct (C03_parse L E En U glob_with canonicalize read Cano canonicalize fuel root content s Reads Root toks Pn Fi)
      as (xs & r3 & po & ds3 & opts3 & plugins3 & reports & sorted & Fs & Ob3 & Pp & So3 & X).
    destruct (files_tiled_read L E En _ _ _ _ _ _ Ti (obeyed E En) Fi _ _ Fs) as (A & B & Cw & ->).
    destruct (shape_of L E glob_with canonicalize read Cano canonicalize fuel root content s Reads Root xs _ Fs) as (rootds' & b & Sh & Nd). rewrite A in Sh. cbn [app] in Sh, Nd. injection Sh as <- <-.
    rewrite A in Pp. pose proof (pass_spec canonicalize (included_globs s) (error_paths s) po root [] ds (map decls_of fl) Nd) as Z3. cbn zeta in Z3. cbn [app] in Z3. rewrite Pp in Z3.
    destruct Z3 as (es3 & rest3 & rs & lft & W3 & Y3 & Du3 & Le3 & -> & -> & ->).
    destruct (proj1 (walk_unique (included_globs s)) _ _ _ _ _ W (names_distinct_app_r [(root, ds)] _ Nd) _ _ W3) as [<- <-].
    pose proof (alike_here root _ _ Al) as Ae. fold (strip root es) in Ae.
    pose proof (unstrip_dues root canonicalize canonicalize (included_globs s) [] (error_paths s) [] es Go [] [] ds' Du (Forall2_nil _) Al) as Du'.
    pose proof (dues_unique _ _ _ _ _ _ _ Du' Du3) as Ar. inversion Ar as [Q0 Q2|]. rewrite <- Q2 in *. clear Ar Q2.
    pose proof (unstrip_leftover es (alike_leftover any _ _ Ae Lf)) as Le'. rewrite (leftover_nil _ _ Le' Le3) in *.
    cbn zeta in X. rewrite B, Cw in X. cbn [map app] in X.
    exists toks, sorted, (fst (assimilate_all (options_new po) (options_of es))), (plugins_of es), (ws ++ flat_map sf_warnings fl), more.
    split; [exact Pn|]. split; [exact X|]. split; [|split; [|split; [|split; [|exact Lo]]]].
    - eapply alike_sorted; [|exact So|apply sort_sorted; exact So3]. eapply alike_yields; [exact Y|apply Forall2_nil|exact Ae|]. exact (strip_yields root [] es _ Y3).
    - pose proof (alike_assimilate_all (options_of (map (here root) ds')) (options_of es) (options_new po2) (options_new po)) as Fo3.
      destruct Fo3; [rewrite <- (strip_options root es); eapply alike_options_of; exact Ae|apply alike_fields_new|].
      assert (Po : forall p os, os_parser_options (fst (assimilate_all (options_new p) os)) = p).
      { intros p os. pose proof (C12_first_wins p os) as Q. cbn zeta in Q. tauto. }
      constructor; auto.
      + intro t. unfold options_account_type_name. rewrite !Po. rewrite (proj1 (ob_named _ _ _ Ob)), (proj1 (ob_named _ _ _ Ob3)). f_equal.
        destruct Ki as (p1 & p2 & O1 & O2 & [Qn _]). pose proof (proj1 (ob_named _ _ _ O1) t) as M1. pose proof (proj1 (ob_named _ _ _ O2) t) as M2. rewrite Qn in M1. congruence.
      + unfold options_long_string_maxlines. rewrite !Po. pose proof (kin_limit _ _ _ Ki) as Q. rewrite <- (ob_limit _ _ _ Ob), <- (ob_limit _ _ _ Ob3) in Q. unfold line_limit in Q.
        destruct (po_maxlines po), (po_maxlines po2); cbn in *; try discriminate; auto.
    - rewrite <- (strip_plugins root es). eapply alike_plugins_of. exact Ae.
    - unfold problems in Pe. cbn [flat_map] in Pe. rewrite app_nil_r in Pe. exact Pe.
  Qed.

  (** The files are read without errors if and only if the text is. *)
  Theorem C78_both : forall rts tt content2 ts2,
    fine_content L E 0 content2 -> lex L content2 = Fine (Some ts2) ->
    tokens_of L (content_iter s) ((root, rts) :: tt) ->
    spread glob_with tt root rts (map fst ts2) [] ->
    (forall ts, lex L content = Fine (Some ts) -> rules_first (input_of 0 content ts)) ->
    (forall id f c ts, In (id, f, c) (tl (content_iter s)) -> lex L c = Fine (Some ts) -> ~ sets_rules (input_of id c ts) /\ ~ sets_documents (input_of id c ts)) ->
    ((exists toks directives opts plugins warnings, parser_new L s = Fine (Some toks) /\ parse E canonicalize s toks = Fine (Some (Success directives opts plugins warnings))) <->
     (exists directives opts plugins warnings, ledger_is L E canonicalize root content2 (Success directives opts plugins warnings))).
  Proof.
    intros rts tt content2 ts2 Fc Lx Tk Sp Rf No. split.
    - intros (toks & directives & opts & plugins & warnings & Pn & Ps).
      pose proof (proj1 (content_tokens L E 0 content2 ts2 Lx) Fc) as Ft. destruct (spread_fine E _ _ _ _ _ _ Sp Ft) as [Fr Fo]. specialize (Fo (Forall_nil _)).
      assert (Fi : forall id f c, In (id, f, c) (content_iter s) -> fine_content L E id c) by (apply (files_fine _ _ Tk); constructor; assumption).
      destruct (C69_paste L E En U glob_with canonicalize read Cano Glob canonicalize fuel root content s Reads Root toks directives opts plugins warnings rts tt _ [] content2 ts2 glob_with read fuel
        Pn Fi Ps Rf No Tk (spread_pasted _ _ _ _ _ _ Sp) Lx eq_refl) as (_ & s2 & toks2 & d2 & o2 & p2 & w2 & _ & Rd & _ & Pn2 & Ps2 & _).
      exists d2, o2, p2, w2. econstructor; eassumption.
    - intros (directives & opts & plugins & warnings & H).
      destruct (C78_split rts tt content2 ts2 _ _ _ _ H Fc Lx Tk Sp Rf No) as (toks & d & o & p & w & _ & Pn & Ps & _). exists toks, d, o, p, w. auto.
  Qed.
End Whole.

(** ** Examples *)
Lemma spread_one glob_with p f text items k ts a b : ~ In (T_Keyword K_Include) a -> ~ In (T_Keyword K_Include) b -> ~ In (T_Keyword K_Include) ts ->
  afresh_next a -> afresh_next b -> afresh_next (ts ++ [T_Eol]) -> ended a ->
  glob_with (resolve_included_path f text) = Ok items -> map item_path items = [p] -> same_path p k ->
  spread glob_with [(Some k, ts ++ [T_Eol])] f (a ++ T_Keyword K_Include :: T_String text :: T_Eol :: b) (a ++ (ts ++ [T_Eol]) ++ b) [].
Proof.
  intros Na Nb Nt Aa Ab At Ea G Qi Sp.
  change (T_Keyword K_Include :: T_String text :: T_Eol :: b) with (T_Keyword K_Include :: T_String text :: [T_Eol] ++ b).
  apply (spread_include glob_with _ f a text [T_Eol] b items [(Some k, ts ++ [T_Eol])] [] (ts ++ [T_Eol]) [] b []); auto.
  - intros ->. discriminate.
  - rewrite Qi. apply (all_found_cons fst [] p k (Some k, ts ++ [T_Eol]) [] [] [] []); [reflexivity|exact Sp|constructor].
  - cbn [rev app]. rewrite <- (app_nil_r (ts ++ [T_Eol])) at 2. econstructor; [|apply full_ended|constructor]. constructor; [|exact At].
    unfold without. rewrite in_app_iff. intros [X|[X|[]]]; [auto|discriminate].
  - constructor; assumption.
Qed.
Definition starts_indented (ts : list token) : bool := match ts with T_Indent :: _ => true | _ => false end.
Lemma not_indented ts : starts_indented ts = false -> afresh_next ts.
Proof. intros H vs ->. discriminate. Qed.

Lemma ex_spread : spread ex_glob [(Some (lit "/d/b.bean"), map fst (ex_lexed ex_other))] (Some (lit "/d/a.bean")) (map fst (ex_lexed ex_root)) (map fst (ex_lexed ex_flat)) [].
Proof.
  assert (X : forall n l, In (T_Keyword K_Include) (firstn n l) -> existsb (fun t => match t with T_Keyword K_Include => true | _ => false end) (firstn n l) = true).
  { intros n l H. apply existsb_exists. exists (T_Keyword K_Include). auto. }
  pose (r := map fst (ex_lexed ex_root)). pose (o := map fst (ex_lexed ex_other)).
  assert (Qr : map fst (ex_lexed ex_root) = firstn 7 r ++ T_Keyword K_Include :: T_String (lit "b.bean") :: T_Eol :: firstn 50 (skipn 10 r)) by (vm_compute; reflexivity).
  assert (Qo : map fst (ex_lexed ex_other) = firstn (List.length o - 1) o ++ [T_Eol]) by (vm_compute; reflexivity).
  assert (Qf : map fst (ex_lexed ex_flat) = firstn 7 r ++ (firstn (List.length o - 1) o ++ [T_Eol]) ++ firstn 50 (skipn 10 r)) by (vm_compute; reflexivity).
  rewrite Qr, Qo, Qf. apply (spread_one ex_glob (lit "/d/b.bean") (Some (lit "/d/a.bean")) (lit "b.bean") [G_Ok (lit "/d/b.bean")] (lit "/d/b.bean"));
    [| | | | | | |vm_compute; reflexivity|reflexivity|reflexivity]; try (intro H; apply X in H; vm_compute in H; discriminate H); try (apply not_indented; vm_compute; reflexivity).
  right. exists (firstn 6 r). vm_compute. reflexivity.
Qed.
Definition run_flat : outcome (option parsed_as) :=
  match read_with_includes (includes_of P_Lexer.ex_env) ex_glob ex_canonicalize ex_read 5 (Some (lit "/d/a.bean")) ex_flat with
  | Some s => match parser_new P_Lexer.ex_env s with
              | Fine (Some toks) => parse P_Grammar.ex_env ex_canonicalize s toks
              | _ => Panic
              end
  | None => Panic
  end.
Lemma run_flat_is r : run_flat = Fine (Some r) -> ledger_is P_Lexer.ex_env ex_env ex_canonicalize (Some (lit "/d/a.bean")) ex_flat r.
Proof.
  unfold run_flat. intro A. destruct (read_with_includes _ _ _ _ _ _ ex_flat) as [s2|] eqn:R2; [|discriminate A]. destruct (parser_new P_Lexer.ex_env s2) as [[t2|]|] eqn:P2; [|discriminate A|discriminate A].
  econstructor; eassumption.
Qed.
Lemma ex_flat_success : exists ds opts, run_flat = Fine (Some (Success ds opts [] [])) /\ List.length ds = 3.
Proof. eexists _, _. split; [vm_compute; reflexivity|reflexivity]. Qed.
(** A text which is read without errors, and two files over which it is spread. *)
Example ex_split : exists s ts2 ds opts rts tt,
  reads_to (includes_of P_Lexer.ex_env) ex_glob ex_canonicalize ex_read 5 (Some (lit "/d/a.bean")) ex_root s /\
  ledger_is P_Lexer.ex_env ex_env ex_canonicalize (Some (lit "/d/a.bean")) ex_flat (Success ds opts [] []) /\
  fine_content P_Lexer.ex_env ex_env 0 ex_flat /\ lex P_Lexer.ex_env ex_flat = Fine (Some ts2) /\
  tokens_of P_Lexer.ex_env (content_iter s) ((Some (lit "/d/a.bean"), rts) :: tt) /\
  spread ex_glob tt (Some (lit "/d/a.bean")) rts (map fst ts2) [] /\
  (forall ts, lex P_Lexer.ex_env ex_root = Fine (Some ts) -> rules_first (input_of 0 ex_root ts)) /\
  (forall id f c ts, In (id, f, c) (tl (content_iter s)) -> lex P_Lexer.ex_env c = Fine (Some ts) -> ~ sets_rules (input_of id c ts) /\ ~ sets_documents (input_of id c ts)) /\
  num_sources s = 2 /\ List.length ds = 3.
Proof.
  destruct ex_success as (? & ? & R & _). destruct (run_inv _ _ R) as (s & ? & Rd & _). clear R.
  destruct (ex_two_files s Rd) as [Nu Fa]. destruct (ex_two_tokens s Rd) as [Tk No].
  destruct ex_flat_success as (ds & opts & A & Ld).
  exists s, (ex_lexed ex_flat), ds, opts, (map fst (ex_lexed ex_root)), [(Some (lit "/d/b.bean"), map fst (ex_lexed ex_other))].
  split; [exists s; (split; [exact Rd|]); do 5 (split; [reflexivity|]); apply Permutation_refl|].
  split; [exact (run_flat_is _ A)|]. split; [apply check_content_ok; vm_compute; reflexivity|].
  split; [vm_compute; reflexivity|]. split; [exact Tk|]. split; [exact ex_spread|]. split; [|split; [exact No|split; [exact Nu|exact Ld]]].
  intros ts Lx. apply options_first_ok. vm_compute in Lx. injection Lx as <-. vm_compute. reflexivity.
Qed.

(** If the included file sets the name of an account type, the lines after the
    include are read in another way. *)
Theorem C78_rules_refuted : exists L E root name a b c es ws' ds opts ps ws,
  unicode_ok (le_unicode L) /\ environment_ok E /\ pasted_by_hand L E root name a b c (Failure es ws') (Success ds opts ps ws).
Proof.
  set (i := lit "include ""b.bean""" ++ [10%N]). set (b := lit "option ""name_assets"" ""Actifs""" ++ [10%N]). set (d := lit "2024-01-02 open Actifs:Cash" ++ [10%N]).
  destruct (run_with (lit "/d/b.bean") b (i ++ d)) as [[[|es ws']|]|] eqn:A; try (vm_compute in A; discriminate A).
  destruct (run_with (lit "/d/b.bean") b (b ++ d)) as [[[ds opts ps ws|]|]|] eqn:C; try (vm_compute in C; discriminate C).
  exists P_Lexer.ex_env, P_Grammar.ex_env, (Some (lit "/d/a.bean")), (lit "/d/b.bean"), (i ++ d), b, (b ++ d), es, ws', ds, opts, ps, ws.
  split; [exact P_Lexer.arabic_ok|]. split; [exact P_File.ex_environment|]. by_hand_tac (lit "b.bean").
Qed.
(** If a directive is put into the included file, but not the lines which belong
    to it, the files are not read without errors: nothing else is wrong. *)
Theorem C78_lines_refuted : exists L E root name a b c es ws' ds opts ps ws,
  unicode_ok (le_unicode L) /\ environment_ok E /\ pasted_by_hand L E root name a b c (Failure es ws') (Success ds opts ps ws) /\
  (forall tb, lex L b = Fine (Some tb) -> ~ sets_rules (input_of 1 b tb) /\ ~ sets_documents (input_of 1 b tb)).
Proof.
  set (d := lit "2024-01-02 open Assets:Cash" ++ [10%N]).
  set (i := lit "include ""b.bean""" ++ [10%N]). set (k := lit "  key: 1" ++ [10%N]).
  destruct (run_with (lit "/d/b.bean") d (i ++ k)) as [[[|es ws']|]|] eqn:A; try (vm_compute in A; discriminate A).
  destruct (run_with (lit "/d/b.bean") d (d ++ k)) as [[[ds opts ps ws|]|]|] eqn:C; try (vm_compute in C; discriminate C).
  exists P_Lexer.ex_env, P_Grammar.ex_env, (Some (lit "/d/a.bean")), (lit "/d/b.bean"), (i ++ k), d, (d ++ k), es, ws', ds, opts, ps, ws.
  split; [exact P_Lexer.arabic_ok|]. split; [exact P_File.ex_environment|]. split.
  { eapply (by_hand_runs _ (lit "b.bean") _ _ _ 0); [eassumption|eassumption|vm_compute; reflexivity|vm_compute; reflexivity|vm_compute; reflexivity|vm_compute; reflexivity|vm_compute; reflexivity|vm_compute; repeat split; reflexivity]. }
  intros tb Lx. vm_compute in Lx. injection Lx as <-. split; [apply P_Order.check_rules_ok|apply check_documents_ok]; vm_compute; reflexivity.
Qed.

Print Assumptions C78_split.
Print Assumptions C78_both.
Print Assumptions C78_rules_refuted.
Print Assumptions C78_lines_refuted.
