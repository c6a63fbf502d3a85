(** * C69: an include is as good as the text of the files it includes *)
From Coq Require Import String Ascii.
From Coq Require Import List NArith ZArith Arith Bool Lia Permutation.
From Verif Require Import Base BaseFacts Text Path PathFacts Sources Types SpecTypes TypesFacts P_Types SortM SpecSort P_Sort Options SpecOptions OptionsFacts P_Options
  Pragma SpecPragma PragmaRun P_Pragma Read SpecRead ReadFacts P_Read
  Token Lexer SpecLexer P_Lexer Peg PegFacts Grammar SpecExpr SpecGrammar SpecDirective SpecDisplay SpecLedger SpecAlike P_Grammar
  Parse SpecParse SpecWhole ParseFacts ParseOnce ParseFile P_File P_Includes P_Parse IncludeTokens P_Order P_Complete AlikeRead AlikeFile AlikeWalk AlikeOptions SimCopy SpecPaste Paste Parts PasteFine.
Import SpecPragma Read.
Import ListNotations.
Local Open Scope nat_scope.

(** ** The events, without the includes *)
Section Events.
  Context (root : option path).
  Definition here (d : spanned declaration) : event := Declared root d.
  Definition strip (es : list event) : list event := map here (plain es).
  Lemma strip_app a b : strip (a ++ b) = strip a ++ strip b.
  Proof. unfold strip. rewrite plain_app, map_app. reflexivity. Qed.
  Lemma strip_cons f d es : strip (Declared f d :: es) = if is_include (item d) then strip es else here d :: strip es.
  Proof. unfold strip. cbn [plain flat_map]. destruct (is_include (item d)); reflexivity. Qed.
  Lemma strip_tags t es : tag_stack t (strip es) = tag_stack t es.
  Proof.
    unfold tag_stack. generalize (@nil (spanned str)) as st. induction es as [|[f d|sp p k] es IH]; intro st; [reflexivity| |exact (IH st)].
    rewrite strip_cons. destruct (is_include (item d)) eqn:X; cbn [fold_left]; [|apply IH]. rewrite IH. f_equal. cbn [tag_effect]. destruct (item d) as [|[]]; try discriminate. reflexivity.
  Qed.
  Lemma strip_metas t es : meta_stack t (strip es) = meta_stack t es.
  Proof.
    unfold meta_stack. generalize (@nil (span * spanned meta_value)) as st. induction es as [|[f d|sp p k] es IH]; intro st; [reflexivity| |exact (IH st)].
    rewrite strip_cons. destruct (is_include (item d)) eqn:X; cbn [fold_left]; [|apply IH]. rewrite IH. f_equal. cbn [meta_effect]. destruct (item d) as [|[]]; try discriminate. reflexivity.
  Qed.
  Lemma strip_options es : options_of (strip es) = options_of es.
  Proof.
    unfold options_of. induction es as [|[f d|sp p k] es IH]; [reflexivity| |exact IH].
    rewrite strip_cons. destruct (is_include (item d)) eqn:X; cbn [flat_map]; rewrite IH; [|reflexivity]. destruct d as [x sp]. cbn in X. destruct x as [|[]]; try discriminate. reflexivity.
  Qed.
  Lemma strip_plugins es : plugins_of (strip es) = plugins_of es.
  Proof.
    unfold plugins_of. induction es as [|[f d|sp p k] es IH]; [reflexivity| |exact IH].
    rewrite strip_cons. destruct (is_include (item d)) eqn:X; cbn [flat_map]; rewrite IH; [|reflexivity]. destruct d as [x sp]. cbn in X. destruct x as [|[]]; try discriminate. reflexivity.
  Qed.
  Lemma strip_augmented seen d d' : augmented seen d d' -> augmented (strip seen) d d'.
  Proof.
    intros [A B C D F G H K]. constructor; auto.
    - intro t. rewrite strip_tags. apply F.
    - intros k v. rewrite strip_metas. apply G.
  Qed.
  Lemma strip_yields seen es ds : yields seen es ds -> yields (strip seen) (strip es) ds.
  Proof.
    intro Y. induction Y as [seen|seen e es d d' ds As Au Sp Y IH|seen e es ds As Y IH]; [constructor| |].
    - rewrite strip_app in IH. destruct e as [f x|sp p k]; [|discriminate]. cbn in As.
      assert (Q : plain [Declared f x] = [x]) by (cbn; destruct (item x); [reflexivity|discriminate]).
      change (Declared f x :: es) with ([Declared f x] ++ es). rewrite strip_app. unfold strip at 2. unfold strip at 2 in IH. rewrite Q in *. cbn [map app] in *.
      eapply yields_directive; [exact As|apply strip_augmented; exact Au|exact Sp|exact IH].
    - rewrite strip_app in IH. destruct e as [f x|sp p k]; [|unfold strip at 2 in IH; cbn [plain flat_map map app] in IH; rewrite app_nil_r in IH; exact IH].
      change (Declared f x :: es) with ([Declared f x] ++ es). rewrite strip_app. unfold strip at 2. unfold strip at 2 in IH. cbn [plain flat_map app] in *.
      destruct (is_include (item x)) eqn:X; cbn [map app] in *.
      + rewrite app_nil_r in IH. exact IH.
      + apply yields_other; [|exact IH]. cbn in *. destruct (item x); [discriminate|reflexivity].
  Qed.
  Lemma strip_leftover es : leftover es [] -> leftover (strip es) [].
  Proof. rewrite !leftover_none. intros [A B]. split; intro; [rewrite strip_tags|rewrite strip_metas]; auto. Qed.

  Lemma alike_here ds ds' : Forall2 (alike_declaration any) ds ds' -> Forall2 (alike_event any) (map here ds) (map here ds').
  Proof. intro F. induction F; constructor; auto. constructor. assumption. Qed.

  Section Dues.
    Context (canonicalize : path -> option path) (globs globs' : list (path * included_glob)) (errors errors' : list (option path * str)).
    Lemma strip_due seen f d seen' d' : is_include (item d) = false -> Forall2 (alike_event any) (strip seen) seen' -> alike_declaration any d d' ->
      due canonicalize globs errors seen (Declared f d) [] -> due canonicalize globs' errors' seen' (here d') [].
    Proof.
      intros Ni F A D. cbn in D |- *. destruct A as [x y Q Q' _ _|p p' Q Q' P]; rewrite Q in D, Ni; rewrite Q'; [reflexivity|].
      destruct P as [x x' S|x x' S|x x' S Rx|x x' S|x x' S|x x' S|x x' S]; try reflexivity; try discriminate.
      - unfold same_item in S. rewrite S in D. pose proof (alike_none _ _ _ (alike_tag_stack any (item x') _ _ F)) as H. rewrite strip_tags in H.
        destruct (tag_stack (item x') seen'); [|reflexivity]. rewrite (proj2 H eq_refl) in D. discriminate.
      - unfold same_item in S. rewrite S in D. pose proof (alike_none _ _ _ (alike_meta_stack any (item x') _ _ F)) as H. rewrite strip_metas in H.
        destruct (meta_stack (item x') seen'); [|reflexivity]. rewrite (proj2 H eq_refl) in D. discriminate.
      - destruct (due_report (options_of seen) x) eqn:Dr; [discriminate|]. pose proof (alike_options_of any _ _ F) as Qo. rewrite strip_options in Qo.
        rewrite (alike_due_report _ _ _ _ Qo S Dr). reflexivity.
    Qed.
    Lemma strip_dues seen es : dues canonicalize globs errors seen es [] -> forall seen' ds', Forall2 (alike_event any) (strip seen) seen' -> Forall2 (alike_declaration any) (plain es) ds' ->
      dues canonicalize globs' errors' seen' (map here ds') [].
    Proof.
      intro D. remember (@nil report) as rs eqn:Q in D. revert Q. induction D as [seen|seen e es rs rs' De D IH]; intros Q seen' ds' F Fe.
      - inversion Fe; subst. constructor.
      - apply app_eq_nil in Q. destruct Q as [-> ->]. specialize (IH eq_refl). rewrite strip_app in IH.
        destruct e as [f d|sp p k]; [|apply IH; [unfold strip at 2; cbn; rewrite app_nil_r; exact F|exact Fe]].
        unfold strip at 2 in IH. cbn [plain flat_map app] in *. destruct (is_include (item d)) eqn:X; cbn [map app] in *.
        + apply IH; [rewrite app_nil_r; exact F|exact Fe].
        + inversion Fe as [|? d' ? ds0 A Fr]; subst. cbn [map]. change (@nil report) with (@nil report ++ []). constructor; [eapply strip_due; eassumption|].
          apply IH; [|exact Fr]. apply Forall2_app; [exact F|]. constructor; [constructor; exact A|constructor].
    Qed.
  End Dues.

  Lemma plain_no_include es : Forall (fun d => is_include (item d) = false) (plain es).
  Proof.
    unfold plain. apply Forall_forall. intros d H. apply in_flat_map in H. destruct H as ([f x|sp p k] & _ & H); [|destruct H].
    destruct (is_include (item x)) eqn:X; [destruct H|]. destruct H as [<-|[]]. exact X.
  Qed.
  Lemma walk_here globs ds : Forall (fun d => is_include (item d) = false) ds -> walk globs [] root ds (map here ds) [].
  Proof. intro F. induction F; cbn [map]; [constructor|]. apply walk_plain; assumption. Qed.
End Events.

(** There is no include in what is pasted. *)
Lemma full_in us vs x : full_lines us vs -> In x vs -> In x us \/ x = T_Eol.
Proof. intros [|ts|ts t _] H; auto. apply in_app_iff in H. rewrite in_app_iff. cbn in *. intuition. Qed.
Lemma pasted_free glob_with :
  (forall t f ts us t', pasted glob_with t f ts us t' -> ~ In (T_Keyword K_Include) us) /\
  (forall t fs us t', pasted_files glob_with t fs us t' -> ~ In (T_Keyword K_Include) us).
Proof.
  split.
  - apply (pasted_mind glob_with (fun _ _ _ us _ => ~ In (T_Keyword K_Include) us) (fun _ _ us _ => ~ In (T_Keyword K_Include) us)); auto.
    + intros t f x ts us t' N _ IH [H|H]; auto.
    + intros t f text eol ts items fs t1 us1 t2 us2 t3 _ _ _ _ A _ B H. apply in_app_iff in H. tauto.
    + intros t f ts fs us vs t1 ws t2 _ A Fu _ B H. apply in_app_iff in H. destruct H as [H|H]; [|auto]. destruct (full_in _ _ _ Fu H); [auto|discriminate].
  - apply (pasted_files_mind glob_with (fun _ _ _ us _ => ~ In (T_Keyword K_Include) us) (fun _ _ us _ => ~ In (T_Keyword K_Include) us)); auto.
    + intros t f x ts us t' N _ IH [H|H]; auto.
    + intros t f text eol ts items fs t1 us1 t2 us2 t3 _ _ _ _ A _ B H. apply in_app_iff in H. tauto.
    + intros t f ts fs us vs t1 ws t2 _ A Fu _ B H. apply in_app_iff in H. destruct H as [H|H]; [|auto]. destruct (full_in _ _ _ Fu H); [auto|discriminate].
Qed.
Lemma tiles_obeys E (En : environment_ok E) I f r i ds es ws r' : computable E I -> fine_options I -> (exists po, obeys E po r) -> tiles E I f r i ds es ws r' -> exists po, obeys E po r'.
Proof.
  intros C0 F0 X T. induction T as [r i F|r i j d es r1 ds es' ws r' D T IH]; [exact X|]. apply IH. eapply declares_obeys; [exact En|exact C0|exact F0|exact X|exact D].
Qed.
Lemma in_included I s : In s (included_strings I) <-> exists k, tok I k (T_Keyword K_Include) /\ tok I (S k) (T_String s).
Proof.
  unfold included_strings. rewrite in_flat_map. split.
  - intros (k & _ & H). exists k. unfold included_at in H. destruct (nth_error (in_tokens I) k) as [[t r]|] eqn:X; [|destruct H].
    destruct t; try (destruct H; fail). match goal with H : context [match ?q with _ => _ end] |- _ => destruct q; try (destruct H; fail) end.
    destruct (nth_error (in_tokens I) (S k)) as [[t r']|] eqn:Y; [|destruct H]. destruct t; try (destruct H; fail). destruct H as [<-|[]]. split; eexists; eassumption.
  - intros (k & [r T] & [r' T']). exists k. split.
    + apply in_seq. assert (nth_error (in_tokens I) k <> None) by congruence. apply nth_error_Some in H. lia.
    + unfold included_at. rewrite T, T'. left. reflexivity.
Qed.

(** The glob of an include which is met is known. *)
Lemma walk_globbed globs :
  (forall t f ds es t', walk globs t f ds es t' -> forall f0 d text, In (Declared f0 d) es -> item d = D_Pragma (P_Include text) -> exists g, glob_of globs f0 (item text) = Some g) /\
  (forall t fs es t', walks globs t fs es t' -> forall f0 d text, In (Declared f0 d) es -> item d = D_Pragma (P_Include text) -> exists g, glob_of globs f0 (item text) = Some g).
Proof.
  apply walk_walks_ind; try (intros; contradiction).
  - intros t f d ds es t' Ni _ IH f0 d0 text [X|X] It; [|eauto]. injection X as <- <-. rewrite It in Ni. discriminate.
  - intros t f d text ds g offered fs t1 es1 t2 es2 t3 It G O _ IH1 _ IH2 f0 d0 text0 [X|X] It0.
    + injection X as <- <-. rewrite It in It0. injection It0 as <-. eauto.
    + apply in_app_iff in X. destruct X as [X|X]; [|apply in_app_iff in X; destruct X; eauto].
      exfalso. clear - O X. induction O; cbn in X; intuition discriminate.
  - intros t f ds fs es1 t1 es2 t2 _ IH1 _ IH2 f0 d text X It. apply in_app_iff in X. destruct X; eauto.
Qed.

Section Whole.
  Context (L : lexer_env) (E : grammar_env) (En : environment_ok E) (U : unicode_ok (le_unicode L)).
  Context (glob_with : str -> result (list glob_item) str) (canonicalize : path -> option path) (read : path -> result str str).
  Context (Cano : forall p q c d, same_path p q -> canonicalize p = Some c -> canonicalize q = Some d -> same_path c d).
  Context (Glob : glob_agrees glob_with).
  Context (canonicalize' : path -> option path).
  Context (fuel : nat) (root : option path) (content : str) (s : sources).
  Context (Reads : reads_to (includes_of L) glob_with canonicalize read fuel root content s).
  Context (Root : forall p, root = Some p -> canonicalize p <> None).

  (** A text after an include, in one of the files. *)
  Definition an_include (text : str) : Prop := exists id f c, In (id, f, c) (content_iter s) /\ In text (includes_of L c).

  Lemma globs_found f text g items : glob_of (included_globs s) f text = Some g -> glob_with (resolve_included_path f text) = Ok items ->
    Forall2 same_path (expansion g) (map item_path items).
  Proof.
    intros G W. destruct (read_any_spec _ _ _ _ _ _ _ _ Reads) as (log & H). unfold glob_of in G.
    destruct (ra_globs _ _ _ _ _ _ _ _ H _ _ G) as (q & Sp & _ & ->). destruct (Glob _ _ _ Sp W) as (items' & W' & F).
    unfold glob_result. rewrite W'. cbn. clear - F. induction F as [|i j l m X F IH]; constructor; auto. symmetry. exact X.
  Qed.

  Lemma files_filed rE : (exists po, obeys E po rE) -> forall cs r fs es ws r', files_tiled L E r cs fs es ws r' -> r = rE -> es = [] ->
    (forall id f c, In (id, f, c) cs -> fine_content L E id c /\ In (id, f, c) (content_iter s)) ->
    (forall id f c ts, In (id, f, c) cs -> lex L c = Fine (Some ts) -> ~ sets_rules (input_of id c ts) /\ ~ sets_documents (input_of id c ts)) ->
    forall tt, tokens_of L cs tt ->
    r' = rE /\ exists fl, fs = map decls_of fl /\ tt = map toks_of fl /\ ws = flat_map sf_warnings fl /\ Forall (well E rE an_include) fl.
  Proof.
    intros Ob cs r fs es ws r' T. induction T as [r|r id f c ts cs ds es ws r1 fs es' ws' r' Lx T Ts IH]; intros -> Q Fi No tt Tk.
    - split; [reflexivity|]. inversion Tk; subst. exists []. auto.
    - apply app_eq_nil in Q. destruct Q as [-> ->]. inversion Tk as [|? [n us] ? tt' (Nm & ts' & Lx' & Us) Tk']; subst. cbn [fst snd] in *. rewrite Lx in Lx'. injection Lx' as <-. subst n us.
      destruct (Fi id f c (or_introl eq_refl)) as [(ts' & Lx' & Co & Fo) Hin]. rewrite Lx in Lx'. injection Lx' as <-.
      destruct (No id f c ts (or_introl eq_refl) Lx) as [Nr Nd].
      assert (r1 = rE) as ->.
      { eapply (tiles_settled E En _ _ _ _ _ _ _ _ Co Fo Ob); [|exact T]. intros b _ (n & v & Sr). apply Nr. exists b, n, v. exact Sr. }
      destruct (IH eq_refl eq_refl) with (tt := tt') as (-> & fl & -> & -> & -> & Wl); auto.
      { intros id' f' c' H. apply (Fi id' f' c'). right. exact H. }
      { intros id' f' c' ts' H. apply (No id' f' c' ts'). right. exact H. }
      split; [reflexivity|]. exists (mk_file f (input_of id c ts) ds ws :: fl). split; [reflexivity|]. split; [reflexivity|]. split; [reflexivity|].
      constructor; [|exact Wl]. constructor; cbn; auto. intros k t Ti Tt. exists id, f, c. split; [exact Hin|]. unfold includes_of. rewrite C38_includes, Lx.
      apply (in_included (input_of 0 c ts)). exists k. auto.
  Qed.

  Lemma success_all toks directives opts plugins warnings :
    parser_new L s = Fine (Some toks) -> (forall id f c, In (id, f, c) (content_iter s) -> fine_content L E id c) ->
    parse E canonicalize' s toks = Fine (Some (Success directives opts plugins warnings)) ->
    exists rootds others r' po es rest yielded,
      files_tiled L E initial_rules (content_iter s) ((root, rootds) :: others) [] warnings r' /\ names_distinct ((root, rootds) :: others) /\
      walk (included_globs s) others root rootds es rest /\ dues canonicalize' (included_globs s) (error_paths s) [] es [] /\ leftover es [] /\
      yields [] es yielded /\ sorted_from yielded directives /\ obeys E po r' /\
      opts = fst (assimilate_all (options_new po) (options_of es)) /\ plugins = plugins_of es.
  Proof.
    intros Pn Fi Ps. pose proof (C50_success_sound L E En U glob_with canonicalize read Cano canonicalize' fuel root content s Reads Root toks _ _ _ _ Pn Fi Ps) as Su.
    destruct Su as [rootds others r' po es rest yielded directives warnings Ti W Du Le Y So Ob]. rewrite (root_name L glob_with canonicalize read fuel root content s Reads) in *.
    exists rootds, others, r', po, es, rest, yielded. split; [exact Ti|]. split; [|auto 11].
    destruct (C03_parse L E En U glob_with canonicalize read Cano canonicalize' fuel root content s Reads Root toks Pn Fi) as (xs & r2 & _ & _ & _ & _ & _ & _ & Fs & _).
    destruct (files_tiled_read L E En _ _ _ _ _ _ Ti (obeyed E En) Fi _ _ Fs) as (A & _).
    destruct (shape_of L E glob_with canonicalize read Cano canonicalize' fuel root content s Reads Root xs r2 Fs) as (rootds' & b & Sh & Nd). rewrite A in Sh. cbn [app] in Sh, Nd.
    injection Sh as <- <-. exact Nd.
  Qed.

  (** What is read from the text in which the includes have been replaced, from
      any file system, is alike.  All the files have been pasted.  Warnings for
      the texts of includes are missing. *)
  Theorem C69_paste : forall toks directives opts plugins warnings rts tt us left content2 ts2 glob2 read2 fuel2,
    parser_new L s = Fine (Some toks) -> (forall id f c, In (id, f, c) (content_iter s) -> fine_content L E id c) ->
    parse E canonicalize' s toks = Fine (Some (Success directives opts plugins warnings)) ->
    (forall ts, lex L content = Fine (Some ts) -> rules_first (input_of 0 content ts)) ->
    (forall id f c ts, In (id, f, c) (tl (content_iter s)) -> lex L c = Fine (Some ts) -> ~ sets_rules (input_of id c ts) /\ ~ sets_documents (input_of id c ts)) ->
    tokens_of L (content_iter s) ((root, rts) :: tt) ->
    pasted glob_with tt root rts us left ->
    lex L content2 = Fine (Some ts2) -> map fst ts2 = us ->
    left = [] /\
    exists s2 toks2 directives2 opts2 plugins2 warnings2 more,
      read_with_includes (includes_of L) glob2 canonicalize read2 fuel2 root content2 = Some s2 /\ num_sources s2 = 1 /\
      parser_new L s2 = Fine (Some toks2) /\
      parse E canonicalize' s2 toks2 = Fine (Some (Success directives2 opts2 plugins2 warnings2)) /\
      Forall2 (fun d d' => alike (item d) (item d')) directives directives2 /\ alike_options opts opts2 /\ Forall2 alike_plugin plugins plugins2 /\
      Permutation (map rp_problem warnings) (map rp_problem warnings2 ++ more) /\
      Forall (fun p => exists by_default limit text, an_include text /\ p = StringTooLong by_default limit (lines_of text)) more.
  Proof.
    intros toks directives opts plugins warnings rts tt us left content2 ts2 glob2 read2 fuel2 Pn Fi Ps Rf No Tk Pa Lx2 Us.
    destruct (success_all _ _ _ _ _ Pn Fi Ps) as (rootds & others & rE & po & es & rest & yielded & Ti & Nd & W & Du & Le & Y & So & Ob & -> & ->).
    destruct (read_any_spec _ _ _ _ _ _ _ _ Reads) as (log & H).
    pose proof (nothing_left L E En glob_with canonicalize read Cano Glob canonicalize' fuel root content s Reads Root rootds others warnings rE es rest Fi Ti Nd W Du log H) as ->.
    assert (Hc : content_iter s = (0, root, content) :: tl (content_iter s)).
    { unfold content_iter. rewrite (ra_root _ _ _ _ _ _ _ _ H), (ra_root_content _ _ _ _ _ _ _ _ H). reflexivity. }
    (* the files *)
    assert (Fc2 : fine_content L E 0 content2).
    { apply (content_tokens L E 0 content2 ts2 Lx2). rewrite Us. pose proof (files_fair L E En _ _ _ _ _ _ Ti (obeyed E En) Fi _ Tk) as Ff. inversion Ff as [|? ? [Fa Fb] Fr]; subst. exact (pasted_fine E glob_with _ _ _ _ _ Pa Fr Fa Fb). }
    rewrite Hc in Ti, Tk. remember (@nil report) as errs eqn:Qe in Ti.
    inversion Ti as [|? ? ? ? ts0 ? ? es0 ws0 r1 ? es1 ws1 ? Lx0 T0 Ts]; subst. match goal with Q : _ ++ _ = [] |- _ => apply app_eq_nil in Q; destruct Q as [-> ->] end.
    inversion Tk as [|? ? ? ? (_ & ts' & Lx' & Us') Tk']; subst. cbn [fst snd] in *. rewrite Lx0 in Lx'. injection Lx' as <-. subst rts.
    assert (Fr : fine_content L E 0 content) by (eapply Fi; rewrite Hc; left; reflexivity).
    destruct Fr as (ts' & Lx' & C0 & F0). rewrite Lx0 in Lx'. injection Lx' as <-.
    destruct Fc2 as (ts' & Lx' & C2 & F2). rewrite Lx2 in Lx'. injection Lx' as <-.
    set (I := input_of 0 content ts0) in *. set (J := input_of 0 content2 ts2) in *.
    assert (Ob1 : exists po, obeys E po r1).
    { eapply tiles_obeys; [exact En|exact C0|exact F0|exact (obeyed E En)|exact T0]. }
    assert (Fi' : forall id f c, In (id, f, c) (tl (content_iter s)) -> fine_content L E id c /\ In (id, f, c) (content_iter s)).
    { intros id f c Hin. rewrite Hc. split; [apply (Fi id f c); rewrite Hc; right; exact Hin|right; exact Hin]. }
    destruct (files_filed r1 Ob1 _ _ _ _ _ _ Ts eq_refl eq_refl Fi' No tt Tk') as (-> & fl & -> & -> & -> & Wl).
    (* the core *)
    destruct (proj1 (Paste.core E En root (included_globs s) r1 Ob1 glob_with globs_found J C2 F2 an_include) _ _ _ _ _ W I initial_rules 0 ws0 fl (map fst ts2) left)
      as (fl1 & Q1 & -> & _ & _ & _ & Rd); auto.
    { apply (names_distinct_app_r [(root, rootds)]). exact Nd. }
    { exact (obeyed E En). }
    { intros a b _ Ta Hab. exact (Rf ts0 Lx0 a b Ta Hab). }
    { intros k t Tk1 Tk2. exists 0, root, content. split; [rewrite Hc; left; reflexivity|]. unfold includes_of. rewrite C38_includes, Lx0. apply (in_included I). exists k. auto. }
    symmetry in Q1. apply map_eq_nil in Q1. subst fl1. split; [reflexivity|].
    assert (K0 : kin E initial_rules initial_rules).
    { destruct (obeyed E En) as [p0 X]. exists p0, p0. repeat split; apply X. }
    assert (R0 : rest_at J 0 (map fst ts2 ++ [])) by (rewrite app_nil_r; split; [apply Nat.le_0_l|reflexivity]).
    assert (Cl : closes (map fst ts2) [] []).
    { destruct (last_cases (map fst ts2)) as [->|(u & t & ->)]; [constructor|]. destruct (token_eol_dec t) as [->|Ne]; constructor; exact Ne. }
    destruct (Rd initial_rules 0 [] [] K0 R0 Cl ltac:(discriminate)) as (ds' & ws' & k' & r2 & more & Ru & Rk & Ki & Al & Lo & Pe).
    assert (Fk : finished J k') by (apply rest_finished in Rk; unfold finished; apply nth_error_None; lia).
    pose proof (runs_tiles _ _ _ _ _ _ _ _ _ Ru Fk) as T2.
    (* the text *)
    set (s2 := mk_sources root content2 (char_offs 0 content2) [] [] [match root with Some p => p | None => lit "inline" end]).
    assert (Inc2 : includes_of L content2 = []).
    { unfold includes_of. rewrite C38_includes, Lx2. fold J. destruct (included_strings J) as [|x l] eqn:X; [reflexivity|]. exfalso.
      assert (Hx : In x (included_strings J)) by (rewrite X; left; reflexivity). apply in_included in Hx. destruct Hx as (k & [r Tr] & _). apply nth_error_In in Tr.
      apply (proj1 (pasted_free glob_with) _ _ _ _ _ Pa). exact (in_map fst _ _ Tr). }
    assert (Rs2 : forall n, read_with_includes (includes_of L) glob2 canonicalize read2 n root content2 = Some s2).
    { intro n. unfold read_with_includes, read_start, resolved_includes. rewrite Inc2. cbn [map rd_pending]. destruct n; reflexivity. }
    assert (Reads2 : reads_to (includes_of L) glob2 canonicalize read2 fuel2 root content2 s2) by (exists s2; rewrite Rs2; repeat split; reflexivity).
    assert (Fi2 : forall id f c, In (id, f, c) (content_iter s2) -> fine_content L E id c).
    { intros id f c [X|[]]. injection X as <- _ <-. exists ts2. auto. }
    assert (Pn2 : exists toks2, parser_new L s2 = Fine (Some toks2)).
    { pose proof (C30_parser L U glob2 canonicalize read2 fuel2 root content2 s2 Reads2) as X. destruct (parser_new L s2) as [[t2|]|]; [eauto|contradiction|].
      destruct X as (id & f & c & Hin & Pc). destruct (Fi2 id f c Hin) as (t & Q & _). congruence. }
    destruct Pn2 as (toks2 & Pn2).
    destruct (C03_parse L E En U glob2 canonicalize read2 Cano canonicalize' fuel2 root content2 s2 Reads2 Root toks2 Pn2 Fi2)
      as (xs & r3 & po2 & ds2 & opts2 & plugins2 & reports & sorted & Fs & Ob2 & Pp & So2 & X).
    assert (Ti2 : files_tiled L E initial_rules (content_iter s2) [(root, ds')] [] (ws' ++ []) r2).
    { change (@nil report) with (@nil report ++ []) at 1. econstructor; [exact Lx2|exact T2|constructor]. }
    destruct (files_tiled_read L E En _ _ _ _ _ _ Ti2 (obeyed E En) Fi2 _ _ Fs) as (A & B & Cw & ->).
    rewrite A in Pp. assert (N1 : names_distinct [(root, ds')]) by (repeat constructor).
    pose proof (pass_spec canonicalize' (included_globs s2) (error_paths s2) po2 root [] ds' [] N1) as Z. cbn zeta in Z. cbn [app] in Z. rewrite Pp in Z.
    destruct Z as (es2 & rest2 & rs & lft & W2 & Y2 & Du2 & Le2 & -> & -> & ->).
    assert (Np : Forall (fun d => is_include (item d) = false) ds').
    { pose proof (plain_no_include es) as Np. clear - Np Al. induction Al as [|d d' l l' Ad Al IH]; constructor; inversion Np; subst; auto. rewrite <- (alike_include _ _ _ Ad). assumption. }
    assert (N0 : names_distinct []) by constructor.
    destruct (proj1 (walk_unique (included_globs s2)) _ _ _ _ _ (walk_here root _ ds' Np) N0 _ _ W2) as [<- <-].
    pose proof (alike_here root _ _ Al) as Ae. fold (strip root es) in Ae.
    pose proof (strip_dues root canonicalize' _ (included_globs s2) _ (error_paths s2) [] es Du [] ds' (Forall2_nil _) Al) as Du'.
    pose proof (dues_unique _ _ _ _ _ _ _ Du' Du2) as Ar. inversion Ar as [Q0 Q2|]. rewrite <- Q2 in *. clear Ar Q2.
    pose proof (alike_leftover any _ _ Ae (strip_leftover root es Le)) as Le'. rewrite (leftover_nil _ _ Le' Le2) in *.
    cbn zeta in X. rewrite B, Cw in X. cbn [map app] in X. rewrite app_nil_r in X.
    exists s2, toks2, sorted, (fst (assimilate_all (options_new po2) (options_of (map (here root) ds')))), (plugins_of (map (here root) ds')), ws', more.
    split; [apply Rs2|]. split; [reflexivity|]. split; [exact Pn2|]. split; [exact X|]. split; [|split; [|split; [|split; [|exact Lo]]]].
    - eapply alike_sorted; [|exact So|apply sort_sorted; exact So2]. eapply alike_yields; [|apply Forall2_nil|exact Ae|exact Y2]. exact (strip_yields root [] es _ Y).
    - pose proof (alike_assimilate_all (options_of es) (options_of (map (here root) ds')) (options_new po) (options_new po2)) as Fo.
      destruct Fo; [rewrite <- (strip_options root es); eapply alike_options_of; exact Ae|apply alike_fields_new|].
      assert (Po : forall p os, os_parser_options (fst (assimilate_all (options_new p) os)) = p).
      { intros p os. pose proof (C12_first_wins p os) as Q. cbn zeta in Q. tauto. }
      constructor; auto.
      + intro t. unfold options_account_type_name. rewrite !Po. rewrite (proj1 (ob_named _ _ _ Ob)), (proj1 (ob_named _ _ _ Ob2)). f_equal.
        destruct Ki as (p1 & p2 & O1 & O2 & [Qn _]). pose proof (proj1 (ob_named _ _ _ O1) t) as M1. pose proof (proj1 (ob_named _ _ _ O2) t) as M2. rewrite Qn in M1. congruence.
      + unfold options_long_string_maxlines. rewrite !Po. pose proof (kin_limit _ _ _ Ki) as Q. rewrite <- (ob_limit _ _ _ Ob), <- (ob_limit _ _ _ Ob2) in Q. unfold line_limit in Q.
        destruct (po_maxlines po), (po_maxlines po2); cbn in *; try discriminate; auto.
    - rewrite <- (strip_plugins root es). eapply alike_plugins_of. exact Ae.
    - unfold problems in Pe. rewrite app_nil_r in Pe. exact Pe.
  Qed.

  (** There is always something to paste: the includes are lines of their own,
      and their globs are good. *)
  Theorem C69_can_be_pasted : forall toks directives opts plugins warnings rts tt,
    parser_new L s = Fine (Some toks) -> (forall id f c, In (id, f, c) (content_iter s) -> fine_content L E id c) ->
    parse E canonicalize' s toks = Fine (Some (Success directives opts plugins warnings)) ->
    (forall id f c ts, In (id, f, c) (tl (content_iter s)) -> lex L c = Fine (Some ts) -> ~ sets_rules (input_of id c ts) /\ ~ sets_documents (input_of id c ts)) ->
    tokens_of L (content_iter s) ((root, rts) :: tt) ->
    exists us, pasted glob_with tt root rts us [].
  Proof.
    intros toks directives opts plugins warnings rts tt Pn Fi Ps No Tk.
    destruct (success_all _ _ _ _ _ Pn Fi Ps) as (rootds & others & rE & po & es & rest & yielded & Ti & Nd & W & Du & _).
    destruct (read_any_spec _ _ _ _ _ _ _ _ Reads) as (log & H).
    pose proof (nothing_left L E En glob_with canonicalize read Cano Glob canonicalize' fuel root content s Reads Root rootds others warnings rE es rest Fi Ti Nd W Du log H) as ->.
    assert (Hc : content_iter s = (0, root, content) :: tl (content_iter s)).
    { unfold content_iter. rewrite (ra_root _ _ _ _ _ _ _ _ H), (ra_root_content _ _ _ _ _ _ _ _ H). reflexivity. }
    rewrite Hc in Ti, Tk. remember (@nil report) as errs eqn:Qe in Ti.
    inversion Ti as [|? ? ? ? ts0 ? ? es0 ws0 r1 ? es1 ws1 ? Lx0 T0 Ts]; subst. match goal with Q : _ ++ _ = [] |- _ => apply app_eq_nil in Q; destruct Q as [-> ->] end.
    inversion Tk as [|? ? ? ? (_ & ts' & Lx' & Us') Tk']; subst. cbn [fst snd] in *. rewrite Lx0 in Lx'. injection Lx' as <-. subst rts.
    assert (Fr : fine_content L E 0 content) by (eapply Fi; rewrite Hc; left; reflexivity).
    destruct Fr as (ts' & Lx' & C0 & F0). rewrite Lx0 in Lx'. injection Lx' as <-.
    assert (Ob1 : exists po, obeys E po r1).
    { eapply tiles_obeys; [exact En|exact C0|exact F0|exact (obeyed E En)|exact T0]. }
    assert (Fi' : forall id f c, In (id, f, c) (tl (content_iter s)) -> fine_content L E id c /\ In (id, f, c) (content_iter s)).
    { intros id f c Hin. rewrite Hc. split; [apply (Fi id f c); rewrite Hc; right; exact Hin|right; exact Hin]. }
    destruct (files_filed r1 Ob1 _ _ _ _ _ _ Ts eq_refl eq_refl Fi' No tt Tk') as (-> & fl & -> & -> & -> & Wl).
    assert (Gb : globbed glob_with es).
    { intros f d text Hin It. destruct (proj1 (walk_globbed _) _ _ _ _ _ W f d text Hin It) as (g & G). destruct (dues_none _ _ _ _ Du _ Hin) as (seen & D).
      cbn in D. rewrite It, G in D. unfold glob_of in G. destruct (ra_globs _ _ _ _ _ _ _ _ H _ _ G) as (q & Sp & _ & ->). unfold glob_result in D.
      destruct (glob_with q) as [items|e] eqn:Q; [|discriminate]. destruct (Glob q (resolve_included_path f (item text)) items) as (items' & X & _); [symmetry; exact Sp|exact Q|]. eauto. }
    destruct (proj1 (pastes E En (included_globs s) r1 Ob1 glob_with globs_found an_include) _ _ _ _ _ W (input_of 0 content ts0) initial_rules 0 ws0 fl eq_refl Wl T0 (obeyed E En) C0 F0 Gb)
      as (fl1 & us & Q & _ & Pa).
    symmetry in Q. apply map_eq_nil in Q. subst fl1. exists us. exact Pa.
  Qed.
End Whole.

(** ** A case: the name of an account type is set before the include, and a tag is
    in force around it. *)
Definition ex_flat : str :=
  lit "option ""name_assets"" ""Actifs""" ++ [10%N] ++ lit "pushtag #trip" ++ [10%N] ++
  lit "2024-01-03 close Actifs:Cash" ++ [10%N] ++ lit "2023-12-31 * ""a""" ++ [10%N] ++
  lit "poptag #trip" ++ [10%N] ++ lit "2024-01-02 open Actifs:Cash" ++ [10%N].
Definition ex_lexed (c : str) : list rtoken := match lex P_Lexer.ex_env c with Fine (Some ts) => ts | _ => [] end.
Definition check_documents (I : input) : bool :=
  forallb (fun i => negb match nth_error (in_tokens I) i, nth_error (in_tokens I) (S i) with
    | Some (T_Keyword K_Option, _), Some (T_String name, _) => str_eqb name (lit "documents")
    | _, _ => false
    end) (seq 0 (List.length (in_tokens I))).
Lemma check_documents_ok I : check_documents I = true -> ~ sets_documents I.
Proof.
  intros H (i & [r T] & [r1 T1]). unfold check_documents in H. rewrite forallb_forall in H.
  assert (Lt : i < List.length (in_tokens I)) by (apply nth_error_Some; congruence).
  specialize (H i ltac:(apply in_seq; lia)). rewrite T, T1 in H. rewrite str_eqb_refl in H. discriminate.
Qed.
(** No option comes after an include. *)
Fixpoint options_first (ts : list token) (seen : bool) : bool :=
  match ts with
  | [] => true
  | T_Keyword K_Include :: ts => options_first ts true
  | T_Keyword K_Option :: ts => negb seen && options_first ts seen
  | _ :: ts => options_first ts seen
  end.
Lemma options_first_seen ts : options_first ts true = true -> ~ In (T_Keyword K_Option) ts.
Proof.
  induction ts as [|t ts IH]; intros H X; [destruct X|]. destruct X as [->|X]; [discriminate|]. apply IH; [|exact X].
  cbn in H. destruct t; try exact H. match goal with k : keyword |- _ => destruct k; try exact H end. discriminate.
Qed.
Lemma options_first_ok I : options_first (map fst (in_tokens I)) false = true -> rules_first I.
Proof.
  intros H i j [r Ti] Lt (name & value & [r' Tj] & _).
  apply (map_nth_error fst) in Ti. apply (map_nth_error fst) in Tj. cbn in Ti, Tj.
  revert i j Ti Tj Lt H. generalize false as b. induction (map fst (in_tokens I)) as [|t ts IH]; intros b i j Ti Tj Lt H; [destruct i; discriminate|].
  destruct i as [|i], j as [|j]; try lia; cbn [nth_error] in Ti, Tj.
  - injection Ti as ->. apply nth_error_In in Tj. exact (options_first_seen ts H Tj).
  - cbn in H. destruct t; try (eapply (IH _ i j Ti Tj ltac:(lia)); exact H).
    match goal with k : keyword |- _ => destruct k; try (eapply (IH _ i j Ti Tj ltac:(lia)); exact H) end. apply andb_true_iff in H. eapply (IH _ i j Ti Tj ltac:(lia)); apply H.
Qed.

Lemma ex_two_tokens s : read_with_includes (includes_of P_Lexer.ex_env) ex_glob ex_canonicalize ex_read 5 (Some (lit "/d/a.bean")) ex_root = Some s ->
  tokens_of P_Lexer.ex_env (content_iter s) [(Some (lit "/d/a.bean"), map fst (ex_lexed ex_root)); (Some (lit "/d/b.bean"), map fst (ex_lexed ex_other))] /\
  (forall id f c ts, In (id, f, c) (tl (content_iter s)) -> lex P_Lexer.ex_env c = Fine (Some ts) -> ~ sets_rules (input_of id c ts) /\ ~ sets_documents (input_of id c ts)).
Proof.
  intro Q. vm_compute in Q. injection Q as <-. split.
  - constructor; [|constructor; [|constructor]]; (split; [reflexivity|]); eexists; (split; [vm_compute; reflexivity|vm_compute; reflexivity]).
  - intros id f c ts [X|[]] Lx. injection X as <- <- <-. vm_compute in Lx. injection Lx as <-. split; [apply check_rules_ok|apply check_documents_ok]; vm_compute; reflexivity.
Qed.
Lemma pasted_one glob_with p f text items k ts a b : ~ In (T_Keyword K_Include) a -> ~ In (T_Keyword K_Include) b -> ~ In (T_Keyword K_Include) ts ->
  glob_with (resolve_included_path f text) = Ok items -> map item_path items = [p] -> same_path p k ->
  pasted glob_with [(Some k, ts ++ [T_Eol])] f (a ++ T_Keyword K_Include :: T_String text :: T_Eol :: b) (a ++ (ts ++ [T_Eol]) ++ b) [].
Proof.
  intros Na Nb Nt G Qi Sp. apply pasted_prepend; [exact Na|]. apply (pasted_include glob_with _ f text [T_Eol] b items [(Some k, ts ++ [T_Eol])] [] (ts ++ [T_Eol]) []).
  - left. reflexivity.
  - exact G.
  - rewrite Qi. apply (found_new [] p k _ [] []); [exact Sp|]. constructor.
  - cbn [rev app]. rewrite <- (app_nil_r (ts ++ [T_Eol])) at 2. econstructor; [|apply full_ended|constructor].
    rewrite <- (app_nil_r (ts ++ [T_Eol])). apply pasted_prepend; [|constructor]. rewrite in_app_iff. intros [X|[X|[]]]; [auto|discriminate].
  - rewrite <- (app_nil_r b). apply pasted_prepend; [exact Nb|constructor].
Qed.
Lemma ex_pasted : pasted ex_glob [(Some (lit "/d/b.bean"), map fst (ex_lexed ex_other))] (Some (lit "/d/a.bean")) (map fst (ex_lexed ex_root)) (map fst (ex_lexed ex_flat)) [].
Proof.
  assert (X : forall n l, In (T_Keyword K_Include) (firstn n l) -> existsb (fun t => match t with T_Keyword K_Include => true | _ => false end) (firstn n l) = true).
  { intros n l H. apply existsb_exists. exists (T_Keyword K_Include). auto. }
  pose (r := map fst (ex_lexed ex_root)). pose (o := map fst (ex_lexed ex_other)).
  assert (Qr : map fst (ex_lexed ex_root) = firstn 7 r ++ T_Keyword K_Include :: T_String (lit "b.bean") :: T_Eol :: firstn 50 (skipn 10 r)) by (vm_compute; reflexivity).
  assert (Qo : map fst (ex_lexed ex_other) = firstn (List.length o - 1) o ++ [T_Eol]) by (vm_compute; reflexivity).
  assert (Qf : map fst (ex_lexed ex_flat) = firstn 7 r ++ (firstn (List.length o - 1) o ++ [T_Eol]) ++ firstn 50 (skipn 10 r)) by (vm_compute; reflexivity).
  rewrite Qr, Qo, Qf. apply (pasted_one ex_glob (lit "/d/b.bean") (Some (lit "/d/a.bean")) (lit "b.bean") [G_Ok (lit "/d/b.bean")] (lit "/d/b.bean"));
    [| | |vm_compute; reflexivity|reflexivity|reflexivity]; intro H; apply X in H; vm_compute in H; discriminate H.
Qed.
Example ex_paste : exists s toks ds opts rts tt us ts2,
  reads_to (includes_of P_Lexer.ex_env) ex_glob ex_canonicalize ex_read 5 (Some (lit "/d/a.bean")) ex_root s /\
  parser_new P_Lexer.ex_env s = Fine (Some toks) /\
  (forall id f c, In (id, f, c) (content_iter s) -> fine_content P_Lexer.ex_env ex_env id c) /\
  parse ex_env ex_canonicalize s toks = Fine (Some (Success ds opts [] [])) /\
  (forall ts, lex P_Lexer.ex_env ex_root = Fine (Some ts) -> rules_first (input_of 0 ex_root ts)) /\
  (forall id f c ts, In (id, f, c) (tl (content_iter s)) -> lex P_Lexer.ex_env c = Fine (Some ts) -> ~ sets_rules (input_of id c ts) /\ ~ sets_documents (input_of id c ts)) /\
  tokens_of P_Lexer.ex_env (content_iter s) ((Some (lit "/d/a.bean"), rts) :: tt) /\
  pasted ex_glob tt (Some (lit "/d/a.bean")) rts us [] /\
  lex P_Lexer.ex_env ex_flat = Fine (Some ts2) /\ map fst ts2 = us /\ fine_content P_Lexer.ex_env ex_env 0 ex_flat /\
  num_sources s = 2 /\ List.length ds = 3.
Proof.
  destruct ex_success as (ds & opts & R & Ds & _). destruct (run_inv _ _ R) as (s & toks & Rd & P & Ps). clear R.
  destruct (ex_two_files s Rd) as [Nu Fa]. destruct (ex_two_tokens s Rd) as [Tk No].
  exists s, toks, ds, opts, (map fst (ex_lexed ex_root)), [(Some (lit "/d/b.bean"), map fst (ex_lexed ex_other))], (map fst (ex_lexed ex_flat)), (ex_lexed ex_flat).
  split; [exists s; (split; [exact Rd|]); do 5 (split; [reflexivity|]); apply Permutation_refl|]. split; [exact P|].
  split; [exact Fa|]. split; [exact Ps|]. split; [|split; [exact No|]].
  { intros ts Lx. apply options_first_ok. vm_compute in Lx. injection Lx as <-. vm_compute. reflexivity. }
  split; [exact Tk|]. split; [exact ex_pasted|]. split; [vm_compute; reflexivity|]. split; [reflexivity|]. split; [apply check_content_ok; vm_compute; reflexivity|].
  split; [exact Nu|]. rewrite <- (map_length summary), Ds. reflexivity.
Qed.

Print Assumptions C69_paste.
Print Assumptions C69_can_be_pasted.
