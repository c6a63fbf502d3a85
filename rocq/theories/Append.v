(** * Facts for C72: one ledger after another *)
From Coq Require Import String Ascii.
From Coq Require Import List NArith ZArith Arith Bool Lia Permutation Sorted.
From Verif Require Import Base BaseFacts Text Path PathFacts Sources Types SpecTypes TypesFacts P_Types SortM SpecSort SortFacts P_Sort Options SpecOptions OptionsFacts P_Options
  Pragma SpecPragma PragmaRun P_Pragma Read SpecRead ReadFacts P_Read
  Token Lexer SpecLexer P_Lexer Peg PegFacts Grammar SpecExpr SpecGrammar SpecDirective SpecDisplay SpecLedger SpecAlike P_Grammar
  Parse SpecParse SpecWhole ParseFacts ParseOnce ParseFile P_File P_Includes P_Parse IncludeTokens P_Order P_Complete AlikeRead AlikeFile AlikeWalk AlikeOptions SimCopy SpecPaste Paste P_Paste SpecAppend.
Import SpecPragma Read.
Import ListNotations.
Local Open Scope nat_scope.

(** ** Sorting what is sorted in parts *)
Section Sorting.
  Let keyed (k : date * N) (l : list (spanned directive)) := filter (fun x => match key_compare (directive_key x) k with Eq => true | _ => false end) l.
  Lemma sorted_keyed l out : sorted_from l out -> StronglySorted (fun x y => key_compare (directive_key x) (directive_key y) <> Gt) out /\ forall k, keyed k out = keyed k l.
  Proof.
    intro H. apply sort_sorted in H. destruct (sort_list_spec key_compare directive_key key_compare_laws l) as (o & Q & So & F & _).
    unfold sort_directives in H. rewrite Q in H. injection H as <-. auto.
  Qed.
  Lemma keyed_unique : forall l m, StronglySorted (fun x y => key_compare (directive_key x) (directive_key y) <> Gt) l ->
    StronglySorted (fun x y => key_compare (directive_key x) (directive_key y) <> Gt) m -> (forall k, keyed k l = keyed k m) -> l = m.
  Proof.
    destruct key_compare_laws as (CE & CO & CT).
    assert (Rf : forall k, key_compare k k = Eq) by (intro; apply CE; reflexivity).
    assert (Nil : forall l, (forall k, keyed k l = []) -> l = []).
    { intros [|x l] H; [reflexivity|]. specialize (H (directive_key x)). unfold keyed in H. cbn in H. rewrite Rf in H. discriminate. }
    induction l as [|x l IH]; intros m Sl Sm H; [symmetry; apply Nil; intro k; rewrite <- H; reflexivity|].
    destruct m as [|y m]; [apply Nil; exact H|].
    inversion Sl as [|? ? Sl' Fx]; inversion Sm as [|? ? Sm' Fy]; subst.
    assert (Hin : forall z k l, In z (keyed k l) -> In z l /\ directive_key z = k).
    { intros z k q Hz. apply filter_In in Hz. destruct Hz as [A B]. split; [exact A|]. apply CE. destruct (key_compare (directive_key z) k); congruence. }
    assert (Kx : In x (y :: m)).
    { apply (Hin x (directive_key x)). rewrite <- H. unfold keyed. cbn. rewrite Rf. left. reflexivity. }
    assert (Ky : In y (x :: l)).
    { apply (Hin y (directive_key y)). rewrite H. unfold keyed. cbn. rewrite Rf. left. reflexivity. }
    assert (Le1 : key_compare (directive_key y) (directive_key x) <> Gt).
    { destruct Kx as [->|Kx]; [rewrite Rf; discriminate|]. rewrite Forall_forall in Fy. auto. }
    assert (Le2 : key_compare (directive_key x) (directive_key y) <> Gt).
    { destruct Ky as [->|Ky]; [rewrite Rf; discriminate|]. rewrite Forall_forall in Fx. auto. }
    assert (Kq : directive_key x = directive_key y).
    { apply CE. rewrite CO in Le1. destruct (key_compare (directive_key x) (directive_key y)); cbn in *; congruence. }
    assert (x = y) as ->.
    { pose proof (H (directive_key x)) as Hk. unfold keyed in Hk. cbn in Hk. rewrite <- Kq, !Rf in Hk. injection Hk as -> _. reflexivity. }
    f_equal. apply IH; auto. intro k. specialize (H k). unfold keyed in *. cbn in H. destruct (key_compare (directive_key y) k); congruence.
  Qed.
  Lemma sorted_parts a b a' b' m : sorted_from a a' -> sorted_from b b' -> sorted_from (a' ++ b') m -> sorted_from (a ++ b) m.
  Proof.
    intros Ha Hb Hm. destruct (C01_sort_stable (a ++ b)) as (o & pi & _ & P & M & X). assert (Ho : sorted_from (a ++ b) o) by (exists pi; auto).
    replace m with o; [exact Ho|]. apply sorted_keyed in Ha, Hb, Hm, Ho. destruct Ha as [_ Ha], Hb as [_ Hb], Hm as [Sm Hm], Ho as [So Ho].
    apply keyed_unique; auto. intro k. rewrite Ho, Hm. unfold keyed in *. rewrite !filter_app, Ha, Hb. reflexivity.
  Qed.
  Lemma sorted_swapped a b m m' : sorted_from (a ++ b) m -> sorted_from (b ++ a) m' ->
    (forall x y, In x a -> In y b -> ~ tied (item x) (item y)) -> m = m'.
  Proof.
    intros Hm Hm' Nt. apply sorted_keyed in Hm, Hm'. destruct Hm as [Sm Hm], Hm' as [Sm' Hm']. destruct key_compare_laws as (CE & CO & CT).
    apply keyed_unique; auto. intro k. rewrite Hm, Hm'. unfold keyed. rewrite !filter_app.
    destruct (filter _ a) as [|x la] eqn:Fa; [rewrite app_nil_r; reflexivity|]. destruct (filter _ b) as [|y lb] eqn:Fb; [rewrite app_nil_r; reflexivity|].
    exfalso. assert (Hx : In x (x :: la)) by (left; reflexivity). assert (Hy : In y (y :: lb)) by (left; reflexivity). rewrite <- Fa in Hx. rewrite <- Fb in Hy.
    apply filter_In in Hx, Hy. destruct Hx as [Hx Kx], Hy as [Hy Ky]. apply (Nt x y Hx Hy).
    assert (Qx : directive_key x = k) by (apply CE; destruct (key_compare (directive_key x) k); congruence).
    assert (Qy : directive_key y = k) by (apply CE; destruct (key_compare (directive_key y) k); congruence).
    assert (Rf : key_compare k k = Eq) by (apply CE; reflexivity).
    split; rewrite <- must_precede_key, Qx, Qy, Rf; discriminate.
  Qed.
  Lemma sorted_exists l : exists m, sorted_from l m.
  Proof. destruct (C01_sort_stable l) as (o & pi & _ & P & M & X). exists o, pi. auto. Qed.
End Sorting.

(** ** The events of one ledger, after those of another *)
Section After.
  Context (A : list event) (Le : leftover A []).
  Lemma after_tags t seen : tag_stack t (A ++ seen) = tag_stack t seen.
  Proof. apply leftover_none in Le. destruct Le as [T _]. specialize (T t). unfold tag_stack in *. rewrite fold_left_app, T. reflexivity. Qed.
  Lemma after_metas k seen : meta_stack k (A ++ seen) = meta_stack k seen.
  Proof. apply leftover_none in Le. destruct Le as [_ K]. specialize (K k). unfold meta_stack in *. rewrite fold_left_app, K. reflexivity. Qed.
  Lemma after_yields seen es ds : yields seen es ds -> yields (A ++ seen) es ds.
  Proof.
    intro Y. induction Y as [seen|seen e es d d' ds As Au Sp Y IH|seen e es ds As Y IH]; [constructor| |].
    - rewrite app_assoc in IH. econstructor; [exact As| |exact Sp|exact IH]. destruct Au as [a b c d0 F G H K]. constructor; auto.
      + intro t. rewrite after_tags. apply F.
      + intros k v. rewrite after_metas. apply G.
    - rewrite app_assoc in IH. apply yields_other; assumption.
  Qed.
  Section Dues.
    Context (canonicalize : path -> option path) (globs : list (path * included_glob)) (errors : list (option path * str)).
    Lemma after_dues root ds : Forall (fun d => is_include (item d) = false) ds -> options_of A = [] \/ options_of (map (here root) ds) = [] ->
      forall seen, dues canonicalize globs errors seen (map (here root) ds) [] -> dues canonicalize globs errors (A ++ seen) (map (here root) ds) [].
    Proof.
      intros F. induction F as [|d ds Ni F IH]; intros O seen D; [constructor|]. cbn [map] in *. inversion D as [|? ? ? rs rs' De Dr Q1 Q2]. subst. match goal with H : _ ++ _ = [] |- _ => apply app_eq_nil in H; destruct H as [-> ->] end.
      change (@nil report) with (@nil report ++ []). constructor.
      - cbn in De |- *. destruct (item d) as [x|[]] eqn:It; auto; try discriminate.
        + rewrite after_tags. exact De.
        + rewrite after_metas. exact De.
        + destruct O as [O|O]; [|unfold options_of in O; cbn in O; destruct d as [x sp]; cbn in It; subst x; discriminate].
          unfold options_of in *. rewrite flat_map_app, O. exact De.
      - rewrite <- app_assoc. apply IH; [|exact Dr]. destruct O as [O|O]; [left; exact O|right]. unfold options_of in *. cbn [flat_map] in O. apply app_eq_nil in O. apply O.
    Qed.
  End Dues.
End After.
Lemma dues_app canonicalize globs errors a : forall seen b rs rs', dues canonicalize globs errors seen a rs -> dues canonicalize globs errors (seen ++ a) b rs' ->
  dues canonicalize globs errors seen (a ++ b) (rs ++ rs').
Proof.
  induction a as [|e a IH]; intros seen b rs rs' H H'; inversion H; subst; cbn [app].
  - rewrite app_nil_r in H'. exact H'.
  - rewrite <- app_assoc. constructor; [assumption|]. apply IH; [assumption|]. rewrite <- app_assoc. exact H'.
Qed.
Lemma yields_app a : forall seen b ds ds', yields seen a ds -> yields (seen ++ a) b ds' -> yields seen (a ++ b) (ds ++ ds').
Proof.
  induction a as [|e a IH]; intros seen b ds ds' H H'; inversion H; subst; cbn [app].
  - rewrite app_nil_r in H'. exact H'.
  - econstructor; eauto. apply IH; [assumption|]. rewrite <- app_assoc. exact H'.
  - apply yields_other; auto. apply IH; [assumption|]. rewrite <- app_assoc. exact H'.
Qed.

(** ** A ledger without includes *)
Section Alone.
  Context (L : lexer_env) (E : grammar_env) (En : environment_ok E) (U : unicode_ok (le_unicode L)).
  Context (canonicalize : path -> option path) (root : option path).
  Context (Cano : forall p q c d, same_path p q -> canonicalize p = Some c -> canonicalize q = Some d -> same_path c d).
  Context (Root : forall p, root = Some p -> canonicalize p <> None).
  Context (content : str) (ts : list rtoken) (Lx : lex L content = Fine (Some ts)).
  Let J := input_of 0 content ts.
  Context (Cj : computable E J) (Fj : fine_options J) (No : without K_Include (map fst ts)).
  Let s := mk_sources root content (char_offs 0 content) [] [] [match root with Some p => p | None => lit "inline" end].

  Lemma alone_reads glob_with read n : read_with_includes (includes_of L) glob_with canonicalize read n root content = Some s.
  Proof.
    assert (Inc : includes_of L content = []).
    { unfold includes_of. rewrite C38_includes, Lx. fold J. destruct (included_strings J) as [|x l] eqn:X; [reflexivity|]. exfalso.
      assert (Hx : In x (included_strings J)) by (rewrite X; left; reflexivity). apply in_included in Hx. destruct Hx as (k & [r Tr] & _). apply nth_error_In in Tr.
      apply No. exact (in_map fst _ _ Tr). }
    unfold read_with_includes, read_start, resolved_includes. rewrite Inc. cbn [map rd_pending]. destruct n; reflexivity.
  Qed.
  Lemma alone_reads_to glob_with read n : reads_to (includes_of L) glob_with canonicalize read n root content s.
  Proof. exists s. rewrite alone_reads. repeat split; reflexivity. Qed.
  Lemma alone_fine : forall id f c, In (id, f, c) (content_iter s) -> fine_content L E id c.
  Proof. intros id f c [X|[]]. injection X as <- _ <-. exists ts. auto. Qed.

  (** What is known when such a ledger is a success... *)
  Lemma alone_success ds opts ps ws : ledger_is L E canonicalize root content (Success ds opts ps ws) ->
    exists decls r' po yielded, tiles E J root initial_rules 0 decls [] ws r' /\ Forall (fun d => is_include (item d) = false) decls /\
      dues canonicalize [] [] [] (map (here root) decls) [] /\ leftover (map (here root) decls) [] /\
      yields [] (map (here root) decls) yielded /\ sorted_from yielded ds /\ obeys E po r' /\
      opts = fst (assimilate_all (options_new po) (options_of (map (here root) decls))) /\ ps = plugins_of (map (here root) decls).
  Proof.
    intro H. inversion H as [glob_with read fuel s0 toks res Rd Pn Ps]; subst. rewrite alone_reads in Rd. injection Rd as <-.
    destruct (success_all L E En U glob_with canonicalize read Cano canonicalize fuel root content s (alone_reads_to _ _ _) Root toks _ _ _ _ Pn alone_fine Ps)
      as (decls & others & r' & po & es & rest & yielded & Ti & Nd & W & Du & Le & Y & So & Ob & -> & ->).
    cbn [content_iter] in Ti. remember (@nil report) as errs eqn:Qe in Ti.
    inversion Ti as [|? ? ? ? ts0 ? ? es0 ws0 r1 ? es1 ws1 ? Lx0 T0 Ts]; subst. inversion Ts; subst. match goal with Q : _ ++ _ = [] |- _ => apply app_eq_nil in Q; destruct Q as [-> _] end.
    rewrite Lx in Lx0. injection Lx0 as <-. fold J in T0.
    assert (Np : Forall (fun d => is_include (item d) = false) decls).
    { assert (Nt : forall k, ~ SpecGrammar.tok J k (T_Keyword K_Include)) by (intros k [r X]; apply nth_error_In in X; apply No; exact (in_map fst _ _ X)).
      clear - T0 Nt. remember (@nil report) as e0 eqn:Q0. clear Q0. induction T0 as [|r i j d es r1 ds es' ws r' D T IH]; constructor; auto.
      destruct D as [x e W|k q H Le|k o' e r2 Op Le]; try reflexivity. cbn [item]. destruct H; try reflexivity. exfalso. eapply Nt. eassumption. }
    destruct (proj1 (walk_unique _) _ _ _ _ _ (walk_here root _ decls Np) ltac:(constructor) _ _ W) as [<- <-].
    exists decls, r', po, yielded. rewrite app_nil_r. cbn [included_globs error_paths] in Du. auto 12.
  Qed.

  (** ... and when it is one. *)
  Lemma alone_parses decls ws r' : tiles E J root initial_rules 0 decls [] ws r' -> Forall (fun d => is_include (item d) = false) decls ->
    dues canonicalize [] [] [] (map (here root) decls) [] -> leftover (map (here root) decls) [] ->
    exists po yielded sorted, yields [] (map (here root) decls) yielded /\ sorted_from yielded sorted /\ obeys E po r' /\
      ledger_is L E canonicalize root content (Success sorted (fst (assimilate_all (options_new po) (options_of (map (here root) decls)))) (plugins_of (map (here root) decls)) ws).
  Proof.
    intros T Np Du Le. set (glob_with := fun _ : str => @Err (list glob_item) str []). set (read := fun _ : path => @Err str str []).
    assert (Pn : exists toks, parser_new L s = Fine (Some toks)).
    { pose proof (C30_parser L U glob_with canonicalize read 0 root content s (alone_reads_to _ _ _)) as X. destruct (parser_new L s) as [[t2|]|]; [eauto|contradiction|].
      destruct X as (id & f & c & Hin & Pc). destruct (alone_fine id f c Hin) as (t & Q & _). congruence. }
    destruct Pn as (toks & Pn).
    destruct (C03_parse L E En U glob_with canonicalize read Cano canonicalize 0 root content s (alone_reads_to _ _ _) Root toks Pn alone_fine)
      as (xs & r3 & po & ds2 & opts2 & plugins2 & reports & sorted & Fs & Ob2 & Pp & So2 & X).
    assert (Ti : files_tiled L E initial_rules (content_iter s) [(root, decls)] [] (ws ++ []) r').
    { change (@nil report) with (@nil report ++ []) at 1. econstructor; [exact Lx|exact T|constructor]. }
    destruct (files_tiled_read L E En _ _ _ _ _ _ Ti (obeyed E En) alone_fine _ _ Fs) as (A & B & Cw & ->).
    rewrite A in Pp. assert (N1 : names_distinct [(root, decls)]) by (repeat constructor).
    pose proof (pass_spec canonicalize (included_globs s) (error_paths s) po root [] decls [] N1) as Z. cbn zeta in Z. cbn [app] in Z. rewrite Pp in Z.
    destruct Z as (es2 & rest2 & rs & lft & W2 & Y2 & Du2 & Le2 & -> & -> & ->).
    destruct (proj1 (walk_unique (included_globs s)) _ _ _ _ _ (walk_here root _ decls Np) ltac:(constructor) _ _ W2) as [<- <-].
    pose proof (dues_unique _ _ _ _ _ _ _ Du Du2) as Ar. inversion Ar as [Q0 Q2|]. rewrite <- Q2 in *. clear Ar Q2.
    rewrite (leftover_nil _ _ Le Le2) in *.
    cbn zeta in X. rewrite B, Cw in X. cbn [map app] in X. rewrite app_nil_r in X.
    exists po, ds2, sorted. split; [exact Y2|]. split; [apply sort_sorted; exact So2|]. split; [exact Ob2|].
    apply (ledger_read _ _ _ _ _ glob_with read 0 s toks); [apply alone_reads|exact Pn|exact X].
  Qed.
End Alone.
