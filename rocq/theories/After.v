(** * Facts for C79: the pragmas of a text, after another text *)
From Coq Require Import String Ascii.
From Coq Require Import List NArith ZArith Arith Bool Lia Permutation.
From Verif Require Import Base BaseFacts Text Path PathFacts Sources Types SpecTypes TypesFacts P_Types SortM SpecSort SortFacts P_Sort Options SpecOptions OptionsFacts P_Options
  Pragma SpecPragma PragmaRun P_Pragma Read SpecRead ReadFacts P_Read
  Token Lexer SpecLexer P_Lexer Peg PegFacts Grammar SpecExpr SpecGrammar SpecDirective SpecDisplay SpecLedger SpecAlike P_Grammar
  Parse SpecParse SpecWhole ParseFacts ParseOnce ParseFile P_File P_Includes P_Parse IncludeTokens P_Order P_Complete AlikeRead AlikeFile AlikeWalk AlikeOptions Sim SimFile SimCopy SpecPaste Paste P_Paste SpecAppend Append SimShift SpecAfter.
Import SpecPragma Read.
Import ListNotations.
Local Open Scope nat_scope.

Lemma told_elements n es es' : same_told_at n es es' -> same_elements (same_complaint n) es es'.
Proof.
  unfold same_told_at. intro H. apply Permutation_sym, Permutation_map_inv in H. destruct H as (m & Q & P). exists m. split; [exact P|]. clear P. revert es' Q.
  induction m as [|c m IH]; intros [|d es'] Q; try discriminate; constructor; cbn in Q; injection Q as Q0 Q; [|apply IH; exact Q].
  destruct c, d; cbn in *; try discriminate; [congruence|split; congruence].
Qed.

Section Events.
  Context (root : option path).
  Local Notation declared_alike := (alike_declared any).
  Lemma declared_tags t l l' : Forall2 declared_alike l l' -> List.length (tag_stack t (map (here root) l)) = List.length (tag_stack t (map (here root) l')).
  Proof.
    intro F. unfold tag_stack. assert (H : forall st st' : list (spanned str), List.length st = List.length st' ->
      List.length (fold_left (tag_effect t) (map (here root) l) st) = List.length (fold_left (tag_effect t) (map (here root) l') st')); [|apply H; reflexivity].
    induction F as [|d d' l l' A F IH]; intros st st' Hs; [exact Hs|]. cbn [map fold_left]. apply IH. cbn.
    destruct A as [x y -> -> _|p p' -> -> P]; [exact Hs|]. destruct P as [x x' S|x x' S|x x' S Rx|x x' S|x x' S|x x' S|x x' S]; try exact Hs; unfold same_item in S; rewrite S;
      destruct (str_eqb _ _); try exact Hs; [cbn; congruence|destruct st, st'; cbn in *; congruence].
  Qed.
  Lemma declared_metas k l l' : Forall2 declared_alike l l' -> List.length (meta_stack k (map (here root) l)) = List.length (meta_stack k (map (here root) l')).
  Proof.
    intro F. unfold meta_stack. assert (H : forall st st' : list (span * spanned meta_value), List.length st = List.length st' ->
      List.length (fold_left (meta_effect k) (map (here root) l) st) = List.length (fold_left (meta_effect k) (map (here root) l') st')); [|apply H; reflexivity].
    induction F as [|d d' l l' A F IH]; intros st st' Hs; [exact Hs|]. cbn [map fold_left]. apply IH. cbn.
    destruct A as [x y -> -> _|p p' -> -> P]; [exact Hs|]. destruct P as [x x' S|x x' S|x x' S Rx|x x' S|x x' S|x x' S|x x' S]; try exact Hs.
    - destruct S as [S V]. unfold same_item in S. rewrite S. destruct (str_eqb _ _); [cbn; congruence|exact Hs].
    - unfold same_item in S. rewrite S. destruct (str_eqb _ _); [destruct st, st'; cbn in *; congruence|exact Hs].
  Qed.
  Lemma declared_options l l' : Forall2 declared_alike l l' -> map opt_variant (options_of (map (here root) l)) = map opt_variant (options_of (map (here root) l')).
  Proof.
    induction 1 as [|d d' l l' A F IH]; [reflexivity|]. unfold options_of in *. cbn [map flat_map]. rewrite !map_app, IH. f_equal.
    cbn. destruct A as [x y -> -> _|p p' -> -> P]; [reflexivity|]. destruct P; try reflexivity. cbn. congruence.
  Qed.

  Context (A : list event) (Le : leftover A []) (canonicalize : path -> option path).
  Lemma due_after l l' d d' rs rs' : Forall2 declared_alike l l' -> declared_alike d d' -> is_include (item d) = false ->
    (options_of A = [] \/ options_of [here root d] = []) ->
    due canonicalize [] [] (map (here root) l) (here root d) rs -> due canonicalize [] [] (A ++ map (here root) l') (here root d') rs' -> map rp_problem rs = map rp_problem rs'.
  Proof.
    intros F Ad Ni O D D'. cbn in D, D'. destruct Ad as [x y Q Q' _|p p' Q Q' P]; rewrite Q in D, Ni; rewrite Q' in D'; [subst; reflexivity|].
    destruct P as [x x' S|x x' S|x x' S Rx|x x' S|x x' S|x x' S|x x' S]; try (subst; reflexivity); try discriminate.
    - rewrite (after_tags _ Le) in D'. unfold same_item in S. rewrite S in D. pose proof (declared_tags (item x') _ _ F) as H. subst.
      destruct (tag_stack (item x') (map (here root) l)), (tag_stack (item x') (map (here root) l')); try discriminate; reflexivity.
    - rewrite (after_metas _ Le) in D'. unfold same_item in S. rewrite S in D. pose proof (declared_metas (item x') _ _ F) as H. subst.
      destruct (meta_stack (item x') (map (here root) l)), (meta_stack (item x') (map (here root) l')); try discriminate; reflexivity.
    - destruct O as [O|O]; [|unfold options_of in O; cbn in O; rewrite Q in O; discriminate].
      unfold options_of in D' at 1. rewrite flat_map_app in D'. fold (options_of A) in D'. rewrite O in D'. cbn [app] in D'. fold (options_of (map (here root) l')) in D'.
      pose proof (declared_options _ _ F) as Qo. subst. unfold due_report. rewrite S. destruct (setting_of (opt_variant x')) as [s|]; [|reflexivity].
      assert (H : find (sets s) (options_of (map (here root) l)) = None <-> find (sets s) (options_of (map (here root) l')) = None) by (apply find_variant; [intros a b X; unfold sets; now rewrite X|exact Qo]).
      destruct (find (sets s) (options_of (map (here root) l))), (find (sets s) (options_of (map (here root) l'))); try (exfalso; destruct H as [H H']; now (discriminate (H eq_refl) || discriminate (H' eq_refl))); [|reflexivity].
      destruct (keyed s); reflexivity.
  Qed.
  Lemma dues_after ds ds' : Forall2 declared_alike ds ds' -> Forall (fun d => is_include (item d) = false) ds -> (options_of A = [] \/ options_of (map (here root) ds) = []) ->
    forall l l' rs rs', Forall2 declared_alike l l' ->
    dues canonicalize [] [] (map (here root) l) (map (here root) ds) rs -> dues canonicalize [] [] (A ++ map (here root) l') (map (here root) ds') rs' -> map rp_problem rs = map rp_problem rs'.
  Proof.
    induction 1 as [|d d' ds ds' Ad F IH]; intros Ni O l l' rs rs' Fl D D'; cbn [map] in D, D'.
    - inversion D; inversion D'; subst. reflexivity.
    - inversion D as [|? ? ? r1 r2 D1 D2]; inversion D' as [|? ? ? r1' r2' D1' D2']; subst. inversion Ni; subst.
      assert (O1 : options_of A = [] \/ options_of [here root d] = []).
      { destruct O as [O|O]; [left; exact O|right]. unfold options_of in *. cbn [map flat_map] in *. apply app_eq_nil in O. destruct O as [O _]. rewrite app_nil_r. exact O. }
      assert (O2 : options_of A = [] \/ options_of (map (here root) ds) = []).
      { destruct O as [O|O]; [left; exact O|right]. unfold options_of in *. cbn [map flat_map] in *. apply app_eq_nil in O. apply O. }
      rewrite !map_app. f_equal; [exact (due_after _ _ _ _ _ _ Fl Ad ltac:(assumption) O1 D1 D1')|].
      apply (IH ltac:(assumption) O2 (l ++ [d]) (l' ++ [d'])); [apply Forall2_app; auto| |].
      + rewrite map_app. exact D2.
      + rewrite map_app, app_assoc. exact D2'.
  Qed.
  Lemma leftover_counts es es' lf lf' : (forall t, List.length (tag_stack t es) = List.length (tag_stack t es')) -> (forall k, List.length (meta_stack k es) = List.length (meta_stack k es')) ->
    leftover es lf -> leftover es' lf' -> Permutation (map rp_problem lf) (map rp_problem lf').
  Proof using.
    intros T K (ks & ts & Nk & Hk & Nt & Ht & ->) (ks' & ts' & Nk' & Hk' & Nt' & Ht' & ->). rewrite !map_app.
    assert (Z' : forall X (s s' : list X), List.length s = List.length s' -> (s <> [] <-> s' <> [])).
    { intros X [|x s] [|x' s'] Q; try discriminate Q; split; intros H; try (exfalso; apply H; reflexivity); discriminate. }
    apply Permutation_app.
    - assert (P : Permutation ks ks') by (apply NoDup_Permutation; auto; intro k; rewrite Hk, Hk'; apply Z', K).
      rewrite !flat_map_concat_map, !concat_map, !map_map, <- !flat_map_concat_map.
      eapply Permutation_trans; [apply Permutation_flat_map; exact P|]. apply Permutation_refl'. apply flat_map_ext. intro k. specialize (K k).
      rewrite <- (rev_length (meta_stack k es)), <- (rev_length (meta_stack k es')) in K. destruct (rev (meta_stack k es)) as [|[? ?] ?], (rev (meta_stack k es')) as [|[? ?] ?]; try discriminate; reflexivity.
    - assert (P : Permutation ts ts') by (apply NoDup_Permutation; auto; intro t; rewrite Ht, Ht'; apply Z', T).
      rewrite !flat_map_concat_map, !concat_map, !map_map, <- !flat_map_concat_map.
      eapply Permutation_trans; [apply Permutation_flat_map; exact P|]. apply Permutation_refl'. apply flat_map_ext. intro t. specialize (T t).
      rewrite <- (rev_length (tag_stack t es)), <- (rev_length (tag_stack t es')) in T. rewrite !map_map. cbn [rp_problem].
      revert T. generalize (rev (tag_stack t es)) as s, (rev (tag_stack t es')) as s'. induction s as [|x s IH]; intros [|x' s'] Q; try discriminate; [reflexivity|]. cbn. f_equal. apply IH. cbn in Q. congruence.
  Qed.
End Events.

Lemma dues_parts canonicalize a : forall seen b rs, dues canonicalize [] [] seen (a ++ b) rs -> exists r1 r2, rs = r1 ++ r2 /\ dues canonicalize [] [] seen a r1 /\ dues canonicalize [] [] (seen ++ a) b r2.
Proof.
  induction a as [|e a IH]; intros seen b rs D; cbn [app] in D.
  - exists [], rs. rewrite app_nil_r. split; [reflexivity|]. split; [constructor|exact D].
  - inversion D as [|? ? ? r1 r2 D1 D2]; subst. destruct (IH _ _ _ D2) as (r3 & r4 & -> & D3 & D4). exists (r1 ++ r3), r4. rewrite app_assoc. split; [reflexivity|]. rewrite <- app_assoc in D4. split; [constructor; assumption|exact D4].
Qed.

(** The pass over declarations of which none is an include. *)
Lemma pass_alone canonicalize root ds po : Forall (fun d => is_include (item d) = false) ds ->
  exists out opts plugins rs lf, pragma_pass canonicalize [] [] root [(root, ds)] (options_new po) = Fine (Some (out, (opts, plugins, rs ++ lf))) /\
    dues canonicalize [] [] [] (map (here root) ds) rs /\ leftover (map (here root) ds) lf.
Proof.
  intro Np. assert (N1 : names_distinct [(root, ds)]) by (repeat constructor).
  pose proof (pass_spec canonicalize [] [] po root [] ds [] N1) as Z. cbn zeta in Z. cbn [app] in Z.
  destruct (pragma_pass canonicalize [] [] root [(root, ds)] (options_new po)) as [[[out [[opts plugins] reports]]|]|].
  - destruct Z as (es & rest & rs & lf & W & _ & Du & Lf & -> & -> & ->).
    destruct (proj1 (walk_unique []) _ _ _ _ _ (walk_here root _ ds Np) ltac:(constructor) _ _ W) as [<- <-]. exists out, (fst (assimilate_all (options_new po) (options_of (map (here root) ds)))), (plugins_of (map (here root) ds)), rs, lf. auto.
  - contradiction.
  - exfalso. destruct Z as (f & ds0 & d & x & _ & [Q|[]] & Hd & It & _). injection Q as _ <-. rewrite Forall_forall in Np. specialize (Np d Hd). rewrite It in Np. discriminate.
Qed.

(** And after others which by themselves are all right. *)
Lemma pass_after canonicalize root da ds ds' po po' : Forall (fun d => is_include (item d) = false) ds -> Forall (fun d => is_include (item d) = false) (da ++ ds') ->
  dues canonicalize [] [] [] (map (here root) da) [] -> leftover (map (here root) da) [] -> Forall2 (alike_declared any) ds ds' ->
  (options_of (map (here root) da) = [] \/ options_of (map (here root) ds) = []) ->
  exists out opts plugins rs out' opts' plugins' rs',
    pragma_pass canonicalize [] [] root [(root, ds)] (options_new po) = Fine (Some (out, (opts, plugins, rs))) /\
    pragma_pass canonicalize [] [] root [(root, da ++ ds')] (options_new po') = Fine (Some (out', (opts', plugins', rs'))) /\
    Permutation (map rp_problem rs) (map rp_problem rs').
Proof.
  intros Np Np' Du Le F O. destruct (pass_alone canonicalize root ds po Np) as (out & opts & plugins & rs & lf & Q & D & Lf).
  destruct (pass_alone canonicalize root (da ++ ds') po' Np') as (out' & opts' & plugins' & rs' & lf' & Q' & D' & Lf').
  exists out, opts, plugins, (rs ++ lf), out', opts', plugins', (rs' ++ lf'). split; [exact Q|]. split; [exact Q'|]. rewrite !map_app. rewrite map_app in D', Lf'.
  apply dues_parts in D'. destruct D' as (r1 & r2 & -> & D1 & D2). pose proof (dues_unique _ _ _ _ _ _ _ Du D1) as Ar. inversion Ar; subst. cbn [app] in *.
  apply Permutation_app.
  - apply Permutation_refl'. refine (dues_after root _ Le canonicalize ds ds' F Np O [] [] rs r2 (Forall2_nil _) D _). cbn [map]. rewrite app_nil_r. exact D2.
  - eapply leftover_counts; [| |exact Lf|exact Lf']; intro t; [rewrite (after_tags _ Le); apply declared_tags; exact F|rewrite (after_metas _ Le); apply declared_metas; exact F].
Qed.

(** ** A ledger without includes, step by step *)
Section Alone.
  Context (L : lexer_env) (E : grammar_env) (canonicalize : path -> option path) (root : option path).
  Context (content : str) (ts : list rtoken) (Lx : lex L content = Fine (Some ts)) (No : without K_Include (map fst ts)).
  Let J := input_of 0 content ts.
  Let s := mk_sources root content (char_offs 0 content) [] [] [match root with Some p => p | None => lit "inline" end].
  Definition ledger_steps : outcome (option parsed_as) :=
    match parse_file E J root default_pstate with
    | Fine (Some (out, es, st)) =>
        match pragma_pass canonicalize [] [] root [(root, match out with Some ds => ds | None => [] end)] (options_new (ps_options st)) with
        | Fine (Some (ds, (os, plugins, rs))) =>
            match sort_directives ds with
            | Fine (Some sorted) => Fine (Some match es ++ map C_Report rs with [] => Success sorted os plugins (ps_warnings st) | errs => Failure errs (ps_warnings st) end)
            | Fine None => Fine None
            | Panic => Panic
            end
        | Fine None => Fine None
        | Panic => Panic
        end
    | Fine None => Fine None
    | Panic => Panic
    end.
  Lemma alone_new : parser_new L s = Fine (Some [ts]).
  Proof. unfold parser_new, content_iter. cbn. rewrite Lx. reflexivity. Qed.
  Lemma alone_steps : parse E canonicalize s [ts] = ledger_steps.
  Proof.
    unfold parse, parse_declarations, ledger_steps.
    change (content_iter s) with [(0, root, content)]. change (included_globs s) with (@nil (path * included_glob)). change (error_paths s) with (@nil (option path * str)). change (root_path s) with root.
    cbn [parse_all nth_error]. fold J.
    destruct (parse_file E J root default_pstate) as [[[[out es] st]|]|]; try reflexivity. cbn [app insert].
    destruct (pragma_pass _ _ _ _ _ _) as [[[ds [[os plugins] rs]]|]|]; try reflexivity. destruct (sort_directives ds) as [[sorted|]|]; try reflexivity.
    destruct (es ++ map C_Report rs); reflexivity.
  Qed.
  Lemma ledger_by_steps r : ledger_is L E canonicalize root content r <-> ledger_steps = Fine (Some r).
  Proof.
    rewrite <- alone_steps. split.
    - intro H. inversion H as [glob_with read fuel s0 toks res Rd Pn Ps]; subst. rewrite (alone_reads L canonicalize root content ts Lx No) in Rd. injection Rd as <-.
      fold s in Pn, Ps. rewrite alone_new in Pn. injection Pn as <-. exact Ps.
    - intro H. apply (ledger_read _ _ _ _ _ (fun _ => Err []) (fun _ => Err []) 0 s [ts]); [apply (alone_reads L canonicalize root content ts Lx No)|exact alone_new|exact H].
  Qed.
End Alone.
