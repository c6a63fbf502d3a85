(** * Properties C02, C06-C11, C44, C47: the pragma pass *)
From Coq Require Import String Ascii.
From Coq Require Import List NArith ZArith Arith Bool Lia ZifyBool ZifyN Permutation.
From Verif Require Import Base BaseFacts Path PathFacts Sources Types Options SpecOptions OptionsFacts Pragma SpecPragma PragmaFacts PragmaRun.
Import ListNotations.
Local Open Scope nat_scope.

Section Pass.
  (** The file system at the time of parsing, what was found when reading,
      the options of the parser, and the parsed files: the root and others. *)
  Context (canonicalize : path -> option path).
  Context (globs : list (path * included_glob)).
  Context (error_paths : list (option path * list N)).
  Context (po : parser_options).
  Context (root : option path) (rootds : list (spanned declaration)) (a b : table).

  Local Notation parsed := (a ++ (root, rootds) :: b).
  Local Notation pass := (pragma_pass canonicalize globs error_paths root parsed (options_new po)).

  (** ** C06: termination *)

  (** The pass comes to an end, whatever the include graph. *)
  Theorem C06_terminates : pass <> Fine None.
  Proof.
    unfold pragma_pass. destruct (pp_new root parsed (options_new po)) as [s|]; [|discriminate].
    pose proof (run_total canonicalize globs error_paths (pp_fuel s) s (le_n _)) as RT.
    destruct (pp_run canonicalize globs error_paths (pp_fuel s) s) as [[[ds s']|]|]; congruence.
  Qed.

  (** The bound on the steps is immaterial: with more of them the iteration
      ends in the same way, from any state. *)
  Theorem C06_bound_immaterial s n : pp_fuel s <= n ->
    pp_run canonicalize globs error_paths n s = pp_run canonicalize globs error_paths (pp_fuel s) s /\
    pp_run canonicalize globs error_paths n s <> Fine None.
  Proof.
    intros L. assert (N := run_total canonicalize globs error_paths (pp_fuel s) s (le_n _)).
    rewrite (run_mono canonicalize globs error_paths (pp_fuel s) s n L N). auto.
  Qed.

  (** ** C47: the order of processing *)

  (** The directives come in the order of the walk, which is determined by the
      parsed files and the globs. *)
  Theorem C47_walk ds opts plugins reports : names_distinct parsed ->
    pass = Fine (Some (ds, (opts, plugins, reports))) ->
    exists es rest, walk globs (a ++ b) root rootds es rest /\ yields [] es ds /\
      forall es' rest', walk globs (a ++ b) root rootds es' rest' -> es' = es /\ rest' = rest.
  Proof.
    intros D H. pose proof (pass_spec canonicalize globs error_paths po root a rootds b D) as S.
    simpl in S. rewrite H in S. destruct S as (es & rest & rs & left & W & Y & _).
    exists es, rest. split; auto. split; auto. intros es' rest' W'.
    destruct (proj1 (walk_unique globs) _ _ _ _ _ W' ) with (es2 := es) (t2 := rest); auto.
    apply (perm_distinct _ [(root, rootds)] _ (Permutation_sym (Permutation_middle a b (root, rootds))) D).
  Qed.

  Lemma pass_walk ds opts plugins reports es rest : names_distinct parsed ->
    pass = Fine (Some (ds, (opts, plugins, reports))) ->
    walk globs (a ++ b) root rootds es rest ->
    yields [] es ds /\ opts = fst (assimilate_all (options_new po) (options_of es)) /\ plugins = plugins_of es /\
    exists rs left, dues canonicalize globs error_paths [] es rs /\ leftover es left /\ reports = rs ++ left.
  Proof.
    intros D H W. pose proof (pass_spec canonicalize globs error_paths po root a rootds b D) as S.
    simpl in S. rewrite H in S. destruct S as (es' & rest' & rs & left & W' & Y & U & LO & O & P & R).
    destruct (proj1 (walk_unique globs) _ _ _ _ _ W' ) with (es2 := es) (t2 := rest) as (-> & ->); eauto 10.
    apply (perm_distinct _ [(root, rootds)] _ (Permutation_sym (Permutation_middle a b (root, rootds))) D).
  Qed.

  (** The declarations of every file which is reached are all processed, in
      the order they have in the file. *)
  Theorem C47_own_order es rest f ds : names_distinct parsed ->
    walk globs (a ++ b) root rootds es rest ->
    In (f, ds) parsed -> reached globs parsed root f ->
    filter (fun e => match e with Declared f' _ => opt_path_eqb f f' | _ => false end) es = map (Declared f) ds.
  Proof.
    intros D W I RE.
    assert (PT : Permutation parsed ((root, rootds) :: a ++ b)) by (symmetry; apply Permutation_middle).
    assert (D1 := names_distinct_perm _ _ PT D).
    destruct (proj1 (walk_files globs f) _ _ _ _ _ W D1) as (ent & P & Q).
    destruct (walk_entered globs root rootds a b es rest D W) as (entered & DE & IN & _ & PE & _).
    assert (PE2 : Permutation parsed (((root, rootds) :: ent) ++ rest)) by (rewrite PT, P; reflexivity).
    assert (PQ : Permutation entered ((root, rootds) :: ent)).
    { rewrite PE in PE2. now apply Permutation_app_inv_r in PE2. }
    rewrite <- (named_perm f _ _ DE PQ) in Q.
    assert (IE : In (f, ds) entered) by (apply IN; auto).
    assert (IF : In (f, ds) (filter (named f) entered)).
    { apply filter_In. split; auto. unfold named. apply opt_path_equiv. }
    assert (L := named_once f entered DE). destruct (filter (named f) entered) as [|x [|y r]]; simpl in L; try lia; [easy|].
    destruct IF as [->|[]]. simpl in Q. rewrite app_nil_r in Q. exact Q.
  Qed.

  (** ** C02: nothing is lost or duplicated *)

  (** The directives are one copy of each directive of each file which is
      reached, whatever the number and shape of the paths to it. *)
  Theorem C02_each_directive_once ds opts plugins reports : names_distinct parsed ->
    pass = Fine (Some (ds, (opts, plugins, reports))) ->
    exists files, names_distinct files /\
      (forall f fds, In (f, fds) files <-> In (f, fds) parsed /\ reached globs parsed root f) /\
      Permutation (map core ds) (map core (flat_map (fun f => directives_in (snd f)) files)).
  Proof.
    intros D H. destruct (C47_walk _ _ _ _ D H) as (es & rest & W & Y & _).
    destruct (walk_entered globs root rootds a b es rest D W) as (entered & DE & IN & P & _ & _).
    exists entered. split; auto. split; [intros f fds; apply (IN (f, fds))|].
    rewrite (yields_core _ _ _ Y). apply Permutation_map. rewrite <- directives_own. now apply directives_perm.
  Qed.

  (** They come in the order of the walk, and but for added tags and metadata
      they are the directives as parsed. *)
  Theorem C02_in_order ds opts plugins reports es rest : names_distinct parsed ->
    pass = Fine (Some (ds, (opts, plugins, reports))) -> walk globs (a ++ b) root rootds es rest ->
    map core ds = map core (directives_of es).
  Proof. intros D H W. destruct (pass_walk _ _ _ _ _ _ D H W) as (Y & _). now apply yields_core in Y. Qed.

  (** ** C06: a file is entered at most once *)

  Theorem C06_entered_once es rest : names_distinct parsed -> walk globs (a ++ b) root rootds es rest ->
    exists files, names_distinct files /\ incl files parsed /\
      Permutation (filter is_declared es) (flat_map (fun f => map (Declared (fst f)) (snd f)) files).
  Proof.
    intros D W. destruct (walk_entered globs root rootds a b es rest D W) as (entered & DE & IN & P & _ & _).
    exists entered. split; auto. split; [intros x I; now apply IN|exact P].
  Qed.

  (** ** C04 (second half): the pass panics exactly when an include which is
      reached has no entry in the table of globs *)

  Theorem C04_panics_iff : names_distinct parsed ->
    pass = Panic <->
    exists f ds d text, reached globs parsed root f /\ In (f, ds) parsed /\ In d ds /\
      item d = D_Pragma (P_Include text) /\ lookup path_eqb (resolve_included_path f (item text)) globs = None.
  Proof.
    intros D. pose proof (pass_spec canonicalize globs error_paths po root a rootds b D) as S. simpl in S. split.
    - intros E. rewrite E in S. exact S.
    - intros (f & fds & d & text & RE & I & J & IT & G).
      destruct pass as [[[ds [[opts plugins] reports]]|]|] eqn:E; [|easy|reflexivity].
      destruct S as (es & rest & rs & left & W & _).
      destruct (walk_entered globs root rootds a b es rest D W) as (entered & DE & IN & P & _ & NG).
      assert (ID : In (Declared f d) (filter is_declared es)).
      { rewrite P. apply in_flat_map. exists (f, fds). split; [now apply IN|]. apply in_map_iff. eauto. }
      apply filter_In in ID as [ID _]. now elim (NG f d text ID IT).
  Qed.

  (** ** C44: plugins; C12: options *)

  Theorem C44_plugins ds opts plugins reports es rest : names_distinct parsed ->
    pass = Fine (Some (ds, (opts, plugins, reports))) -> walk globs (a ++ b) root rootds es rest ->
    plugins = plugins_of es.
  Proof. intros D H W. destruct (pass_walk _ _ _ _ _ _ D H W) as (_ & _ & P & _). exact P. Qed.

  Theorem C12_options_of_walk ds opts plugins reports es rest : names_distinct parsed ->
    pass = Fine (Some (ds, (opts, plugins, reports))) -> walk globs (a ++ b) root rootds es rest ->
    opts = fst (assimilate_all (options_new po) (options_of es)).
  Proof. intros D H W. destruct (pass_walk _ _ _ _ _ _ D H W) as (_ & O & _). exact O. Qed.

  (** ** C08, C09, C11: tags and metadata *)

  (** The tags of a directive: its own, and the latest push of each other tag
      which has outstanding pushes. *)
  Theorem C08_tags ds opts plugins reports es rest before f d x after : names_distinct parsed ->
    pass = Fine (Some (ds, (opts, plugins, reports))) -> walk globs (a ++ b) root rootds es rest ->
    es = before ++ Declared f d :: after -> item d = D_Directive x ->
    exists d', nth_error ds (List.length (directives_of before)) = Some d' /\
      forall t, In t (md_tags (item (dir_metadata (item d')))) <->
        In t (md_tags (item (dir_metadata x))) \/
        (~ In (item t) (map item (md_tags (item (dir_metadata x)))) /\ hd_error (tag_stack (item t) before) = Some t).
  Proof.
    intros D H W E ID. destruct (pass_walk _ _ _ _ _ _ D H W) as (Y & _).
    destruct (yields_at _ _ _ Y before (Declared f d) after (mk_spanned x (span_of d)) E) as (d' & N & A & _); [simpl; now rewrite ID|].
    exists d'. split; auto. apply (aug_tags _ _ _ A).
  Qed.

  (** The metadata of a directive: its own, and the value of the latest
      outstanding push of each other key. *)
  Theorem C09_metadata ds opts plugins reports es rest before f d x after : names_distinct parsed ->
    pass = Fine (Some (ds, (opts, plugins, reports))) -> walk globs (a ++ b) root rootds es rest ->
    es = before ++ Declared f d :: after -> item d = D_Directive x ->
    exists d', nth_error ds (List.length (directives_of before)) = Some d' /\
      forall k v, In (k, v) (md_key_values (item (dir_metadata (item d')))) <->
        In (k, v) (md_key_values (item (dir_metadata x))) \/
        (~ In (item k) (map (fun e => item (fst e)) (md_key_values (item (dir_metadata x)))) /\
         hd_error (meta_stack (item k) before) = Some (span_of k, v)).
  Proof.
    intros D H W E ID. destruct (pass_walk _ _ _ _ _ _ D H W) as (Y & _).
    destruct (yields_at _ _ _ Y before (Declared f d) after (mk_spanned x (span_of d)) E) as (d' & N & A & _); [simpl; now rewrite ID|].
    exists d'. split; auto. apply (aug_keys _ _ _ A).
  Qed.

  (** Own tags and metadata stay, nothing is there twice, and nothing else
      about the directive changes. *)
  Theorem C11_own_precedence ds opts plugins reports es rest before f d x after : names_distinct parsed ->
    pass = Fine (Some (ds, (opts, plugins, reports))) -> walk globs (a ++ b) root rootds es rest ->
    es = before ++ Declared f d :: after -> item d = D_Directive x ->
    NoDup (map item (md_tags (item (dir_metadata x)))) ->
    NoDup (map (fun e => item (fst e)) (md_key_values (item (dir_metadata x)))) ->
    exists d', nth_error ds (List.length (directives_of before)) = Some d' /\
      (forall t t', In t (md_tags (item (dir_metadata x))) -> item t' = item t ->
         (In t' (md_tags (item (dir_metadata (item d')))) <-> t' = t)) /\
      (forall k v k' v', In (k, v) (md_key_values (item (dir_metadata x))) -> item k' = item k ->
         (In (k', v') (md_key_values (item (dir_metadata (item d')))) <-> k' = k /\ v' = v)) /\
      NoDup (map item (md_tags (item (dir_metadata (item d'))))) /\
      NoDup (map (fun e => item (fst e)) (md_key_values (item (dir_metadata (item d'))))) /\
      span_of d' = span_of d /\ dir_date (item d') = dir_date x /\ dir_variant (item d') = dir_variant x /\
      span_of (dir_metadata (item d')) = span_of (dir_metadata x) /\
      md_links (item (dir_metadata (item d'))) = md_links (item (dir_metadata x)).
  Proof.
    intros D H W E ID NT NK. destruct (pass_walk _ _ _ _ _ _ D H W) as (Y & _).
    destruct (yields_at _ _ _ Y before (Declared f d) after (mk_spanned x (span_of d)) E) as (d' & N & A & SP); [simpl; now rewrite ID|].
    simpl item in A. simpl in SP. exists d'. split; auto. destruct A as [A1 A2 A3 A4 A5 A6 A7 A8].
    split; [|split; [|split; [auto|split; [auto|repeat split; auto]]]].
    - intros t t' I EQ. rewrite A5. split; [|intros ->; auto].
      intros [J|[J _]]; [|elim J; rewrite EQ; now apply in_map].
      clear - NT I J EQ. induction (md_tags (item (dir_metadata x))) as [|y l IH]; [easy|].
      simpl in NT. inversion NT; subst. destruct I as [->|I], J as [->|J]; auto.
      + elim H1. rewrite <- EQ. now apply in_map.
      + elim H1. rewrite EQ. now apply in_map.
    - intros k v k' v' I EQ. rewrite A6. split; [|intros [-> ->]; auto].
      intros [J|[J _]]; [|elim J; rewrite EQ; apply (in_map (fun e => item (fst e)) _ (k, v)); auto].
      clear - NK I J EQ. induction (md_key_values (item (dir_metadata x))) as [|y l IH]; [easy|].
      simpl in NK. inversion NK; subst. destruct I as [->|I], J as [J|J]; auto.
      + injection J as -> ->. auto.
      + elim H1. simpl. rewrite <- EQ. apply (in_map (fun e => item (fst e)) _ (k', v')); auto.
      + subst y. elim H1. simpl. rewrite EQ. apply (in_map (fun e => item (fst e)) _ (k, v)); auto.
  Qed.

  (** ** C07, C10: the reports *)

  (** All reports of the pass: those due for each event, in order, then those
      for what is left pushed; the former are determined by the events, up to
      the order in which an error shows the pushed tags and metadata. *)
  Theorem C07_reports ds opts plugins reports es rest : names_distinct parsed ->
    pass = Fine (Some (ds, (opts, plugins, reports))) -> walk globs (a ++ b) root rootds es rest ->
    exists rs left, reports = rs ++ left /\ leftover es left /\
      forall rs', dues canonicalize globs error_paths [] es rs' <-> Forall2 alike_report rs rs'.
  Proof.
    intros D H W. destruct (pass_walk _ _ _ _ _ _ D H W) as (_ & _ & _ & rs & left & U & LO & E).
    exists rs, left. split; auto. split; auto. intros rs'. split; [|apply dues_alike; auto].
    intros U'. eapply dues_unique; eauto.
  Qed.

  (** When an include comes to a readable file which it does not enter, since
      that was entered before: nothing is reported just if the pushed tags and
      metadata are now as they were then. *)
  Theorem C07_included_again ds opts plugins reports es rest before sp p after c sp0 before0 : names_distinct parsed ->
    pass = Fine (Some (ds, (opts, plugins, reports))) -> walk globs (a ++ b) root rootds es rest ->
    es = before ++ Offered sp p None :: after ->
    lookup opt_path_eqb (Some p) error_paths = None -> canonicalize p = Some c ->
    last_entered canonicalize c before sp0 before0 ->
    exists rs r rs', reports = rs ++ r ++ rs' /\ dues canonicalize globs error_paths [] before rs /\
      (same_context before0 before -> r = []) /\
      (~ same_context before0 before ->
       exists here first, r = [mk_report (DuplicateInclude here (Some first)) sp [sp0]] /\ lists before here /\ lists before0 first).
  Proof.
    intros D H W E L C LE. destruct (pass_walk _ _ _ _ _ _ D H W) as (_ & _ & _ & rs & left & U & LO & ->).
    destruct (dues_at _ _ _ _ _ _ U _ _ _ E) as (r1 & r & r2 & -> & U1 & DU). simpl in DU.
    exists r1, r, (r2 ++ left). split; [now rewrite <- !app_assoc|]. split; auto.
    destruct DU as [e L2|c2 s2 b2 L2 C2 LE2 SC|c2 s2 b2 h2 f2 L2 C2 LE2 SC H2 F2|h2 L2 NE H2]; try congruence.
    - assert (c2 = c) by congruence; subst c2. destruct (last_entered_unique _ _ _ _ _ _ _ LE LE2) as [-> ->]. split; auto. tauto.
    - assert (c2 = c) by congruence; subst c2. destruct (last_entered_unique _ _ _ _ _ _ _ LE LE2) as [-> ->]. split; [tauto|]. eauto.
    - elim (last_never _ _ _ _ _ LE). now apply NE.
  Qed.

  (** When it was never entered by an include (as is the case of the root)
      that is an error. *)
  Theorem C07_root_included ds opts plugins reports es rest before sp p after : names_distinct parsed ->
    pass = Fine (Some (ds, (opts, plugins, reports))) -> walk globs (a ++ b) root rootds es rest ->
    es = before ++ Offered sp p None :: after ->
    lookup opt_path_eqb (Some p) error_paths = None ->
    (forall c, canonicalize p = Some c -> never_entered canonicalize c before) ->
    exists rs here rs', reports = rs ++ mk_report (DuplicateInclude here None) sp [] :: rs' /\
      dues canonicalize globs error_paths [] before rs /\ lists before here.
  Proof.
    intros D H W E L NE. destruct (pass_walk _ _ _ _ _ _ D H W) as (_ & _ & _ & rs & left & U & LO & ->).
    destruct (dues_at _ _ _ _ _ _ U _ _ _ E) as (r1 & r & r2 & -> & U1 & DU). simpl in DU.
    destruct DU as [e L2|c2 s2 b2 L2 C2 LE2 SC|c2 s2 b2 h2 f2 L2 C2 LE2 SC H2 F2|h2 L2 NE2 H2]; try congruence; auto.
    - elim (last_never _ _ _ _ _ LE2). now apply NE.
    - elim (last_never _ _ _ _ _ LE2). now apply NE.
    - exists r1, h2, (r2 ++ left). rewrite <- !app_assoc. auto.
  Qed.

  (** Whatever was unreadable is reported, wherever it is included. *)
  Theorem C07_unreadable ds opts plugins reports es rest before sp p after e : names_distinct parsed ->
    pass = Fine (Some (ds, (opts, plugins, reports))) -> walk globs (a ++ b) root rootds es rest ->
    es = before ++ Offered sp p None :: after ->
    lookup opt_path_eqb (Some p) error_paths = Some e ->
    exists rs rs', reports = rs ++ mk_report (IncludeUnreadable e) sp [] :: rs' /\
      dues canonicalize globs error_paths [] before rs.
  Proof.
    intros D H W E L. destruct (pass_walk _ _ _ _ _ _ D H W) as (_ & _ & _ & rs & left & U & LO & ->).
    destruct (dues_at _ _ _ _ _ _ U _ _ _ E) as (r1 & r & r2 & -> & U1 & DU). simpl in DU.
    exists r1, (r2 ++ left). split; auto. rewrite <- !app_assoc. f_equal.
    destruct DU; try congruence; simpl; congruence.
  Qed.

  (** Of the reports, those about pops are one for each pop with nothing to
      pop, and those about pushes are one for each tag and place, and for each
      key, left at the end. *)
  Theorem C10_unbalanced ds opts plugins reports es rest : names_distinct parsed ->
    pass = Fine (Some (ds, (opts, plugins, reports))) -> walk globs (a ++ b) root rootds es rest ->
    filter about_pops reports = stray_pops [] es /\ leftover es (filter about_pushes reports).
  Proof.
    intros D H W. destruct (pass_walk _ _ _ _ _ _ D H W) as (_ & _ & _ & rs & left & U & LO & ->).
    destruct (dues_pops _ _ _ _ _ _ U) as [A B]. destruct (leftover_about _ _ LO) as [A' B'].
    rewrite !filter_app, A, A', B, B', app_nil_r. auto.
  Qed.

  (** A balanced sequence: no report about pushes or pops. *)
  Theorem C10_balanced ds opts plugins reports es rest : names_distinct parsed ->
    pass = Fine (Some (ds, (opts, plugins, reports))) -> walk globs (a ++ b) root rootds es rest ->
    stray_pops [] es = [] -> (forall t, tag_stack t es = []) -> (forall k, meta_stack k es = []) ->
    forall r, In r reports -> about_pops r = false /\ about_pushes r = false.
  Proof.
    intros D H W SP TS MS r I. destruct (C10_unbalanced _ _ _ _ _ _ D H W) as [A B]. rewrite SP in A.
    destruct B as (ks & ts & _ & IK & _ & IT & B).
    assert (ks = []) as ->. { destruct ks as [|k ks]; auto. elim (proj1 (IK k)); auto. now left. }
    assert (ts = []) as ->. { destruct ts as [|k ts]; auto. elim (proj1 (IT k)); auto. now left. }
    simpl in B. split.
    - destruct (about_pops r) eqn:Q; auto. assert (X : In r (filter about_pops reports)) by (apply filter_In; auto). rewrite A in X. easy.
    - destruct (about_pushes r) eqn:Q; auto. assert (X : In r (filter about_pushes reports)) by (apply filter_In; auto). rewrite B in X. easy.
  Qed.
End Pass.

(** ** A concrete case: the hypotheses can be met

    /r.bean pushes a tag, has a directive with that tag and a note, includes
    *.bean (which matches /a.bean and /b.bean), pops the tag, includes /a.bean
    again and pops the tag again; /a.bean includes /r.bean. *)
Section Example_pass.
  Let sp n := mk_span 0 n (n + 1).
  Let sps (s : list N) n := mk_spanned s (sp n).
  Let acct := mk_spanned (mk_account Assets (lit "Cash")) (sp 3).
  Let dir n tags := mk_spanned (D_Directive (mk_directive (mk_spanned (mk_date 2024 1 1) (sp n))
                      (mk_spanned (mk_metadata [] tags []) (sp n)) (V_Note acct (sps (lit "x") n)))) (sp n).
  Let pragma p n := mk_spanned (D_Pragma p) (sp n).
  Let incl_ text n := pragma (P_Include (sps (lit text) n)) n.

  Let root := Some (lit "/r.bean").
  Let rootds := [pragma (P_Pushtag (sps (lit "t") 10)) 10; dir 20 [sps (lit "t") 21]; incl_ "*.bean" 30;
                 pragma (P_Poptag (sps (lit "t") 40)) 40; incl_ "a.bean" 50; pragma (P_Poptag (sps (lit "t") 60)) 60; dir 70 []].
  Let others : table := [(Some (lit "/a.bean"), [dir 100 []; incl_ "r.bean" 110]); (Some (lit "/b.bean"), [dir 120 []])].
  Let globs := [(lit "/*.bean", Expanded [lit "/a.bean"; lit "/b.bean"]); (lit "/a.bean", Expanded [lit "/a.bean"]);
                (lit "/r.bean", Expanded [lit "/r.bean"])].
  Let result := pragma_pass (fun p => Some p) globs [] root ([] ++ (root, rootds) :: others) (options_new default_parser_options).

  Example ex_pass_distinct : names_distinct ([] ++ (root, rootds) :: others).
  Proof. apply names_distinct_keys. vm_compute. auto. Qed.

  Example ex_pass :
    match result with
    | Fine (Some (ds, (_, plugins, reports))) =>
        map (fun d => (sp_start (span_of d), md_tags (item (dir_metadata (item d))))) ds
        = [(20, [sps (lit "t") 21]); (120, [sps (lit "t") 10]); (100, [sps (lit "t") 10]); (70, [])] /\
        reports = [mk_report (DuplicateInclude (mk_listing [lit "t"] []) None) (sp 110) [];
                   mk_report (DuplicateInclude (mk_listing [] []) (Some (mk_listing [lit "t"] []))) (sp 50) [sp 30];
                   mk_report InvalidPoptag (sp 60) []]
    | _ => False
    end.
  Proof. vm_compute. auto. Qed.
End Example_pass.

Print Assumptions C02_each_directive_once.
Print Assumptions C04_panics_iff.
Print Assumptions C06_terminates.
Print Assumptions C07_reports.
Print Assumptions C08_tags.
Print Assumptions C09_metadata.
Print Assumptions C10_unbalanced.
Print Assumptions C11_own_precedence.
Print Assumptions C44_plugins.
Print Assumptions C47_walk.
