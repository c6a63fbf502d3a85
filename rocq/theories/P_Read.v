(** * Properties C04, C05: reading files and their includes *)
From Coq Require Import String Ascii.
From Coq Require Import List NArith ZArith Arith Bool Lia ZifyBool ZifyN Permutation.
From Verif Require Import Base BaseFacts Text Path SpecPath PathFacts Sources SpecSources Types Options
  Pragma SpecPragma PragmaRun P_Pragma Read SpecRead ReadFacts.
Import ListNotations.
Local Open Scope nat_scope.

(** Equal including paths give equal included paths. *)
Lemma resolve_cong p q g : same_path p q ->
  same_path (resolve_included_path (Some p) g) (resolve_included_path (Some q) g).
Proof.
  intros S. unfold same_path in *. destruct (is_absolute g) eqn:A; [now rewrite !resolve_absolute|].
  pose proof (parent_spec p) as P. destruct (parent p) as [d|].
  - destruct (components d) as [|x cs] eqn:D.
    + rewrite !resolve_no_dir; auto. right. right. now rewrite <- S.
    + rewrite (resolve_relative p g (x :: cs)), (resolve_relative q g (x :: cs)); auto; try discriminate. now rewrite <- S.
  - rewrite !resolve_no_dir; auto; [rewrite <- S|]; tauto.
Qed.

(** Used in the examples. *)
Fixpoint lines_of (s : str) : list str :=
  match s with
  | [] => [[]]
  | c :: s' => if N.eqb c 10 then [] :: lines_of s'
               else match lines_of s' with l :: ls => (c :: l) :: ls | [] => [[c]] end
  end.

Section ReadProps.
  Context (get_includes : str -> list str).
  Context (glob_with : str -> result (list glob_item) str).
  Context (canonicalize : path -> option path).
  Context (read : path -> result str str).

  Local Notation reads n root content :=
    (read_with_includes get_includes glob_with canonicalize read n root content).

  (** Read, with the table of contents in any order. *)
  Local Notation reads_any n root content s := (reads_to get_includes glob_with canonicalize read n root content s).

  (** ** C05 *)

  (** Reading comes to an end for every shape of includes, cyclic ones too, if
      only there are finitely many files; the number of rounds allowed does
      not matter. *)
  Theorem C05_terminates root content : finite_fs canonicalize ->
    exists n s, forall m, n <= m -> reads m root content = Some s.
  Proof.
    intros F. destruct (read_terminates_from get_includes glob_with canonicalize read content F (read_start get_includes canonicalize root content)) as (n & N).
    unfold read_with_includes. destruct (read_loop get_includes glob_with canonicalize read n (read_start get_includes canonicalize root content)) as [st|] eqn:R; [|congruence].
    exists n. eexists. intros m L. rewrite (read_loop_mono get_includes glob_with canonicalize read n m) by (auto; congruence). rewrite R. reflexivity.
  Qed.

  (** Everything about the result: see [read_as]. *)
  Theorem C05_reads n root content s : reads_any n root content s ->
    exists log, read_as get_includes glob_with canonicalize read root content log s.
  Proof. apply read_any_spec. Qed.

  (** A file is refused only if it cannot be read itself. *)
  Theorem C05_root_unreadable n root :
    match try_read_with_includes get_includes glob_with canonicalize read n root with
    | Err e => read root = Err e
    | Ok s => exists content, read root = Ok content /\ s = reads n (Some root) content
    end.
  Proof. unfold try_read_with_includes. destruct (read root); eauto. Qed.

  (** The tables are consistent, as the theorems about spans suppose. *)
  Theorem C05_tables_consistent n root content s : reads_any n root content s -> sources_wf s.
  Proof.
    intros H. apply read_any_spec in H as (log & H). constructor.
    - rewrite (ra_root_content _ _ _ _ _ _ _ _ H). apply (ra_root_indices _ _ _ _ _ _ _ _ H).
    - intros p id c ci I. assert (D := ra_distinct _ _ _ _ _ _ _ _ H). apply path_keys_distinct in D.
      apply (keys_distinct_lookup path_eqb path_eqb_equiv) in I; auto.
      now apply (ra_content _ _ _ _ _ _ _ _ H) in I as (E & _).
    - rewrite (ra_names _ _ _ _ _ _ _ _ H). eauto.
    - intros id name P N L.
      rewrite (ra_names _ _ _ _ _ _ _ _ H) in N. destruct id as [|id]; [lia|]. simpl in N.
      apply nth_error_split in N as (l1 & l2 & E & _).
      assert (M := ra_why _ _ _ _ _ _ _ _ H l1 name l2 E).
      assert (C : canonicalize name <> None).
      { destruct (ra_once _ _ _ _ _ _ _ _ H) as (cs & F2 & _). subst log. clear - F2.
        revert cs F2. induction l1 as [|x l1 IH]; intros cs F2; inversion F2; subst; [congruence|eauto]. }
      apply (ra_known _ _ _ _ _ _ _ _ H (G_Ok name)); auto.
      + subst log. now apply matched_mono.
      + intros p Q. injection Q as <-. exact C.
  Qed.

  (** The sources are numbered from 0 without gaps or repetitions: the table of
      tokens, indexed by the number, has a place for each of them. *)
  Theorem C05_ids n root content s : reads_any n root content s ->
    NoDup (map (fun x => fst (fst x)) (content_iter s)) /\
    (forall id f c, In (id, f, c) (content_iter s) ->
       id < num_sources s /\
       exists name, nth_error (source_id_strings s) id = Some name /\
         match id with
         | 0 => f = root /\ c = content /\ name = match root with Some p => p | None => lit "inline" end
         | _ => exists p, f = Some p /\ same_path p name /\ read name = Ok c
         end).
  Proof.
    intros H. apply read_any_spec in H as (log & H).
    assert (D := ra_distinct _ _ _ _ _ _ _ _ H). assert (CO := ra_content _ _ _ _ _ _ _ _ H).
    assert (KD := D). apply path_keys_distinct in KD.
    assert (CI : forall p id c ci, In (p, Content id c ci) (included_content s) ->
       0 < id /\ exists p', nth_error (source_id_strings s) id = Some p' /\ same_path p p' /\ read p' = Ok c).
    { intros p id c ci I. apply (keys_distinct_lookup path_eqb path_eqb_equiv) in I; auto. apply CO in I as (_ & P & X). auto. }
    split.
    - unfold content_iter. simpl. constructor.
      + intros I. apply in_map_iff in I as ([[id f] c] & E & I). simpl in E. subst id.
        apply in_flat_map in I as ([p [id c' ci|e|]] & I & J); simpl in J; try easy. destruct J as [J|[]]. injection J as J1 J2 J3.
        apply CI in I as [P _]. unfold root_source_id in *. lia.
      + revert D CI. clear. induction (included_content s) as [|[p src] l IH]; intros D CI; simpl; [constructor|].
        inversion D as [|? ? F D']; subst. rewrite map_app.
        assert (REC : NoDup (map (fun x => fst (fst x)) (flat_map (fun '(p, src) => match src with Content id c _ => [(id, Some p, c)] | _ => [] end) l))).
        { apply IH; auto. intros p0 id c ci I. apply CI with (ci := ci). now right. }
        destruct src as [id c ci|e|]; simpl; auto. constructor; auto.
        intros I. apply in_map_iff in I as ([[id' f] c'] & E & I). simpl in E. subst id'.
        apply in_flat_map in I as ([p2 [id2 c2 ci2|e|]] & I & J); simpl in J; try easy. destruct J as [J|[]]. injection J as -> <- <-.
        destruct (CI p id c ci) as (_ & p' & N & S & _); [now left|].
        destruct (CI p2 id c2 ci2) as (_ & p2' & N2 & S2 & _); [now right|].
        rewrite Forall_forall in F. apply (F _ I). simpl. unfold same_path in *. congruence.
    - intros id f c [I|I].
      + injection I as <- <- <-. unfold num_sources, root_source_id. rewrite (ra_names _ _ _ _ _ _ _ _ H). simpl. split; [lia|].
        eexists. split; [reflexivity|].
        rewrite (ra_root _ _ _ _ _ _ _ _ H), (ra_root_content _ _ _ _ _ _ _ _ H). auto.
      + apply in_flat_map in I as ([p [id' c' ci|e|]] & I & J); simpl in J; try easy. destruct J as [J|[]]. injection J as -> <- <-.
        destruct (CI _ _ _ _ I) as (P & p' & N & S & R). split.
        * unfold num_sources. apply nth_error_Some. congruence.
        * exists p'. split; auto. destruct id as [|id]; [lia|]. exists p. auto.
  Qed.

  (** No file is read twice under one name or several, the root included. *)
  Theorem C05_read_once n root content s : reads_any n root content s ->
    exists log cs, source_id_strings s = match root with Some p => p | None => lit "inline" end :: log /\
      Forall2 (fun p c => canonicalize p = Some c) log cs /\
      ForallOrdPairs (fun c c' => ~ same_path c c')
        (match root with Some p => match canonicalize p with Some c => [c] | None => [] end | None => [] end ++ cs).
  Proof.
    intros H. apply read_any_spec in H as (log & H). destruct (ra_once _ _ _ _ _ _ _ _ H) as (cs & A & B).
    exists log, cs. split; auto. apply (ra_names _ _ _ _ _ _ _ _ H).
  Qed.

  (** ** C04 *)

  (** Each include of each file which has been read has its glob. *)
  Theorem C04_includes_globbed n root content s : reads_any n root content s ->
    forall id f c text, In (id, f, c) (content_iter s) -> In text (get_includes c) ->
      exists g, lookup path_eqb (resolve_included_path f text) (included_globs s) = Some g.
  Proof.
    intros H id f c text I J. assert (IDS := C05_ids _ _ _ _ H). destruct IDS as [_ IDS].
    destruct (IDS _ _ _ I) as (LT & name & N & X). apply read_any_spec in H as (log & H).
    assert (GD := ra_globbed _ _ _ _ _ _ _ _ H).
    enough (W : exists q, same_path (resolve_included_path f text) q /\ wanted get_includes read root content log q).
    { destruct W as (q & S & W). apply GD in W. apply same_path_eqb in S.
      rewrite (lookup_cong path_eqb path_eqb_equiv _ _ _ S). destruct (lookup path_eqb q (included_globs s)); eauto. congruence. }
    destruct id as [|id].
    - destruct X as (-> & -> & _). eexists. split; [reflexivity|]. now constructor.
    - destruct X as (p & -> & S & R). exists (resolve_included_path (Some name) text). split; [now apply resolve_cong|].
      eapply wanted_read; eauto. rewrite (ra_names _ _ _ _ _ _ _ _ H) in N. simpl in N. eapply nth_error_In; eauto.
  Qed.

  (** So the pass over the declarations does not panic, if each include pragma
      parsed from a file is among the includes found when reading it. *)
  Theorem C04_pass_does_not_panic n root content s canonicalize' po a rootds b : reads_any n root content s ->
    names_distinct (a ++ (root, rootds) :: b) ->
    (forall f ds, In (f, ds) (a ++ (root, rootds) :: b) ->
       exists id c, In (id, f, c) (content_iter s) /\
         forall d text, In d ds -> item d = D_Pragma (P_Include text) -> In (item text) (get_includes c)) ->
    pragma_pass canonicalize' (included_globs s) (error_paths s) root (a ++ (root, rootds) :: b) (options_new po) <> Panic.
  Proof.
    intros H D FI P. apply (C04_panics_iff canonicalize' _ _ po root rootds a b D) in P as (f & ds & d & text & RE & I & J & IT & L).
    destruct (FI f ds I) as (id & c & K & IN). destruct (C04_includes_globbed _ _ _ _ H id f c (item text) K) as (g & G); eauto.
    congruence.
  Qed.
End ReadProps.

(** ** A concrete case: a cycle, a symbolic link, an unreadable file and a bad glob

    The includes of a text are taken to be its lines. *)
Section Example_read.
  Let lines (s : str) := lines_of s.
  Let file (p : path) : option (str * result str str) :=
    if str_eqb p (lit "/r") then Some (lit "/r", Ok (lit "?
a
real
[
gone"))
    else if str_eqb p (lit "/a") then Some (lit "/a", Ok (lit "link
r"))
    else if str_eqb p (lit "/real") then Some (lit "/real", Ok (lit "secret"))
    else if str_eqb p (lit "/link") then Some (lit "/real", Ok (lit "secret"))
    else if str_eqb p (lit "/secret") then Some (lit "/secret", Err (lit "denied"))
    else None.
  Let canon p := match file p with Some (c, _) => Some c | None => None end.
  Let read p := match file p with Some (_, r) => r | None => Err (lit "none") end.
  Let glob (q : str) : result (list glob_item) str :=
    if str_eqb q (lit "/[") then Err (lit "bad")
    else if str_eqb q (lit "/?") then Ok [G_Ok (lit "/a"); G_Ok (lit "/r")]
    else match file q with Some _ => Ok [G_Ok q] | None => Ok [] end.

  Example ex_read_finite : finite_fs canon.
  Proof.
    exists [lit "/r"; lit "/a"; lit "/real"; lit "/secret"]. intros p c. unfold canon, file.
    repeat match goal with |- context [str_eqb p ?x] => destruct (str_eqb p x) end;
      intros H; inversion H; subst; eexists; (split; [|reflexivity]); simpl; auto.
  Qed.

  Example ex_read : exists s, read_with_includes lines glob canon read 20 (Some (lit "/r")) (match read (lit "/r") with Ok t => t | _ => [] end) = Some s /\
    source_id_strings s = [lit "/r"; lit "/a"; lit "/real"; lit "/secret"] /\
    map fst (included_globs s) = [lit "/?"; lit "/a"; lit "/real"; lit "/["; lit "/gone"; lit "/link"; lit "/r"; lit "/secret"] /\
    map (fun e => (fst e, match snd e with Content id _ _ => Some id | _ => None end)) (included_content s)
      = [(lit "/a", Some 1); (lit "/r", None); (lit "/real", Some 2); (lit "/link", None); (lit "/secret", None)].
  Proof. eexists. split; [vm_compute; reflexivity|]. vm_compute. auto. Qed.
End Example_read.

(** ** C07: a file reached through a symbolic link (refuted)

    /r includes /a then /real; /a includes /link, which is /real.  Reading goes
    breadth first and finds /real first; the pass goes depth first and comes to
    /link first.  It is reported as a duplicate although nothing has included
    that file so far. *)
Section Example_alias.
  Let sp n := mk_span 0 n (n + 1).
  Let incl_ text n := mk_spanned (D_Pragma (P_Include (mk_spanned (lit text) (sp n)))) (sp n).
  Let lines (s : str) := lines_of s.
  Let file (p : path) : option (str * str) :=
    if str_eqb p (lit "/r") then Some (lit "/r", lit "/a
/real")
    else if str_eqb p (lit "/a") then Some (lit "/a", lit "/link")
    else if str_eqb p (lit "/real") then Some (lit "/real", [47]%N)
    else if str_eqb p (lit "/link") then Some (lit "/real", [47]%N)
    else None.
  Let canon p := match file p with Some (c, _) => Some c | None => None end.
  Let read p := match file p with Some (_, r) => Ok r | None => Err (lit "none") end.
  Let glob (q : str) : result (list glob_item) str := match file q with Some _ => Ok [G_Ok q] | None => Ok [] end.
  Let rootds := [incl_ "/a" 1; incl_ "/real" 2].
  Let parsed : table := [(Some (lit "/a"), [incl_ "/link" 3]); (Some (lit "/real"), [])].

  Theorem C07_first_include_of_link_refuted :
    exists s ds opts plugins es rest before after c,
      read_with_includes lines glob canon read 20 (Some (lit "/r")) (lit "/a
/real") = Some s /\
      pragma_pass canon (included_globs s) (error_paths s) (Some (lit "/r")) ([] ++ (Some (lit "/r"), rootds) :: parsed) (options_new default_parser_options)
      = Fine (Some (ds, (opts, plugins, [mk_report (DuplicateInclude (mk_listing [] []) None) (sp 3) []]))) /\
      walk (included_globs s) ([] ++ parsed) (Some (lit "/r")) rootds es rest /\
      es = before ++ Offered (sp 3) (lit "/link") None :: after /\
      canon (lit "/link") = Some c /\ canon (lit "/r") <> Some c /\ never_entered canon c before.
  Proof.
    eexists _, _, _, _, _, _, _, _, _. split; [vm_compute; reflexivity|].
    split; [vm_compute; reflexivity|].
    split.
    { eapply walk_include; [reflexivity|vm_compute; reflexivity| | |].
      - simpl. eapply offers_enter; [|constructor]. exists [], [(Some (lit "/real"), [])]. split; [reflexivity|]. split; reflexivity.
      - simpl rev. eapply walks_cons; [|constructor].
        eapply walk_include; [reflexivity|vm_compute; reflexivity| | |].
        + simpl. apply offers_skip; [|constructor]. intros k ds' [I|[]] S. injection I as <- <-. discriminate S.
        + constructor.
        + constructor.
      - eapply walk_include; [reflexivity|vm_compute; reflexivity| | |].
        + simpl. eapply offers_enter; [|constructor]. exists [], []. split; [reflexivity|]. split; reflexivity.
        + simpl rev. eapply walks_cons; constructor.
        + constructor. }
    split.
    { simpl app. match goal with |- ?a :: ?b :: ?c :: Offered ?s ?p None :: ?r = _ => instantiate (2 := [a; b; c]); reflexivity end. }
    split; [vm_compute; reflexivity|]. split; [vm_compute; discriminate|].
    intros s p k I. simpl in I. destruct I as [I|[I|[I|[]]]]; try discriminate. injection I as <- <- <-.
    intros (c' & C & S). vm_compute in C. injection C as <-. vm_compute in S. discriminate.
  Qed.
End Example_alias.

Print Assumptions C04_includes_globbed.
Print Assumptions C04_pass_does_not_panic.
Print Assumptions C05_terminates.
Print Assumptions C05_reads.
Print Assumptions C05_tables_consistent.
Print Assumptions C05_ids.
Print Assumptions C07_first_include_of_link_refuted.
Print Assumptions C05_root_unreadable.
Print Assumptions C05_read_once.
