(** * Properties C54, C55: reports *)
From Coq Require Import String Ascii.
From Coq Require Import List NArith Arith Bool Lia Permutation DecimalString DecimalNat.
From Verif Require Import Base BaseFacts Text TextFacts Path SpecPath PathFacts Sources SpecSources SourcesFacts SyntheticFacts
  Types Display SpecPragma PragmaFacts PragmaRun Read SpecRead ReadFacts P_Read P_Sources Report SpecReport ReportFacts.
Import ListNotations.
Local Open Scope nat_scope.

(** ** C54: writing errors and warnings *)

(** For any error or warning, whatever its spans, something can be drawn: it
    says what the error says, with each label in its place. *)
Theorem C54_drawing : forall s n, sources_wf s ->
  exists d, draw_report (get_adjusted_source s) n = Fine d /\ asked (label_for s) n d.
Proof. intros s n W. apply drawing_exists. intros sp. now apply label_exists. Qed.
Print Assumptions C54_drawing.

Lemma list_included_spec s l :
  (forall p id c ci, In (p, Content id c ci) l -> exists name, nth_error (source_id_strings s) id = Some name) ->
  exists texts, list_included s l = Fine texts /\
    Forall2 (fun '(id, _, c) '(name, c') => nth_error (source_id_strings s) id = Some name /\ c' = c)
      (flat_map (fun '(p, src) => match src with Content id c _ => [(id, Some p, c)] | _ => [] end) l) texts.
Proof.
  induction l as [|[p src] l IH]; intros H; simpl; [eauto|].
  destruct IH as (texts & E & F); [intros; eapply H; right; eauto|]. destruct src as [id c ci|e|]; simpl; eauto.
  destruct (H p id c ci) as [name N]; [now left|]. unfold source_id_string. rewrite N, E. eexists. split; [reflexivity|]. constructor; auto.
Qed.

Section Reports.
  Context (get_includes : str -> list str) (glob_with : str -> result (list glob_item) str)
          (canonicalize : path -> option path) (read : path -> result str str).
  Context (fuel : nat) (root : option path) (content : str) (s : sources).
  Context (Reads : reads_to get_includes glob_with canonicalize read fuel root content s).

  (** The texts given for drawing are those of the sources, each under its name. *)
  Theorem C54_texts : exists texts, list_sources s = Fine texts /\
    Forall2 (fun '(id, _, c) '(name, c') => nth_error (source_id_strings s) id = Some name /\ c' = c) (content_iter s) texts.
  Proof.
    destruct (C05_ids _ _ _ _ _ _ _ _ Reads) as [_ Ids].
    assert (R : exists name, nth_error (source_id_strings s) root_source_id = Some name).
    { destruct (Ids root_source_id (root_path s) (root_content s)) as (_ & name & N & _); [now left|eauto]. }
    destruct R as [name R]. unfold list_sources, source_id_string. rewrite R.
    destruct (list_included_spec s (included_content s)) as (texts & -> & F).
    { intros p id c ci H. destruct (Ids id (Some p) c) as (_ & nm & N & _); [|eauto].
      right. apply in_flat_map. exists (p, Content id c ci). split; [exact H|now left]. }
    eexists. split; [reflexivity|]. constructor; [|exact F]. auto.
  Qed.

  (** No source is called "inline" but the inline text itself. *)
  Definition inline_is_free : Prop := root = None -> ~ In (lit "inline") (tl (source_id_strings s)).

  Lemma names_distinct_strings : inline_is_free -> NoDup (source_id_strings s).
  Proof.
    intros Fr. destruct (C05_read_once _ _ _ _ _ _ _ _ Reads) as (log & cs & Nm & F & D).
    assert (Distinct : forall l cs, Forall2 (fun p c => canonicalize p = Some c) l cs -> ForallOrdPairs (fun c c' => ~ same_path c c') cs -> NoDup l).
    { clear. induction 1 as [|p c l cs E F IH]; intros D; [constructor|]. inversion D as [|? ? D1 D2]; subst. constructor; auto.
      intros In. clear IH D D2. revert In D1. induction F as [|p' c' l cs E' F IH]; simpl; [tauto|]. intros [->|In] D1; inversion D1 as [|? ? D2 D3]; subst.
      - apply D2. rewrite E in E'. injection E' as ->. reflexivity.
      - auto. }
    rewrite Nm. unfold inline_is_free in Fr. rewrite Nm in Fr. destruct root as [p|]; simpl in *.
    - destruct (canonicalize p) as [c|] eqn:C; simpl in D.
      + apply (Distinct (p :: log) (c :: cs)); [constructor; auto|exact D].
      + constructor; [|eapply Distinct; eauto]. intros In. clear - C F In. induction F; simpl in *; [tauto|]. destruct In as [->|In]; [congruence|auto].
    - constructor; [auto|]. eapply Distinct; eauto.
  Qed.

  Lemma texts_distinct texts : inline_is_free -> list_sources s = Fine texts -> NoDup (map fst texts).
  Proof.
    intros Fr L. pose proof (names_distinct_strings Fr) as D.
    destruct C54_texts as (t & L' & F). rewrite L in L'. injection L' as <-. destruct (C05_ids _ _ _ _ _ _ _ _ Reads) as [Ds _]. clear L. revert Ds.
    induction F as [|[[id1 f1] c1] [n1 c1'] xs ys [A B] F IH]; simpl; [constructor|]. intros Ds. inversion Ds as [|? ? D1 D2]; subst. constructor; auto.
    intros X. apply D1. clear IH D1 D2 Ds. induction F as [|[[id2 f2] c2] [n2 c2'] xs ys [A2 B2] F IH]; simpl in *; [tauto|].
    destruct X as [->|X]; [left|right; auto]. eapply NoDup_nth_error; [exact D| |congruence]. apply nth_error_Some. congruence.
  Qed.

  (** What is shown under the name of a source is its text, in whatever order
      the texts are given. *)
  Theorem C54_shown : forall texts texts', inline_is_free -> list_sources s = Fine texts -> Permutation texts texts' ->
    forall id f c name, In (id, f, c) (content_iter s) -> nth_error (source_id_strings s) id = Some name -> shown texts' name c.
  Proof.
    intros texts texts' Fr L P id f c name I N.
    destruct C54_texts as (t & L' & F). rewrite L in L'. injection L' as <-. destruct (C05_ids _ _ _ _ _ _ _ _ Reads) as [Ds _].
    apply shown_distinct.
    - eapply Permutation_NoDup; [apply Permutation_map; exact P|]. now apply texts_distinct.
    - eapply Permutation_in; [exact P|]. clear L P Ds. induction F as [|[[id1 f1] c1] [n1 c1'] xs ys [A B] F IH]; simpl in *; [tauto|].
      destruct I as [Q|I]; [left|right; auto]. injection Q as -> -> ->. congruence.
  Qed.

  (** So a label for a span points at the text of the span, but for the blanks
      at its end. *)
  Theorem C54_points : forall texts texts', inline_is_free -> list_sources s = Fine texts -> Permutation texts texts' ->
    forall id f c sp pre t post text name a b,
      In (id, f, c) (content_iter s) -> sp_source sp = id -> designates c sp pre t post -> without_end_blanks t text ->
      label_for s sp name a b -> points_at texts' name a b text.
  Proof.
    intros texts texts' Fr L P id f c sp pre t post text name a b I Sp D B Lf.
    destruct (C05_ids _ _ _ _ _ _ _ _ Reads) as [Ds Ids]. destruct (Ids _ _ _ I) as (Lt & nm & N & X).
    assert (T : forall n c', source_text s id n c' -> n = nm /\ c' = c).
    { intros n c' [Tn Tc]. split; [congruence|]. destruct id as [|id].
      - destruct X as (_ & -> & _). subst c'. rewrite Tn in N. apply (C05_tables_consistent _ _ _ _ _ _ _ _) in Reads as W.
        destruct Reads as (s0 & R & _ & Rc & _). rewrite Rc. unfold read_with_includes in R. destruct (read_loop _ _ _ _ _ _); [|discriminate].
        injection R as <-. reflexivity.
      - destruct X as (p & -> & Sa & Rd). assert (n = nm) by congruence. subst n.
        destruct I as [Q|I]; [discriminate|]. apply in_flat_map in I as ([p' src] & I & J). destruct src as [id' c1 ci|e|]; simpl in J; try tauto.
        destruct J as [Q|[]]. injection Q as -> -> ->.
        assert (Ps := Reads). apply read_any_spec in Ps as (log & Ps). assert (KD := ra_distinct _ _ _ _ _ _ _ _ Ps). apply path_keys_distinct in KD.
        apply (keys_distinct_lookup path_eqb path_eqb_equiv) in I; auto. apply same_path_eqb in Sa.
        rewrite <- (lookup_cong path_eqb path_eqb_equiv _ _ _ Sa), I in Tc. exact Tc. }
    rewrite <- Sp in T. inversion Lf as [n' c' pre' t' text' post' T' D' B'|n' c' T' V|n' Le N']; subst.
    - apply T in T' as [-> ->]. destruct D as (Q & A & Z). destruct D' as (Q' & A' & Z'). rewrite Q in Q'.
      apply app_inj_blen in Q' as [<- Q']; [|congruence]. apply app_inj_blen in Q' as [<- _]; [|lia].
      rewrite (end_blanks_unique _ _ _ B' B). destruct (end_blanks_prefix _ _ B) as [ws ->].
      exists pre, (ws ++ post). split; [|auto]. replace (pre ++ text ++ ws ++ post) with c by (rewrite Q, <- app_assoc; reflexivity).
      eapply (C54_shown texts texts' Fr L P (sp_source sp)); eauto.
    - apply T in T' as [-> ->]. exfalso. apply V. exists pre, t, post. exact D.
    - unfold num_sources in Lt. lia.
  Qed.

  (** Errors and warnings are written one after the other, each followed by
      its annotation on a line of its own, and nothing after a failure. *)
  Theorem C54_written : forall (W E : Type) (draw : drawing -> list (str * str) -> W -> W * option E) (put : str -> W -> W * option E) l,
    exists texts ds, list_sources s = Fine texts /\ Forall2 (fun a d => asked (label_for s) (an_notice a) d) l ds /\
      forall w, write_errors_or_warnings draw put s w l = Fine (perform draw put texts (all_actions l ds) w).
  Proof.
    intros W E draw put l. destruct C54_texts as (texts & L & _). exists texts.
    destruct (written_with (get_adjusted_source s) (label_for s) (fun sp => label_exists s sp (C05_tables_consistent _ _ _ _ _ _ _ _ Reads)) draw put texts l) as (ds & F & H).
    exists ds. split; [exact L|]. split; [exact F|]. intros w. unfold write_errors_or_warnings. rewrite L. apply H.
  Qed.

  Theorem C54_written_alone : forall (W E : Type) (draw : drawing -> list (str * str) -> W -> W * option E) n,
    exists texts d, list_sources s = Fine texts /\ asked (label_for s) n d /\
      forall w, write_report draw s w n = Fine (draw d texts w).
  Proof.
    intros W E draw n. destruct C54_texts as (texts & L & _). destruct (C54_drawing s n (C05_tables_consistent _ _ _ _ _ _ _ _ Reads)) as (d & D & A).
    exists texts, d. split; [exact L|]. split; [exact A|]. intros w. unfold write_report, write_report_with. now rewrite L, D.
  Qed.
End Reports.
Print Assumptions C54_texts.
Print Assumptions C54_shown.
Print Assumptions C54_points.
Print Assumptions C54_written.
Print Assumptions C54_written_alone.

(** *** Synthetic sources *)

Lemma synthetic_label_exists s calls sps sy : sources_wf s -> create_all (synthetic_new s) calls = (sps, sy) ->
  forall sp, exists name runes, name_and_runes (sy_get_adjusted_source sy) sp = Fine (name, runes) /\
    synthetic_label_for s calls sps sp name (sp_start runes) (sp_end runes).
Proof.
  intros W C sp. destruct (sy_inv_all s calls sps sy C) as (Inv & Len & Sp).
  destruct (le_lt_dec (length (source_id_strings s)) (sp_source sp)) as [Le|Lt]; [destruct (le_lt_dec (length (source_id_strings s) + length (sy_id_strings sy)) (sp_source sp)) as [Le'|Lt]|].
  1, 3: assert (G : sy_get_adjusted_source sy sp = get_adjusted_source s sp)
    by (unfold sy_get_adjusted_source; rewrite (inv_base _ _ _ Inv), (inv_sources _ _ _ Inv);
        match goal with |- context [if ?x then _ else _] => replace x with false; [reflexivity|] end; symmetry; apply andb_false_iff;
        first [left; apply Nat.leb_gt; lia | right; apply Nat.ltb_ge; lia]);
    destruct (label_exists s sp W) as (name & runes & E & L); exists name, runes; unfold name_and_runes in *; rewrite G;
    split; [exact E|split; [auto|]]; intros before n f after Q N; exfalso;
    destruct (Sp before n f after Q) as (i & sp' & A & B & D); rewrite N in A; injection A as A; rewrite <- A in D;
    assert (i < length (sy_id_strings sy)) by (apply nth_error_Some; congruence); rewrite D in *; simpl in *; lia.
  remember (sp_source sp - length (source_id_strings s)) as i. destruct (nth_error (sy_id_strings sy) i) as [n|] eqn:N; [|apply nth_error_None in N; lia].
  destruct (inv_some _ _ _ Inv i n N) as (ci & Lk & _). destruct (trimmed_span_never_panics (text_under n calls) sp) as [bs B].
  assert (G : sy_get_adjusted_source sy sp = Fine (text_under n calls, n, bs, byte_to_rune ci bs)).
  { unfold sy_get_adjusted_source. rewrite (inv_base _ _ _ Inv). replace (length (source_id_strings s) <=? sp_source sp) with true by (symmetry; apply Nat.leb_le; lia).
    replace (sp_source sp <? length (source_id_strings s) + length (sy_id_strings sy)) with true by (symmetry; apply Nat.ltb_lt; lia).
    simpl. rewrite <- Heqi, N, Lk, B. reflexivity. }
  exists n, (byte_to_rune ci bs). unfold name_and_runes. rewrite G. split; [reflexivity|]. split.
  - intros No. exfalso. destruct (inv_names _ _ _ Inv) as [Nd Nm]. assert (I : In n (map fst calls)) by (apply Nm; eapply nth_error_In; eauto).
    apply in_map_iff in I as ([n' f] & Q & I). simpl in Q. subst n'. apply in_split in I as (before & after & Q).
    destruct (Sp before n f after Q) as (j & sp' & A & A' & D). apply (No sp'); [eapply nth_error_In; eauto|]. rewrite D. simpl.
    enough (j = i) by lia. eapply NoDup_nth_error; [exact Nd| |congruence]. apply nth_error_Some. congruence.
  - intros before n' f after Q H. destruct (sy_adjusted s calls sps sy before n' f after sp C Q H) as (D & ci' & bs' & B' & G' & _ & K1 & K2).
    rewrite G in G'. assert (Qn : n' = n) by congruence. subst n'. assert (Qb : bs' = bs) by congruence. subst bs'.
    assert (Q4 : byte_to_rune ci bs = byte_to_rune ci' bs) by congruence. clear G'. split; [reflexivity|]. intros K text Bl.
    assert (Kc : ci' = char_offs 0 (text_under n calls)) by (destruct K as [K|[Ka Kb]]; auto).
    rewrite Kc in Q4. rewrite (runes_end_blanks _ _ _ _ _ _ _ D Bl B) in Q4. rewrite Q4. auto.
Qed.

Lemma sy_content_distinct calls : forall sy sps sy', keys_distinct str_eqb (sy_content sy) -> create_all sy calls = (sps, sy') -> keys_distinct str_eqb (sy_content sy').
Proof.
  induction calls as [|[n f] calls IH]; simpl; intros sy sps sy' K C; [injection C as <- <-; exact K|].
  destruct (create_synthetic_span sy n f) as [sp sy1] eqn:Q. destruct (create_all sy1 calls) as [sps2 sy2] eqn:R. injection C as <- <-.
  eapply IH; [|exact R]. unfold create_synthetic_span in Q. destruct (lookup str_eqb n (sy_content sy)) as [[[id c] ci]|]; injection Q as <- <-; simpl;
    apply keys_distinct_insert; auto using str_eqb_equiv.
Qed.

Section SyntheticReports.
  Context (get_includes : str -> list str) (glob_with : str -> result (list glob_item) str)
          (canonicalize : path -> option path) (read : path -> result str str).
  Context (fuel : nat) (root : option path) (content : str) (s : sources).
  Context (Reads : reads_to get_includes glob_with canonicalize read fuel root content s).
  Context (calls : list (str * str)) (sps : list span) (sy : synthetic) (Created : create_all (synthetic_new s) calls = (sps, sy)).

  (** To the texts of the sources is added, under each name which has been
      used, all that has been created under it. *)
  Theorem C54_synthetic_texts : exists texts own, list_sources s = Fine texts /\ sy_list_sources sy = Fine (texts ++ own) /\
    NoDup (map fst own) /\ forall n t, In (n, t) own <-> In n (map fst calls) /\ t = text_under n calls.
  Proof.
    destruct (C54_texts _ _ _ _ _ _ _ _ Reads) as (texts & L & _). exists texts.
    destruct (sy_inv_all s calls sps sy Created) as (Inv & _ & _). eexists. split; [exact L|].
    unfold sy_list_sources. rewrite (inv_sources _ _ _ Inv), L. split; [reflexivity|].
    pose proof (sy_content_distinct calls _ _ _ (Logic.I : keys_distinct str_eqb (sy_content (synthetic_new s))) Created) as K.
    assert (M : map fst (map (fun '(name, (_, content, _)) => (name, content)) (sy_content sy)) = map fst (sy_content sy)).
    { rewrite map_map. apply map_ext. intros [n [[id c] ci]]. reflexivity. }
    split.
    - rewrite M. clear M. revert K. generalize (sy_content sy). induction l as [|[n v] l IH]; simpl; intros K; constructor; [|tauto].
      intros I. destruct K as [K K2]. apply in_map_iff in I as ([n' v'] & Q & I). simpl in Q. subst n'. apply (keys_distinct_lookup _ str_eqb_equiv) in I; [congruence|exact K2].
    - assert (V : forall n v, lookup str_eqb n (sy_content sy) = Some v -> In n (map fst calls) /\ snd (fst v) = text_under n calls).
      { intros n v Lk. destruct (in_dec (list_eq_dec N.eq_dec) n (map fst calls)) as [I|I]; [|rewrite (inv_none _ _ _ Inv n I) in Lk; discriminate].
        split; [exact I|]. apply (proj2 (inv_names _ _ _ Inv)) in I. apply In_nth_error in I as [i I]. destruct (inv_some _ _ _ Inv i n I) as (ci & Lk' & _).
        rewrite Lk in Lk'. injection Lk' as ->. reflexivity. }
      intros n t. split.
      + intros I. apply in_map_iff in I as ([n' [[id c] ci]] & Q & I). injection Q as -> ->. apply (keys_distinct_lookup _ str_eqb_equiv) in I; auto.
        apply V in I. simpl in I. intuition.
      + intros [I ->]. apply (proj2 (inv_names _ _ _ Inv)) in I. apply In_nth_error in I as [i I]. destruct (inv_some _ _ _ Inv i n I) as (ci & Lk & _).
        apply lookup_In in Lk as (k & J & Q). apply str_eqb_eq in Q. subst k. apply in_map_iff. eexists. split; [|exact J]. reflexivity.
  Qed.

  (** If those names are not names of sources, everything is shown under its name. *)
  Theorem C54_synthetic_shown : forall texts texts', inline_is_free root s -> (forall n, In n (map fst calls) -> ~ In n (source_id_strings s)) ->
    sy_list_sources sy = Fine texts -> Permutation texts texts' ->
    (forall id f c name, In (id, f, c) (content_iter s) -> nth_error (source_id_strings s) id = Some name -> shown texts' name c) /\
    (forall n, In n (map fst calls) -> shown texts' n (text_under n calls)).
  Proof.
    intros texts texts' Fr New L P. destruct C54_synthetic_texts as (ts & own & L1 & L2 & Nd & Own). rewrite L in L2. injection L2 as ->.
    destruct (C54_texts _ _ _ _ _ _ _ _ Reads) as (t & L' & F). rewrite L1 in L'. injection L' as <-.
    assert (Dis : NoDup (map fst ts)).
    { exact (texts_distinct _ _ _ _ _ _ _ _ Reads ts Fr L1). }
    assert (In_names : forall name, In name (map fst ts) -> In name (source_id_strings s)).
    { intros name I. clear - F I. induction F as [|[[id f] c1] [n1 c2] xs ys [A B] F IH]; simpl in *; [tauto|]. destruct I as [<-|I]; [|auto]. eapply nth_error_In; eauto. }
    assert (All : NoDup (map fst (ts ++ own))).
    { rewrite map_app. apply NoDup_app_intro; auto. intros n I J. apply In_names in I. apply in_map_iff in J as ([n' t'] & Q & J). simpl in Q. subst n'.
      apply Own in J as [J _]. exact (New n J I). }
    assert (All' : NoDup (map fst texts')) by (eapply Permutation_NoDup; [apply Permutation_map; exact P|exact All]).
    split.
    - intros id f c name I N. apply shown_distinct; auto. eapply Permutation_in; [exact P|]. apply in_or_app. left.
      clear - F I N. induction F as [|[[id1 f1] c1] [n1 c1'] xs ys [A B] F IH]; simpl in *; [tauto|].
      destruct I as [Q|I]; [left|right; auto]. injection Q as -> -> ->. congruence.
    - intros n I. apply shown_distinct; auto. eapply Permutation_in; [exact P|]. apply in_or_app. right. apply Own. auto.
  Qed.

  (** Writing goes as without synthetic sources. *)
  Theorem C54_synthetic_written : forall (W E : Type) (draw : drawing -> list (str * str) -> W -> W * option E) (put : str -> W -> W * option E) l,
    exists texts ds, sy_list_sources sy = Fine texts /\ Forall2 (fun a d => asked (synthetic_label_for s calls sps) (an_notice a) d) l ds /\
      forall w, sy_write_errors_or_warnings draw put sy w l = Fine (perform draw put texts (all_actions l ds) w).
  Proof.
    intros W E draw put l. destruct C54_synthetic_texts as (ts & own & _ & L & _). exists (ts ++ own).
    destruct (written_with (sy_get_adjusted_source sy) (synthetic_label_for s calls sps)
      (synthetic_label_exists s calls sps sy (C05_tables_consistent _ _ _ _ _ _ _ _ Reads) Created) draw put (ts ++ own) l) as (ds & F & H).
    exists ds. split; [exact L|]. split; [exact F|]. intros w. unfold sy_write_errors_or_warnings. rewrite L. apply H.
  Qed.

  Theorem C54_synthetic_written_alone : forall (W E : Type) (draw : drawing -> list (str * str) -> W -> W * option E) n,
    exists texts d, sy_list_sources sy = Fine texts /\ asked (synthetic_label_for s calls sps) n d /\
      forall w, sy_write_report draw sy w n = Fine (draw d texts w).
  Proof.
    intros W E draw n. destruct C54_synthetic_texts as (ts & own & _ & L & _). exists (ts ++ own).
    destruct (drawing_exists (sy_get_adjusted_source sy) (synthetic_label_for s calls sps)
      (synthetic_label_exists s calls sps sy (C05_tables_consistent _ _ _ _ _ _ _ _ Reads) Created) n) as (d & D & A).
    exists d. split; [exact L|]. split; [exact A|]. intros w. unfold sy_write_report, write_report_with. now rewrite L, D.
  Qed.
End SyntheticReports.
Print Assumptions C54_synthetic_texts.
Print Assumptions C54_synthetic_shown.
Print Assumptions C54_synthetic_written.
Print Assumptions C54_synthetic_written_alone.

(** *** Cases *)

(** A small file system; the includes of a text are its lines. *)
Definition rp_file (p : path) : option str :=
  if str_eqb p (lit "/r") then Some (lit "/a
 x y ")
  else if str_eqb p (lit "/a") then Some ([233; 10]%N ++ lit "abc")
  else if str_eqb p (lit "inline") then Some (lit "other")
  else None.
Definition rp_canon (p : path) : option path := match rp_file p with Some _ => Some p | None => None end.
Definition rp_read (p : path) : result str str := match rp_file p with Some c => Ok c | None => Err (lit "none") end.
Definition rp_glob (q : str) : result (list glob_item) str := match rp_file q with Some _ => Ok [G_Ok q] | None => Ok [] end.
Definition rp_reads : nat -> option path -> str -> sources -> Prop := reads_to lines_of rp_glob rp_canon rp_read.

Definition rp_sources (root : option path) (content : str) : sources :=
  match read_with_includes lines_of rp_glob rp_canon rp_read 9 root content with Some s => s | None => mk_sources None [] [] [] [] [] end.
Lemma rp_reads_ok root content : read_with_includes lines_of rp_glob rp_canon rp_read 9 root content = Some (rp_sources root content) ->
  rp_reads 9 root content (rp_sources root content).
Proof. intros H. exists (rp_sources root content). split; [exact H|]. repeat (split; [reflexivity|]). reflexivity. Qed.

Definition rp_root : str := lit "/a
 x y ".
Example C54_ex_reads : rp_reads 9 (Some (lit "/r")) rp_root (rp_sources (Some (lit "/r")) rp_root).
Proof. apply rp_reads_ok. vm_compute. reflexivity. Qed.
Example C54_ex_free : inline_is_free (Some (lit "/r")) (rp_sources (Some (lit "/r")) rp_root).
Proof. discriminate. Qed.

(** A warning at "x y " in the root, in the context of "abc" in the included
    file, related to a span which is not in it, with an annotation; and an error.
    Two writers: one keeps everything, the other fails to write annotations. *)
Definition rp_notice : notice :=
  related_to (in_context (spanned_warning (mk_element (lit "tag") (mk_span 0 3 7)) (lit "why")) (mk_element (lit "note") (mk_span 1 3 6)))
    (mk_element (lit "key") (mk_span 1 1 99)).
Definition rp_keep (d : drawing) (texts : list (str * str)) (w : list action) : list action * option str := (w ++ [Draw d], None).
Definition rp_put (t : str) (w : list action) : list action * option str := (w ++ [Put t], None).
Definition rp_fail (t : str) (w : list action) : list action * option str := (w, Some (lit "full")).
Definition rp_warning : drawing :=
  mk_drawing K_Warning (lit "/r") 3 7 (lit "questionable tag")
    [mk_label (lit "/r") 3 7 (lit "why") Yellow; mk_label (lit "/a") 2 5 (lit "in this note") Yellow; mk_label (lit "/a") 0 0 (lit "key") Yellow].
Definition rp_error : drawing :=
  mk_drawing K_Error (lit "/a") 0 1 (lit "invalid open") [mk_label (lit "/a") 0 1 (lit "no") Red].
Definition rp_list : list annotated :=
  [with_annotation rp_notice (lit "note well"); unannotated (spanned_error (mk_element (lit "open") (mk_span 1 0 3)) (lit "no"))].
Example C54_ex_written :
  write_errors_or_warnings rp_keep rp_put (rp_sources (Some (lit "/r")) rp_root) [] rp_list
  = Fine ([Draw rp_warning; Put (lit "note well
"); Draw rp_error], None) /\
  write_errors_or_warnings rp_keep rp_fail (rp_sources (Some (lit "/r")) rp_root) [] rp_list = Fine ([Draw rp_warning], Some (lit "full")).
Proof. split; vm_compute; reflexivity. Qed.

(** If the inline text includes a file called "inline", what is shown for
    errors in the inline text is that file. *)
Definition rp_inline : str := lit "inline
x y".
Theorem C54_inline_name_refuted : exists s texts sp name a b,
  rp_reads 9 None rp_inline s /\ list_sources s = Fine texts /\
  sp_source sp = 0 /\ designates rp_inline sp (lit "inline
") (lit "x y") [] /\ label_for s sp name a b /\ shown texts name (lit "other") /\ ~ points_at texts name a b (lit "x y").
Proof.
  exists (rp_sources None rp_inline), [(lit "inline", rp_inline); (lit "inline", lit "other")], (mk_span 0 7 10), (lit "inline"), 7, 10.
  assert (Sh : shown [(lit "inline", rp_inline); (lit "inline", lit "other")] (lit "inline") (lit "other")).
  { exists [(lit "inline", rp_inline)], []. split; [reflexivity|]. intros []. }
  assert (D : designates rp_inline (mk_span 0 7 10) (lit "inline
") (lit "x y") []) by (split; [|split]; reflexivity).
  split; [apply rp_reads_ok; vm_compute; reflexivity|]. split; [vm_compute; reflexivity|]. split; [reflexivity|]. split; [exact D|]. split; [|split; [exact Sh|]].
  - change 10 with (length (lit "inline
") + length (lit "x y")). change 7 with (length (lit "inline
")).
    apply (lf_text _ _ _ rp_inline _ (lit "x y") _ []).
    + split; vm_compute; reflexivity.
    + exact D.
    + apply (web_text (lit "x ") 121%N []); [reflexivity|constructor].
  - intros (before & after & Sh' & Q & _). pose proof (shown_functional _ _ _ _ Sh Sh') as X.
    apply (f_equal (@List.length _)) in X. rewrite app_length, <- Q in X. simpl in X. lia.
Qed.
Print Assumptions C54_inline_name_refuted.

(** Likewise if a synthetic text is created under the name of a file. *)
Theorem C54_synthetic_name_refuted : exists s sps sy texts sp name a b,
  rp_reads 9 (Some (lit "/r")) rp_root s /\ create_all (synthetic_new s) [(lit "/r", lit "new")] = (sps, sy) /\
  sy_list_sources sy = Fine texts /\ sp_source sp = 0 /\ designates rp_root sp (lit "/a
 ") (lit "x y ") [] /\
  synthetic_label_for s [(lit "/r", lit "new")] sps sp name a b /\ shown texts name (lit "new") /\ ~ points_at texts name a b (lit "x y").
Proof.
  set (s := rp_sources (Some (lit "/r")) rp_root). set (calls := [(lit "/r", lit "new")]).
  assert (C : create_all (synthetic_new s) calls = (fst (create_all (synthetic_new s) calls), snd (create_all (synthetic_new s) calls)))
    by (destruct (create_all (synthetic_new s) calls); reflexivity).
  assert (R : rp_reads 9 (Some (lit "/r")) rp_root s) by exact C54_ex_reads.
  destruct (synthetic_label_exists s calls _ _ (C05_tables_consistent _ _ _ _ _ _ _ _ R) C (mk_span 0 4 8)) as (name & runes & E & Lf).
  vm_compute in E. injection E as <- <-. simpl sp_start in Lf. simpl sp_end in Lf.
  exists s, (fst (create_all (synthetic_new s) calls)), (snd (create_all (synthetic_new s) calls)),
    [(lit "/r", rp_root); (lit "/a", [233; 10; 97; 98; 99]%N); (lit "/r", lit "new")], (mk_span 0 4 8), (lit "/r"), 4, 7.
  split; [exact R|]. split; [exact C|]. split; [vm_compute; reflexivity|]. split; [reflexivity|]. split; [split; [|split]; reflexivity|]. split; [exact Lf|].
  assert (Sh : shown [(lit "/r", rp_root); (lit "/a", [233; 10; 97; 98; 99]%N); (lit "/r", lit "new")] (lit "/r") (lit "new")).
  { exists [(lit "/r", rp_root); (lit "/a", [233; 10; 97; 98; 99]%N)], []. split; [reflexivity|]. intros []. }
  split; [exact Sh|]. intros (before & after & Sh' & Q & _). pose proof (shown_functional _ _ _ _ Sh Sh') as X.
  apply (f_equal (@List.length _)) in X. rewrite !app_length, <- Q in X. simpl in X. lia.
Qed.
Print Assumptions C54_synthetic_name_refuted.

(** After text outside ASCII, labels of synthetic spans are out of place. *)
Theorem C54_synthetic_place_refuted : exists s sps sy sp name a b texts,
  rp_reads 9 (Some (lit "/r")) rp_root s /\
  create_all (synthetic_new s) [(lit "p", [233; 233; 233]%N); (lit "p", lit "a"); (lit "p", lit "bc")] = (sps, sy) /\
  nth_error sps 2 = Some sp /\ sy_list_sources sy = Fine texts /\
  name_and_runes (sy_get_adjusted_source sy) sp = Fine (name, mk_span (sp_source sp) a b) /\
  shown texts name ([233; 233; 233]%N ++ lit "abc") /\ ~ points_at texts name a b (lit "bc").
Proof.
  eexists (rp_sources (Some (lit "/r")) rp_root), _, _, _, _, _, _, _. split; [exact C54_ex_reads|].
  split; [vm_compute; reflexivity|]. split; [reflexivity|]. split; [vm_compute; reflexivity|]. split; [vm_compute; reflexivity|].
  match goal with |- ?A /\ _ => assert (Sh : A) end.
  { eexists [_; _], []. split; [vm_compute; reflexivity|]. intros []. }
  split; [exact Sh|]. intros (before & after & Sh' & Qa & Qb). pose proof (shown_functional _ _ _ _ Sh Sh') as X.
  simpl in Qa, Qb. apply (f_equal (@List.length _)) in X. rewrite !app_length in X. simpl in X. lia.
Qed.
Print Assumptions C54_synthetic_place_refuted.

(** ** C55: building errors and warnings *)

(** Whatever is added to an error or warning, it keeps its kind, message,
    reason and span, and has all contexts and related elements in the order
    in which they were added. *)
Theorem C55_built : forall cs n, let n' := fold_left called cs n in
  nt_kind n' = nt_kind n /\ nt_message n' = nt_message n /\ nt_reason n' = nt_reason n /\ nt_span n' = nt_span n /\
  contexts n' = contexts n ++ map named (flat_map contexts_by cs) /\ related n' = related n ++ map named (flat_map related_by cs).
Proof.
  induction cs as [|c cs IH]; intros n; cbn zeta; simpl.
  - rewrite !app_nil_r. auto 10.
  - destruct (IH (called n c)) as (A & B & C & D & F & G). rewrite A, B, C, D, F, G, !map_app, !app_assoc.
    destruct c; simpl; rewrite ?app_nil_r; unfold contexts, related; simpl; auto 10.
Qed.
Print Assumptions C55_built.
Example C55_ex_built :
  let n := spanned_error (mk_element (lit "open") (mk_span 0 1 2)) (lit "no") in
  let a := mk_element (lit "a") (mk_span 0 3 4) in let b := mk_element (lit "b") (mk_span 1 5 6) in
  fold_left called [In_context a; Related_to_all [b; a]; In_contexts []; Related_to a; In_context b] n =
  mk_notice K_Error (lit "invalid open") (lit "no") (mk_span 0 1 2) (Some [named a; named b]) (Some [named b; named a; named a]).
Proof. reflexivity. Qed.

(** The same for the ways of the library itself. *)
Theorem C55_built_within : forall n name sp l,
  (let n' := related_to_named_span n name sp in
   nt_kind n' = nt_kind n /\ nt_message n' = nt_message n /\ nt_reason n' = nt_reason n /\ nt_span n' = nt_span n /\
   contexts n' = contexts n /\ related n' = related n ++ [(name, sp)]) /\
  (let n' := in_explicitly_labelled_contexts n l in
   nt_kind n' = nt_kind n /\ nt_message n' = nt_message n /\ nt_reason n' = nt_reason n /\ nt_span n' = nt_span n /\
   contexts n' = contexts n ++ l /\ related n' = related n).
Proof. intros n name sp l. split; cbn zeta; auto 10. Qed.
Print Assumptions C55_built_within.

(** An error or warning about an element is at that element, says what it is,
    and has nothing else. *)
Theorem C55_about_element : forall e reason,
  (let n := spanned_error e reason in
   nt_kind n = K_Error /\ nt_message n = lit "invalid " ++ el_type e /\ nt_reason n = reason /\ nt_span n = el_span e /\ contexts n = [] /\ related n = []) /\
  (let n := spanned_warning e reason in
   nt_kind n = K_Warning /\ nt_message n = lit "questionable " ++ el_type e /\ nt_reason n = reason /\ nt_span n = el_span e /\ contexts n = [] /\ related n = []).
Proof. intros e reason. split; cbn zeta; auto 10. Qed.
Print Assumptions C55_about_element.

(** What [Display] says: the message, the reason in brackets, then the place;
    of two errors with the same message and reason and without contexts, which
    are displayed alike, the spans are the same. *)
Theorem C55_display : forall n, exists rest, display_notice n = nt_message n ++ lit " (" ++ nt_reason n ++ lit ") at " ++ rest /\
  forall n' rest', contexts n = [] -> contexts n' = [] -> display_notice n' = nt_message n' ++ lit " (" ++ nt_reason n' ++ lit ") at " ++ rest' ->
    rest' = rest -> nt_span n' = nt_span n.
Proof.
  assert (X : forall n, exists rest, display_notice n = nt_message n ++ lit " (" ++ nt_reason n ++ lit ") at " ++ rest /\
    (contexts n = [] -> rest = show_nat (sp_start (nt_span n)) ++ 46%N :: 46%N :: show_nat (sp_end (nt_span n)) ++ lit " of source " ++ show_nat (sp_source (nt_span n)))).
  { intros n. eexists. split; [unfold display_notice; simpl; reflexivity|]. unfold contexts. intros H. destruct (nt_contexts n) as [l|]; simpl in *; subst; simpl; rewrite ?app_nil_r; reflexivity. }
  intros n. destruct (X n) as (rest & E & R). exists rest. split; [exact E|]. intros n' rest' C C' E' Q. destruct (X n') as (r & E2 & R').
  rewrite E' in E2. do 4 apply app_inv_head in E2. subst r rest'. rewrite (R C) in R'. specialize (R' C').
  assert (D46 : ~ digit 46%N) by (unfold digit; lia). assert (D32 : ~ digit 32%N) by (unfold digit; lia).
  apply digits_then in R' as [A R']; auto using show_nat_digits. injection R' as R'.
  apply (digits_then _ _ 32%N 32%N) in R' as [B R']; auto using show_nat_digits. injection R' as R'.
  apply show_nat_inj in A, B, R'. destruct (nt_span n), (nt_span n'); simpl in *; congruence.
Qed.
Print Assumptions C55_display.

(** All of what it says. *)
Lemma show_nat_value n : fold_left (fun value c => 10 * value + (N.to_nat c - 48)) (show_nat n) 0 = n.
Proof.
  unfold show_nat. assert (H : forall u acc, fold_left (fun value c => 10 * value + (N.to_nat c - 48)) (lit (NilEmpty.string_of_uint u)) acc = Nat.of_uint_acc u acc).
  { induction u as [|u IH|u IH|u IH|u IH|u IH|u IH|u IH|u IH|u IH|u IH]; intro acc; [reflexivity|..];
      (cbn [NilEmpty.string_of_uint Nat.of_uint_acc]; rewrite <- IH; unfold lit; cbn [list_ascii_of_string map fold_left]; f_equal; rewrite Nat.tail_mul_spec; cbn - [Nat.mul]; lia). }
  rewrite H. apply DecimalNat.Unsigned.of_to.
Qed.
Lemma numeral_show n : numeral n (show_nat n).
Proof.
  split; [|split; [|split]].
  - pose proof (DecimalNat.Unsigned.to_of (Nat.to_uint n)) as H. rewrite DecimalNat.Unsigned.of_to in H. unfold show_nat.
    destruct (Nat.to_uint n); [discriminate H|discriminate..].
  - pose proof (show_nat_digits n) as H. eapply Forall_impl; [|exact H]. intros c Hc. unfold digit in Hc. lia.
  - pose proof (DecimalNat.Unsigned.to_of (Nat.to_uint n)) as H. rewrite DecimalNat.Unsigned.of_to in H.
    unfold show_nat. remember (Nat.to_uint n) as u eqn:Q. clear Q. destruct u as [|u|u|u|u|u|u|u|u|u|u]; cbn; intro Z; try discriminate.
    unfold Decimal.unorm in H. cbn [Decimal.nzhead] in H. assert (X : forall w, Decimal.nzhead w <> Decimal.D0 u) by (induction w; cbn; congruence).
    destruct (Decimal.nzhead u) eqn:Y; try discriminate H; [|exfalso; eapply X; rewrite Y; symmetry; exact H].
    injection H as ->. reflexivity.
  - apply show_nat_value.
Qed.
Theorem C55_told : forall n, told n (display_notice n).
Proof.
  intro n. exists (show_nat (sp_source (nt_span n))), (show_nat (sp_start (nt_span n))), (show_nat (sp_end (nt_span n))),
    (map (fun c => lit " while parsing " ++ fst c ++ lit " at " ++ debug_span (snd c)) (contexts n)).
  do 3 (split; [apply numeral_show|]). split.
  - induction (contexts n) as [|[name sp] l IH]; constructor; auto. exists (debug_span sp). split; [|reflexivity].
    exists (show_nat (sp_source sp)), (show_nat (sp_start sp)), (show_nat (sp_end sp)). do 3 (split; [apply numeral_show|]). reflexivity.
  - unfold display_notice, contexts. rewrite <- flat_map_concat_map. destruct (nt_contexts n); cbn [flat_map]; rewrite ?app_nil_r; repeat (cbn [lit list_ascii_of_string map app]; rewrite <- ?app_assoc); reflexivity.
Qed.
Print Assumptions C55_told.
Example C55_ex_display : display_notice (in_context (spanned_error (mk_element (lit "open") (mk_span 0 10 207)) (lit "no")) (mk_element (lit "note") (mk_span 1 3 6)))
  = lit "invalid open (no) at 10..207 of source 0 while parsing note at Span { source: 1, start: 3, end: 6 }".
Proof. reflexivity. Qed.

(** An error about a directive names it as the directive is written: by its
    keyword, and a transaction, which has none, as such. *)
Theorem C55_directive_named : forall D (d : spanned directive) reason,
  nt_span (spanned_error (directive_element d) reason) = span_of d /\
  exists keyword, nt_message (spanned_error (directive_element d) reason) = lit "invalid " ++ keyword /\
    match dir_variant (item d) with
    | V_Transaction _ _ _ _ => keyword = lit "transaction"
    | _ => exists rest, display_directive D (item d) = de_date D (item (dir_date (item d))) ++ lit " " ++ keyword ++ lit " " ++ rest
    end.
Proof.
  intros D d reason. split; [reflexivity|]. eexists. split; [reflexivity|]. unfold directive_element, display_directive. simpl el_type.
  destruct (dir_variant (item d)); simpl; [reflexivity|..]; eexists; reflexivity.
Qed.
Print Assumptions C55_directive_named.
