(** * The pragma pass follows its specification *)
From Coq Require Import String Ascii.
From Coq Require Import List NArith ZArith Arith Bool Lia ZifyBool ZifyN Permutation.
From Verif Require Import Base BaseFacts Path PathFacts Sources Types Options SpecOptions OptionsFacts Pragma SpecPragma PragmaFacts.
Import ListNotations.
Local Open Scope nat_scope.

Lemma same_path_eqb p q : path_eqb p q = true <-> same_path p q.
Proof. apply path_eqb_eq. Qed.

Lemma opt_path_equiv : eq_equiv opt_path_eqb.
Proof.
  destruct path_eqb_equiv as (R & S & T). split; [|split].
  - intros [p|]; simpl; auto.
  - intros [p|] [q|]; simpl; auto.
  - intros [p|] [q|] [r|]; simpl; try discriminate; eauto.
Qed.

(** ** Taking a file out of the table *)

Lemma remove_entry_spec (t : table) p :
  match remove_entry opt_path_eqb (Some p) t with
  | Some (k, ds, t') => exists kp, k = Some kp /\ takes t p kp ds t'
  | None => absent t p
  end.
Proof.
  induction t as [|[k ds] t IH]; simpl.
  - intros k ds [].
  - destruct k as [k|].
    + destruct (path_eqb p k) eqn:E.
      * exists k. split; auto. exists [], t. repeat split. now apply same_path_eqb.
      * destruct (remove_entry opt_path_eqb (Some p) t) as [[[k' ds'] t']|].
        -- destruct IH as (kp & -> & a & b & -> & -> & S). exists kp. split; auto. exists ((Some k, ds) :: a), b. auto.
        -- intros k' ds' [I|I]; [|eapply IH; eauto]. inversion I; subst. intros S. apply same_path_eqb in S. congruence.
    + destruct (remove_entry opt_path_eqb (Some p) t) as [[[k' ds'] t']|].
      * destruct IH as (kp & -> & a & b & -> & -> & S). exists kp. split; auto. exists ((None, ds) :: a), b. auto.
      * intros k' ds' [I|I]; [discriminate|]. eapply IH; eauto.
Qed.

(** ** Listings *)

Lemma listing_lists seen m n : tags_agree m (fun t => tag_stack t seen) -> metas_agree n (fun k => meta_stack k seen) ->
  lists seen (listing_of m n).
Proof.
  intros (D & A & B) (D' & A' & B'). constructor; cbn [listing_of ls_tags ls_meta].
  - intro t. rewrite in_map_iff. split.
    + intros ([k others] & <- & I). cbn [fst]. rewrite (proj1 (A _ _ I)). cbn. intro X. destruct (app_cons_not_nil _ _ _ (eq_sym X)).
    + intro X. destruct (lookup spanned_str_eqb (mk_spanned t (mk_span 0 0 0)) m) as [v|] eqn:L; [|apply B in L; contradiction].
      apply lookup_In in L as (k & I & Q). exists (k, v). split; [|exact I]. apply ss_true in Q. symmetry. exact Q.
  - apply keys_distinct_NoDup. exact D.
  - intros k vs. rewrite in_map_iff. split.
    + intros ([k' values] & X & I). cbn [fst snd] in X. injection X as <- <-. destruct (A' _ _ I) as [-> (v & rest & ->)].
      rewrite rev_involutive. split; [|reflexivity]. cbn. intro X. destruct (app_cons_not_nil _ _ _ (eq_sym X)).
    + intros [X ->]. destruct (lookup spanned_str_eqb (mk_spanned k (mk_span 0 0 0)) n) as [v|] eqn:L; [|apply B' in L; contradiction].
      apply lookup_In in L as (k' & I & Q). exists (k', v). apply ss_true in Q. cbn in Q. subst k. split; [|exact I].
      cbn [fst snd]. rewrite (proj1 (A' _ _ I)), rev_involutive. reflexivity.
  - rewrite map_map. cbn [fst]. apply keys_distinct_NoDup. exact D'.
Qed.

Lemma lists_unique seen l l' : lists seen l -> lists seen l' -> alike_listing l l'.
Proof.
  intros [A B C D] [A' B' C' D']. split.
  - apply NoDup_Permutation; auto. intro t. rewrite A, A'. reflexivity.
  - apply NoDup_Permutation; eauto using NoDup_map_inv. intros [k vs]. rewrite C, C'. reflexivity.
Qed.

Lemma lists_alike seen l l' : lists seen l -> alike_listing l l' -> lists seen l'.
Proof.
  intros [A B C D] [P Q]. constructor.
  - intro t. rewrite <- A. split; apply Permutation_in; [symmetry|]; exact P.
  - exact (Permutation_NoDup P B).
  - intros k vs. rewrite <- C. split; apply Permutation_in; [symmetry|]; exact Q.
  - exact (Permutation_NoDup (Permutation_map fst Q) D).
Qed.

(** ** The invariant *)

Section Run.
  Context (canonicalize : path -> option path).
  Context (globs : list (path * included_glob)).
  Context (error_paths : list (option path * list N)).
  Context (po : parser_options).

  Notation last_entered := (last_entered canonicalize).
  Notation never_entered := (never_entered canonicalize).
  Notation due := (due canonicalize globs error_paths).
  Notation dues := (dues canonicalize globs error_paths).

  Definition includes_ok (m : list (path * include_context)) (seen : list event) : Prop :=
    forall c, match lookup path_eqb c m with
    | Some ic => exists before, last_entered c seen (ic_span ic) before /\
                   tags_agree (ic_tags ic) (fun t => tag_stack t before) /\
                   metas_agree (ic_meta ic) (fun k => meta_stack k before)
    | None => never_entered c seen
    end.

  Record at_point (seen : list event) (s : processor) : Prop := {
    ap_tags : tags_agree (pp_tags s) (fun t => tag_stack t seen);
    ap_meta : metas_agree (pp_meta s) (fun k => meta_stack k seen);
    ap_includes : includes_ok (pp_includes s) seen;
    ap_options : pp_options s = fst (assimilate_all (options_new po) (options_of seen));
    ap_plugins : pp_plugins s = plugins_of seen;
    ap_errors : dues [] seen (pp_errors s)
  }.

  Lemma dues_snoc seen es e rs r : dues seen es rs -> due (seen ++ es) e r -> dues seen (es ++ [e]) (rs ++ r).
  Proof.
    intros H. induction H as [seen|seen e0 es rs rs' D H IH]; intros Q; simpl.
    - rewrite app_nil_r in Q. rewrite <- (app_nil_r r). constructor; auto. constructor.
    - rewrite <- app_assoc. constructor; auto. apply IH. now rewrite <- app_assoc.
  Qed.

  Lemma assimilate_all_snoc o opts x :
    fst (assimilate_all o (opts ++ [x])) = fst (options_assimilate (fst (assimilate_all o opts)) x).
  Proof.
    revert o; induction opts as [|y opts IH]; intros o; simpl.
    - destruct (options_assimilate o x); reflexivity.
    - destruct (options_assimilate o y) as [o1 r]. specialize (IH o1).
      destruct (assimilate_all o1 (opts ++ [x])), (assimilate_all o1 opts). exact IH.
  Qed.

  (** Events which are not pushes or pops do not matter to the stacks. *)
  Definition no_push (e : event) : Prop :=
    match e with
    | Declared _ d => match item d with
                      | D_Pragma (P_Pushtag _) | D_Pragma (P_Poptag _)
                      | D_Pragma (P_Pushmeta _) | D_Pragma (P_Popmeta _) => False
                      | _ => True
                      end
    | Offered _ _ _ => True
    end.

  Lemma no_push_tag e t st : no_push e -> tag_effect t st e = st.
  Proof. destruct e as [f d|]; simpl; auto. destruct (item d) as [x|[]]; simpl; tauto. Qed.
  Lemma no_push_meta e t st : no_push e -> meta_effect t st e = st.
  Proof. destruct e as [f d|]; simpl; auto. destruct (item d) as [x|[]]; simpl; tauto. Qed.

  Lemma no_push_tags m seen e : no_push e ->
    tags_agree m (fun t => tag_stack t seen) -> tags_agree m (fun t => tag_stack t (seen ++ [e])).
  Proof. intros N. apply tags_agree_ext. intros x. now rewrite tag_stack_snoc, no_push_tag. Qed.
  Lemma no_push_metas m seen e : no_push e ->
    metas_agree m (fun t => meta_stack t seen) -> metas_agree m (fun t => meta_stack t (seen ++ [e])).
  Proof. intros N. apply metas_agree_ext. intros x. now rewrite meta_stack_snoc, no_push_meta. Qed.

  Definition enters (e : event) : option path :=
    match e with Offered _ _ k => k | _ => None end.

  Lemma includes_ok_other m seen e : enters e = None -> includes_ok m seen -> includes_ok m (seen ++ [e]).
  Proof.
    intros N H c. specialize (H c). destruct (lookup path_eqb c m) as [ic|].
    - destruct H as (b & (p & k & after & -> & F & L) & R). exists b. split; auto.
      exists p, k, (after ++ [e]). rewrite <- app_assoc. simpl. split; auto. split; auto.
      intros sp' p' k' I. apply in_app_iff in I as [I|[I|[]]]; eauto. subst e. discriminate.
    - intros sp p k I. apply in_app_iff in I as [I|[I|[]]]; eauto. subst e. discriminate.
  Qed.

  Lemma includes_ok_enter m seen sp p k c tags meta : includes_ok m seen ->
    canonicalize k = Some c ->
    tags_agree tags (fun t => tag_stack t seen) -> metas_agree meta (fun t => meta_stack t seen) ->
    includes_ok (insert path_eqb c (mk_ic tags meta sp) m) (seen ++ [Offered sp p (Some k)]).
  Proof.
    intros H C T M x. rewrite lookup_insert by apply path_eqb_equiv. destruct (path_eqb x c) eqn:E.
    - exists seen. simpl. split; auto. exists p, k, []. split; auto. split.
      + exists c. split; auto. apply path_eqb_eq in E. symmetry. exact E.
      + intros ? ? ? [].
    - specialize (H x).
      assert (NX : forall k', k' = k -> ~ is_file canonicalize k' x).
      { intros k' -> (c' & C' & S). rewrite C in C'. injection C' as <-. symmetry in S. apply same_path_eqb in S. congruence. }
      destruct (lookup path_eqb x m) as [ic|].
      + destruct H as (b & (p0 & k0 & after & -> & F & L) & R). exists b. split; auto.
        exists p0, k0, (after ++ [Offered sp p (Some k)]). rewrite <- app_assoc. simpl. split; auto. split; auto.
        intros sp' p' k' I. apply in_app_iff in I as [I|[I|[]]]; eauto. inversion I; subst. now apply NX.
      + intros sp' p' k' I. apply in_app_iff in I as [I|[I|[]]]; eauto. inversion I; subst. now apply NX.
  Qed.

  Lemma includes_ok_enter_nowhere m seen sp p k : includes_ok m seen ->
    canonicalize k = None -> includes_ok m (seen ++ [Offered sp p (Some k)]).
  Proof.
    intros H C x. specialize (H x).
    assert (NX : forall k', k' = k -> ~ is_file canonicalize k' x) by (intros k' -> (c' & C' & S); congruence).
    destruct (lookup path_eqb x m) as [ic|].
    - destruct H as (b & (p0 & k0 & after & -> & F & L) & R). exists b. split; auto.
      exists p0, k0, (after ++ [Offered sp p (Some k)]). rewrite <- app_assoc. simpl. split; auto. split; auto.
      intros sp' p' k' I. apply in_app_iff in I as [I|[I|[]]]; eauto. inversion I; subst. now apply NX.
    - intros sp' p' k' I. apply in_app_iff in I as [I|[I|[]]]; eauto. inversion I; subst. now apply NX.
  Qed.

  (** ** Offering a path *)

  Lemma not_entered_due seen s sp p : at_point seen s ->
    due_not_entered canonicalize error_paths seen sp p
      (match not_entered canonicalize error_paths s p sp with Some r => [r] | None => [] end).
  Proof.
    intros [T M I _ _ _]. unfold not_entered. pose proof (listing_lists _ _ _ T M) as LL.
    destruct (lookup opt_path_eqb (Some p) error_paths) as [e|] eqn:L; [now constructor|].
    destruct (canonicalize p) as [c|] eqn:C; [|apply due_root; auto; intros ? ?; congruence].
    specialize (I c). destruct (lookup path_eqb c (pp_includes s)) as [ic|].
    - destruct I as (before & E & T0 & M0).
      assert (SC : tags_eqb (ic_tags ic) (pp_tags s) && metas_eqb (ic_meta ic) (pp_meta s) = true <-> same_context before seen).
      { rewrite andb_true_iff. rewrite (tags_eqb_spec _ _ _ _ T0 T), (metas_eqb_spec _ _ _ _ M0 M). reflexivity. }
      destruct (tags_eqb (ic_tags ic) (pp_tags s) && metas_eqb (ic_meta ic) (pp_meta s)).
      + eapply due_harmless; eauto. now apply SC.
      + eapply due_other_context; eauto using listing_lists. intros Q. apply SC in Q. discriminate.
    - apply due_root; auto. intros c1 Q. rewrite C in Q. injection Q as <-. exact I.
  Qed.

  Definition work (s : processor) : table := (pp_path s, pp_decls s) :: pp_stacked s.

  Lemma offer_spec seen s sp p : at_point seen s ->
    exists e fs, offers sp (pp_remaining s) [p] [e] fs (pp_remaining (offer canonicalize error_paths sp s p)) /\
      at_point (seen ++ [e]) (offer canonicalize error_paths sp s p) /\
      work (offer canonicalize error_paths sp s p) = rev fs ++ work s.
  Proof.
    intros A. unfold offer. pose proof (remove_entry_spec (pp_remaining s) p) as R.
    destruct (remove_entry opt_path_eqb (Some p) (pp_remaining s)) as [[[k ds] t']|].
    - destruct R as (kp & -> & R). exists (Offered sp p (Some kp)), [(Some kp, ds)]. split.
      { econstructor; eauto. constructor. }
      split; [|reflexivity]. destruct A as [T M I O P E]. constructor; simpl.
      + now apply no_push_tags.
      + now apply no_push_metas.
      + destruct (canonicalize kp) as [c|] eqn:C; [now apply includes_ok_enter|now apply includes_ok_enter_nowhere].
      + unfold options_of. rewrite flat_map_app. simpl. now rewrite app_nil_r.
      + unfold plugins_of. rewrite flat_map_app. simpl. now rewrite app_nil_r.
      + rewrite <- (app_nil_r (pp_errors s)). apply dues_snoc; auto. reflexivity.
    - exists (Offered sp p None), []. split.
      { constructor; [|destruct (not_entered canonicalize error_paths s p sp); constructor]. auto. }
      split; [|destruct (not_entered canonicalize error_paths s p sp); reflexivity].
      pose proof (not_entered_due seen s sp p A) as D. destruct A as [T M I O P E].
      constructor.
      + destruct (not_entered canonicalize error_paths s p sp); now apply no_push_tags.
      + destruct (not_entered canonicalize error_paths s p sp); now apply no_push_metas.
      + destruct (not_entered canonicalize error_paths s p sp); now apply includes_ok_other.
      + unfold options_of. rewrite flat_map_app. simpl. rewrite app_nil_r. destruct (not_entered canonicalize error_paths s p sp); auto.
      + unfold plugins_of. rewrite flat_map_app. simpl. rewrite app_nil_r. destruct (not_entered canonicalize error_paths s p sp); auto.
      + destruct (not_entered canonicalize error_paths s p sp) as [r|].
        * simpl. apply dues_snoc; auto.
        * rewrite <- (app_nil_r (pp_errors s)). apply dues_snoc; auto.
  Qed.

  Lemma offers_app sp t ps1 es1 fs1 t1 ps2 es2 fs2 t2 :
    offers sp t ps1 es1 fs1 t1 -> offers sp t1 ps2 es2 fs2 t2 ->
    offers sp t (ps1 ++ ps2) (es1 ++ es2) (fs1 ++ fs2) t2.
  Proof. induction 1; intros H2; simpl; auto; econstructor; eauto. Qed.

  Lemma offer_all_spec sp ps : forall seen s, at_point seen s ->
    exists es fs, offers sp (pp_remaining s) ps es fs (pp_remaining (fold_left (offer canonicalize error_paths sp) ps s)) /\
      at_point (seen ++ es) (fold_left (offer canonicalize error_paths sp) ps s) /\
      work (fold_left (offer canonicalize error_paths sp) ps s) = rev fs ++ work s.
  Proof.
    induction ps as [|p ps IH]; intros seen s A; simpl.
    - exists [], []. rewrite app_nil_r. split; [constructor|auto].
    - destruct (offer_spec seen s sp p A) as (e & fs & O & A1 & W).
      destruct (IH _ _ A1) as (es & fs2 & O2 & A2 & W2).
      exists (e :: es), (fs ++ fs2). split.
      + apply (offers_app sp _ [p] [e] fs _ ps es fs2 _ O O2).
      + split; [now rewrite <- app_assoc in A2|]. rewrite W2, W, rev_app_distr, app_assoc. reflexivity.
  Qed.

  (** ** One declaration *)

  Lemma plugins_snoc seen e : plugins_of (seen ++ [e]) = plugins_of seen ++ as_plugin e.
  Proof. unfold plugins_of. rewrite flat_map_app. simpl. now rewrite app_nil_r. Qed.
  Lemma options_snoc seen e : options_of (seen ++ [e]) = options_of seen ++ as_option e.
  Proof. unfold options_of. rewrite flat_map_app. simpl. now rewrite app_nil_r. Qed.

  (** A change of state which does what the event [Declared f d] asks for,
      if that is not an include. *)
  Lemma pragma_spec seen s f sp p : at_point seen s -> is_include (D_Pragma p) = false ->
    let d := mk_spanned (D_Pragma p) sp in
    exists s', do_pragma canonicalize globs error_paths s p = Fine s' /\
      at_point (seen ++ [Declared f d]) s' /\ work s' = work s /\ pp_remaining s' = pp_remaining s.
  Proof.
    intros [T M I O P E] NI d.
    assert (NE : forall x, enters (Declared f x) = None) by reflexivity.
    destruct p as [t|t|kv|k|g|o|pl]; try discriminate; simpl.
    - eexists; split; [reflexivity|]. split; [|auto]. constructor; simpl.
      + eapply tags_agree_ext; [|apply push_tag_agree; exact T]. intros x. rewrite tag_stack_snoc. reflexivity.
      + eapply metas_agree_ext; [|exact M]. intros x. rewrite meta_stack_snoc. reflexivity.
      + now apply includes_ok_other.
      + rewrite options_snoc. simpl. now rewrite app_nil_r.
      + rewrite plugins_snoc. simpl. now rewrite app_nil_r.
      + rewrite <- (app_nil_r (pp_errors s)). apply dues_snoc; auto. reflexivity.
    - eexists; split; [reflexivity|]. pose proof (pop_tag_agree t _ _ T) as Q.
      destruct (pop_tag t (pp_tags s)) as [m|].
      + destruct Q as [NZ Q]. split; [|auto]. constructor; simpl.
        * eapply tags_agree_ext; [|exact Q]. intros x. rewrite tag_stack_snoc. reflexivity.
        * eapply metas_agree_ext; [|exact M]. intros x. rewrite meta_stack_snoc. reflexivity.
        * now apply includes_ok_other.
        * rewrite options_snoc. simpl. now rewrite app_nil_r.
        * rewrite plugins_snoc. simpl. now rewrite app_nil_r.
        * rewrite <- (app_nil_r (pp_errors s)). apply dues_snoc; auto. simpl.
          destruct (tag_stack (item t) seen); [tauto|auto].
      + split; [|auto]. constructor; simpl.
        * eapply tags_agree_ext; [|exact T]. intros x. rewrite tag_stack_snoc. simpl.
          destruct (str_eqb (item t) x) eqn:R; auto. apply str_eqb_eq in R. subst x. now rewrite Q.
        * eapply metas_agree_ext; [|exact M]. intros x. rewrite meta_stack_snoc. reflexivity.
        * now apply includes_ok_other.
        * rewrite options_snoc. simpl. now rewrite app_nil_r.
        * rewrite plugins_snoc. simpl. now rewrite app_nil_r.
        * apply dues_snoc; auto. simpl. now rewrite Q.
    - eexists; split; [reflexivity|]. split; [|auto]. constructor; simpl.
      + eapply tags_agree_ext; [|exact T]. intros x. rewrite tag_stack_snoc. reflexivity.
      + eapply metas_agree_ext; [|apply push_meta_agree; exact M]. intros x. rewrite meta_stack_snoc. reflexivity.
      + now apply includes_ok_other.
      + rewrite options_snoc. simpl. now rewrite app_nil_r.
      + rewrite plugins_snoc. simpl. now rewrite app_nil_r.
      + rewrite <- (app_nil_r (pp_errors s)). apply dues_snoc; auto. reflexivity.
    - eexists; split; [reflexivity|]. pose proof (pop_meta_agree k _ _ M) as Q.
      destruct (pop_meta k (pp_meta s)) as [m|].
      + destruct Q as [NZ Q]. split; [|auto]. constructor; simpl.
        * eapply tags_agree_ext; [|exact T]. intros x. rewrite tag_stack_snoc. reflexivity.
        * eapply metas_agree_ext; [|exact Q]. intros x. rewrite meta_stack_snoc. reflexivity.
        * now apply includes_ok_other.
        * rewrite options_snoc. simpl. now rewrite app_nil_r.
        * rewrite plugins_snoc. simpl. now rewrite app_nil_r.
        * rewrite <- (app_nil_r (pp_errors s)). apply dues_snoc; auto. simpl.
          destruct (meta_stack (item k) seen); [tauto|auto].
      + split; [|auto]. constructor; simpl.
        * eapply tags_agree_ext; [|exact T]. intros x. rewrite tag_stack_snoc. reflexivity.
        * eapply metas_agree_ext; [|exact M]. intros x. rewrite meta_stack_snoc. simpl.
          destruct (str_eqb (item k) x) eqn:R; auto. apply str_eqb_eq in R. subst x. now rewrite Q.
        * now apply includes_ok_other.
        * rewrite options_snoc. simpl. now rewrite app_nil_r.
        * rewrite plugins_snoc. simpl. now rewrite app_nil_r.
        * apply dues_snoc; auto. simpl. now rewrite Q.
    - destruct (assimilate_all_spec po [] (options_new po) (options_of seen) (state_after_nil po)) as [SA _].
      simpl in SA. rewrite <- O in SA. destruct (assimilate_step po _ _ o SA) as [_ R].
      destruct (options_assimilate (pp_options s) o) as [os r] eqn:OA. simpl in R.
      eexists; split; [reflexivity|].
      assert (OS : os = fst (assimilate_all (options_new po) (options_of (seen ++ [Declared f d])))).
      { rewrite options_snoc. simpl. rewrite assimilate_all_snoc, <- O, OA. reflexivity. }
      assert (DU : due seen (Declared f d) (match r with Some r => [r] | None => [] end)) by (simpl; now rewrite R).
      destruct r as [r|]; (split; [|auto]); constructor; simpl.
      all: try (eapply tags_agree_ext; [|exact T]; intros x; rewrite tag_stack_snoc; reflexivity).
      all: try (eapply metas_agree_ext; [|exact M]; intros x; rewrite meta_stack_snoc; reflexivity).
      all: try (now apply includes_ok_other).
      all: try (rewrite plugins_snoc; simpl; now rewrite app_nil_r).
      all: try exact OS.
      + apply dues_snoc; auto.
      + rewrite <- (app_nil_r (pp_errors s)). apply dues_snoc; auto.
    - eexists; split; [reflexivity|]. split; [|auto]. constructor; simpl.
      + eapply tags_agree_ext; [|exact T]. intros x. rewrite tag_stack_snoc. reflexivity.
      + eapply metas_agree_ext; [|exact M]. intros x. rewrite meta_stack_snoc. reflexivity.
      + now apply includes_ok_other.
      + rewrite options_snoc. simpl. now rewrite app_nil_r.
      + rewrite plugins_snoc. simpl. now rewrite P.
      + rewrite <- (app_nil_r (pp_errors s)). apply dues_snoc; auto. reflexivity.
  Qed.

  Lemma at_point_declared_quiet seen s f d r : at_point seen s ->
    no_push (Declared f d) -> as_option (Declared f d) = [] -> as_plugin (Declared f d) = [] ->
    due seen (Declared f d) (match r with Some r => [r] | None => [] end) ->
    at_point (seen ++ [Declared f d]) (match r with Some r => with_error s r | None => s end).
  Proof.
    intros [T M I O P E] NP NO NPL D.
    destruct r as [r|]; constructor; simpl; rewrite ?options_snoc, ?plugins_snoc, ?NO, ?NPL, ?app_nil_r;
      auto using no_push_tags, no_push_metas, includes_ok_other.
    - apply dues_snoc; auto.
    - rewrite <- (app_nil_r (pp_errors s)). apply dues_snoc; auto.
  Qed.

  Lemma include_spec seen s d g : at_point seen s -> item d = D_Pragma (P_Include g) ->
    match do_include canonicalize globs error_paths s g with
    | Panic => glob_of globs (pp_path s) (item g) = None
    | Fine s' =>
        exists gl es fs, glob_of globs (pp_path s) (item g) = Some gl /\
          offers (span_of g) (pp_remaining s) (expansion gl) es fs (pp_remaining s') /\
          at_point (seen ++ Declared (pp_path s) d :: es) s' /\
          work s' = rev fs ++ work s
    end.
  Proof.
    intros A ID. unfold do_include.
    assert (NP : no_push (Declared (pp_path s) d)) by (simpl; now rewrite ID).
    assert (NO : as_option (Declared (pp_path s) d) = []) by (simpl; now rewrite ID).
    assert (NPL : as_plugin (Declared (pp_path s) d) = []) by (simpl; now rewrite ID).
    assert (DU : due seen (Declared (pp_path s) d)
       match glob_of globs (pp_path s) (item g) with
       | Some (Expanded []) => [mk_report IncludeNoSuchFile (span_of g) []]
       | Some (GlobError e) => [mk_report (IncludeGlobError e) (span_of g) []]
       | _ => []
       end) by (simpl; now rewrite ID).
    unfold glob_of in *.
    destruct (lookup path_eqb (resolve_included_path (pp_path s) (item g)) globs) as [[ps|e]|]; auto.
    - assert (A1 : at_point (seen ++ [Declared (pp_path s) d])
                (match ps with [] => with_error s (mk_report IncludeNoSuchFile (span_of g) []) | _ => s end)).
      { destruct ps.
        - apply (at_point_declared_quiet seen s (pp_path s) d (Some (mk_report IncludeNoSuchFile (span_of g) []))); auto.
        - apply (at_point_declared_quiet seen s (pp_path s) d None); auto. }
      destruct (offer_all_spec (span_of g) ps _ _ A1) as (es & fs & O & A2 & W).
      exists (Expanded ps), es, fs. split; auto. split; [|split].
      + destruct ps; exact O.
      + now rewrite <- app_assoc in A2.
      + rewrite W. now destruct ps.
    - exists (GlobError e), [], []. split; auto. split; [constructor|]. split; [|reflexivity].
      apply (at_point_declared_quiet seen s (pp_path s) d (Some (mk_report (IncludeGlobError e) (span_of g) []))); auto.
  Qed.

  (** ** The whole run *)

  Lemma walks_app t a b es t2 : walks globs t (a ++ b) es t2 ->
    exists es1 es2 t1, es = es1 ++ es2 /\ walks globs t a es1 t1 /\ walks globs t1 b es2 t2.
  Proof.
    revert t es; induction a as [|[f ds] a IH]; intros t es H; simpl in H.
    - exists [], es, t. split; auto. split; auto. constructor.
    - inversion H; subst. destruct (IH _ _ H7) as (x & y & t3 & -> & A & B).
      exists (es1 ++ x), y, t3. split; [now rewrite app_assoc|]. split; auto. econstructor; eauto.
  Qed.

  Lemma at_point_decls seen s ds : at_point seen s -> at_point seen (with_decls s ds).
  Proof. intros [T M I O P E]; constructor; auto. Qed.

  Lemma run_spec n : forall seen s ds s', at_point seen s ->
    pp_run canonicalize globs error_paths n s = Fine (Some (ds, s')) ->
    exists es, walks globs (pp_remaining s) (work s) es (pp_remaining s') /\
      yields seen es ds /\ at_point (seen ++ es) s'.
  Proof.
    induction n as [|n IH]; intros seen s ds s' A; simpl; [discriminate|].
    unfold pp_step. destruct (pp_decls s) as [|d rest] eqn:DS.
    - destruct (pp_stacked s) as [|[p ds1] stk] eqn:ST.
      + intros H; injection H as <- <-. exists []. rewrite app_nil_r. split; [|split; auto; constructor].
        unfold work. rewrite DS, ST. apply (walks_cons globs _ _ [] [] [] (pp_remaining s) []); constructor.
      + intros H. eapply IH in H as (es & W & Y & A').
        2:{ destruct A as [T M I O P E]. constructor; [exact T|exact M|exact I|exact O|exact P|exact E]. }
        exists es. split; [|auto]. unfold work. rewrite DS, ST. simpl in W. unfold work in W; simpl in W.
        apply (walks_cons globs _ _ [] _ [] (pp_remaining s)); auto. constructor.
    - set (s1 := with_decls s rest). assert (A1 : at_point seen s1) by now apply at_point_decls.
      destruct d as [[dir|p] sp]; simpl item; simpl span_of.
      + destruct (do_directive_spec seen s1 dir (ap_tags _ _ A1) (ap_meta _ _ A1)) as (dir' & DD & AU).
        rewrite DD. destruct (pp_run canonicalize globs error_paths n s1) as [[[ds2 s2]|]|] eqn:R; try discriminate.
        intros H; injection H as <- <-.
        assert (A2 : at_point (seen ++ [Declared (pp_path s) (mk_spanned (D_Directive dir) sp)]) s1).
        { apply (at_point_declared_quiet seen s1 (pp_path s) _ None A1); simpl; auto. }
        destruct (IH _ _ _ _ A2 R) as (es & W & Y & A').
        exists (Declared (pp_path s) (mk_spanned (D_Directive dir) sp) :: es). split; [|split].
        * unfold work in *. rewrite DS. simpl in W. inversion W; subst.
          apply (walks_cons globs _ _ _ _ (Declared _ _ :: es1) t1); auto. constructor; auto.
        * eapply yields_directive; [reflexivity|exact AU|reflexivity|exact Y].
        * now rewrite <- app_assoc in A'.
      + destruct (is_include (D_Pragma p)) eqn:II.
        * destruct p as [| | | |g| |]; try discriminate. simpl do_pragma.
          pose proof (include_spec seen s1 (mk_spanned (D_Pragma (P_Include g)) sp) g A1 eq_refl) as IS.
          destruct (do_include canonicalize globs error_paths s1 g) as [s2|]; [|discriminate].
          destruct IS as (gl & oes & fs & GL & OF & A2 & WK).
          intros R. destruct (IH _ _ _ _ A2 R) as (es & W & Y & A').
          exists (Declared (pp_path s) (mk_spanned (D_Pragma (P_Include g)) sp) :: oes ++ es). split; [|split].
          -- rewrite WK in W. unfold work in W |- *. rewrite DS. apply walks_app in W as (e1 & e2 & t1 & -> & W1 & W2).
             simpl in W2. inversion W2; subst.
             replace (Declared (pp_path s) (mk_spanned (D_Pragma (P_Include g)) sp) :: oes ++ e1 ++ es1 ++ es2)
               with ((Declared (pp_path s) (mk_spanned (D_Pragma (P_Include g)) sp) :: oes ++ e1 ++ es1) ++ es2)
               by (simpl; now rewrite <- !app_assoc).
             econstructor; [|eauto]. eapply walk_include; eauto; reflexivity.
          -- apply yields_other; [reflexivity|].
             assert (YO : forall oes seen es ds, Forall (fun e => as_directive e = None) oes -> yields (seen ++ oes) es ds -> yields seen (oes ++ es) ds).
             { clear. induction oes as [|o oes IH]; intros seen es ds F Y; simpl; [now rewrite app_nil_r in Y|].
               inversion F; subst. apply yields_other; auto. apply IH; auto. now rewrite <- app_assoc. }
             apply YO; [|now rewrite <- app_assoc; simpl].
             clear -OF. induction OF; constructor; auto.
          -- rewrite <- app_assoc in A'. exact A'.
        * destruct (pragma_spec seen s1 (pp_path s) sp p A1 II) as (s2 & DP & A2 & WK & RM).
          rewrite DP. intros R. destruct (IH _ _ _ _ A2 R) as (es & W & Y & A').
          exists (Declared (pp_path s) (mk_spanned (D_Pragma p) sp) :: es). split; [|split].
          -- rewrite WK, RM in W. unfold work in *. rewrite DS. simpl in W. inversion W; subst.
             apply (walks_cons globs _ _ _ _ (Declared _ _ :: es1) t1); auto. constructor; auto.
          -- apply yields_other; auto.
          -- now rewrite <- app_assoc in A'.
  Qed.
End Run.

(** ** Which files are entered *)

Scheme walk_ind2 := Induction for walk Sort Prop
with walks_ind2 := Induction for walks Sort Prop.
Combined Scheme walk_walks_ind from walk_ind2, walks_ind2.

Definition is_declared (e : event) : bool := match e with Declared _ _ => true | _ => false end.
Definition own (f : option (list N) * list (spanned declaration)) : list event := map (Declared (fst f)) (snd f).

Lemma takes_perm t p k ds t' : takes t p k ds t' -> Permutation t ((Some k, ds) :: t').
Proof. intros (a & b & -> & -> & _). symmetry. apply Permutation_middle. Qed.

Lemma offers_perm sp t ps es fs t1 : offers sp t ps es fs t1 -> Permutation t (fs ++ t1).
Proof.
  induction 1; auto. simpl. rewrite (takes_perm _ _ _ _ _ H). now constructor.
Qed.

Lemma offers_declared sp t ps es fs t1 : offers sp t ps es fs t1 -> filter is_declared es = [].
Proof. induction 1; auto. Qed.

Lemma absent_sub (t t' : table) p : incl t' t -> absent t p -> absent t' p.
Proof. intros I A k ds H. eauto. Qed.

Lemma names_distinct_keys t : names_distinct t <-> keys_distinct opt_path_eqb t.
Proof.
  unfold names_distinct. induction t as [|[k v] t IH]; simpl.
  - split; auto. constructor.
  - rewrite lookup_None by apply opt_path_equiv. split.
    + intros H; inversion H; subst. split; [|now apply IH]. intros k' v' I.
      rewrite Forall_forall in H2. specialize (H2 _ I). simpl in H2.
      destruct k as [k|], k' as [k'|]; simpl in *; auto; try tauto.
      destruct (path_eqb k k') eqn:E; auto. apply same_path_eqb in E. tauto.
    + intros [A B]. constructor; [|now apply IH]. apply Forall_forall. intros [k' v'] I. specialize (A _ _ I).
      simpl. destruct k as [k|], k' as [k'|]; simpl in *; auto; try discriminate.
      intros E. apply same_path_eqb in E. congruence.
Qed.

Lemma names_distinct_perm t t' : Permutation t t' -> names_distinct t -> names_distinct t'.
Proof.
  intros P D. unfold names_distinct in *. induction P.
  - auto.
  - inversion D; subst. constructor; auto. rewrite Forall_forall in *. intros y I. apply H1. now rewrite P.
  - inversion D; subst. inversion H2; subst. inversion H1; subst. constructor; [constructor; [|exact H3]|constructor; [exact H6|exact H4]].
    intros Q. apply H5. destruct x as [[]], y as [[]]; simpl in *; auto. now symmetry.
  - auto.
Qed.

(** The name decides the content. *)
Lemma names_distinct_same t f ds f' ds' : names_distinct t ->
  In (f, ds) t -> In (f', ds') t -> same_file f f' -> (f, ds) = (f', ds').
Proof.
  intros D I J S. apply In_nth_error in I as [i I], J as [j J].
  revert i j I J. induction D as [|x t F D IH]; intros i j I J; [destruct i; discriminate|].
  rewrite Forall_forall in F.
  destruct i as [|i], j as [|j]; simpl in I, J.
  - congruence.
  - injection I as ->. apply nth_error_In in J. apply F in J. now elim J.
  - injection J as ->. apply nth_error_In in I. apply F in I. elim I. destruct f, f'; simpl in *; auto. now symmetry.
  - eauto.
Qed.

Lemma takes_unique t p k ds t' k2 ds2 t2 : names_distinct t ->
  takes t p k ds t' -> takes t p k2 ds2 t2 -> k = k2 /\ ds = ds2 /\ t' = t2.
Proof.
  intros D (a & b & -> & -> & S) (a2 & b2 & E & -> & S2).
  revert a2 E D. induction a as [|x a IH]; intros [|y a2] E D; simpl in E.
  - injection E as -> -> ->. auto.
  - injection E as <- ->. inversion D; subst. rewrite Forall_forall in H1.
    elim (H1 (Some k2, ds2)); [apply in_app_iff; right; now left|]. simpl. unfold same_path in *. congruence.
  - injection E as -> <-. inversion D; subst. rewrite Forall_forall in H1.
    elim (H1 (Some k, ds)); [apply in_app_iff; right; now left|]. simpl. unfold same_path in *. congruence.
  - injection E as -> E. inversion D; subst. destruct (IH _ E H2) as (-> & -> & Q). simpl. now rewrite Q.
Qed.

Lemma offers_unique sp t ps es fs t1 : offers sp t ps es fs t1 -> names_distinct t ->
  forall es2 fs2 t2, offers sp t ps es2 fs2 t2 -> es = es2 /\ fs = fs2 /\ t1 = t2.
Proof.
  induction 1 as [t|t p ps k ds t1 es fs t2 T O IH|t p ps es fs t1 A O IH]; intros D es' fs' t' O'.
  - inversion O'; auto.
  - inversion O' as [|? ? ? ? ? ? ? ? ? T' O2|? ? ? ? ? ? A' O2]; subst.
    + destruct (takes_unique _ _ _ _ _ _ _ _ D T T') as (<- & <- & <-).
      assert (D1 : names_distinct t1).
      { apply takes_perm in T. apply (names_distinct_perm _ _ T) in D. now inversion D. }
      destruct (IH D1 _ _ _ O2) as (-> & -> & ->). auto.
    + destruct T as (a & b & -> & _ & S). elim (A' k ds); auto. apply in_app_iff; right; now left.
  - inversion O' as [|? ? ? ? ? ? ? ? ? T' O2|? ? ? ? ? ? A' O2]; subst.
    + destruct T' as (a & b & -> & _ & S). elim (A k ds); auto. apply in_app_iff; right; now left.
    + destruct (IH D _ _ _ O2) as (-> & -> & ->). auto.
Qed.

Lemma names_distinct_app_r a b : names_distinct (a ++ b) -> names_distinct b.
Proof. induction a; simpl; auto. intros H; inversion H; auto. Qed.

Section Reach.
  Context (globs : list (path * included_glob)) (T : table) (root : option path).
  Notation reached := (reached globs T root).

  Lemma walk_perm :
    (forall t f ds es t', walk globs t f ds es t' ->
       incl t T -> reached f -> (forall d, In d ds -> exists ds0, In (f, ds0) T /\ In d ds0) ->
       exists ent, Permutation t (ent ++ t') /\ Permutation (filter is_declared es) (own (f, ds) ++ flat_map own ent) /\
         forall x, In x ent -> reached (fst x)) /\
    (forall t fs es t', walks globs t fs es t' ->
       incl t T -> (forall x, In x fs -> reached (fst x)) ->
       (forall f ds d, In (f, ds) fs -> In d ds -> exists ds0, In (f, ds0) T /\ In d ds0) ->
       exists ent, Permutation t (ent ++ t') /\ Permutation (filter is_declared es) (flat_map own fs ++ flat_map own ent) /\
         forall x, In x ent -> reached (fst x)).
  Proof.
    apply walk_walks_ind; intros.
    - exists []. simpl. split; auto. split; auto. intros ? [].
    - destruct H as (ent & P & Q & R); auto; [intros; apply H2; now right|]. exists ent. simpl. split; auto.
    - rename o into OF.
      assert (P0 := offers_perm _ _ _ _ _ _ OF).
      assert (RF : forall x, In x fs -> reached (fst x)).
      { destruct (H3 d) as (ds0 & I0 & I1); [now left|].
        assert (forall x, In x fs -> exists p k, In p (expansion g) /\ same_path p k /\ fst x = Some k /\ In (Some k, snd x) T) as Q.
        { clear - OF H1. revert OF H1. induction 1; intros IT x I; [easy| |].
          - destruct H as (a & b & -> & -> & S). destruct I as [<-|I].
            + exists p, k. simpl. split; auto. split; auto. split; auto. apply IT. apply in_app_iff. right. now left.
            + destruct (IHOF) with (x := x) as (p' & k' & A & B & C & D); auto.
              { intros y J. apply IT. apply in_app_iff in J. apply in_app_iff. simpl. tauto. }
              exists p', k'. simpl. auto.
          - destruct (IHOF IT x I) as (p' & k' & A & B & C & D). exists p', k'. simpl. auto. }
        intros x I. destruct (Q x I) as (p & k & A & B & -> & D). eapply reached_include with (f := f); eauto. }
      assert (IF : incl fs T).
      { intros x I. apply H1. rewrite P0. apply in_app_iff. auto. }
      destruct H as (ent1 & P1 & Q1 & R1).
      { intros x I. apply H1. rewrite P0. apply in_app_iff. auto. }
      { intros x I. apply in_rev in I. auto. }
      { intros f' ds' d' I I'. apply in_rev in I. exists ds'. auto. }
      destruct H0 as (ent2 & P2 & Q2 & R2); auto.
      { intros x I. apply H1. rewrite P0. apply in_app_iff. right. rewrite P1. apply in_app_iff. auto. }
      { intros d' I. apply H3. now right. }
      exists (fs ++ ent1 ++ ent2). split; [|split].
      + rewrite P0, P1, P2. now rewrite !app_assoc.
      + simpl. constructor. rewrite !filter_app, (offers_declared _ _ _ _ _ _ OF), Q1, Q2. simpl.
        rewrite !flat_map_app. rewrite <- (Permutation_rev fs).
        rewrite !app_assoc. apply Permutation_app_tail. rewrite Permutation_app_comm. rewrite !app_assoc. reflexivity.
      + intros x I. apply in_app_iff in I as [I|I]; auto. apply in_app_iff in I as [I|I]; auto.
    - exists []. simpl. split; auto.
    - destruct H as (ent1 & P1 & Q1 & R1); auto.
      { apply (H2 (f, ds)). now left. }
      { intros d I. eapply H3; [now left|auto]. }
      destruct H0 as (ent2 & P2 & Q2 & R2).
      { intros x I. apply H1. rewrite P1. apply in_app_iff. auto. }
      { intros x I. apply H2. now right. }
      { intros f' ds' d I. apply H3. now right. }
      exists (ent1 ++ ent2). split; [|split].
      + rewrite P1, P2. now rewrite app_assoc.
      + rewrite filter_app, Q1, Q2. simpl. rewrite flat_map_app, <- !app_assoc.
        apply Permutation_app_head. rewrite !app_assoc. apply Permutation_app_tail. apply Permutation_app_comm.
      + intros x I. apply in_app_iff in I as [I|I]; auto.
  Qed.

  Lemma walk_rest :
    (forall t f ds es t', walk globs t f ds es t' -> exists ent, Permutation t (ent ++ t')) /\
    (forall t fs es t', walks globs t fs es t' -> exists ent, Permutation t (ent ++ t')).
  Proof.
    apply walk_walks_ind; intros; auto; try (now exists []).
    - assert (P0 := offers_perm _ _ _ _ _ _ o). destruct H as (e1 & P1), H0 as (e2 & P2).
      exists (fs ++ e1 ++ e2). rewrite P0, P1, P2. now rewrite !app_assoc.
    - destruct H as (e1 & P1), H0 as (e2 & P2). exists (e1 ++ e2). rewrite P1, P2. now rewrite app_assoc.
  Qed.

  Lemma perm_sub (t e t' : table) : Permutation t (e ++ t') -> incl t' t.
  Proof. intros P x I. rewrite P. apply in_app_iff. auto. Qed.

  Lemma perm_distinct (t e t' : table) : Permutation t (e ++ t') -> names_distinct t -> names_distinct t'.
  Proof. intros P D. eapply names_distinct_app_r. eapply names_distinct_perm; eauto. Qed.

  Lemma offers_absent sp t ps es fs t1 : offers sp t ps es fs t1 -> names_distinct t ->
    forall p, In p ps -> absent t1 p.
  Proof.
    induction 1 as [t|t p ps k ds t1 es fs t2 TK O IH|t p ps es fs t1 A O IH]; intros D q I; [easy| |].
    - assert (P := takes_perm _ _ _ _ _ TK). apply (names_distinct_perm _ _ P) in D. inversion D; subst.
      destruct I as [<-|I]; [|eauto].
      assert (P2 := offers_perm _ _ _ _ _ _ O).
      intros k' ds' J S. rewrite Forall_forall in H1. apply (H1 (Some k', ds')).
      + rewrite P2. apply in_app_iff. auto.
      + simpl. destruct TK as (? & ? & _ & _ & S'). unfold same_path in *. congruence.
    - destruct I as [<-|I]; [|eauto]. assert (P2 := offers_perm _ _ _ _ _ _ O).
      eapply absent_sub; [|eauto]. intros x J. rewrite P2. apply in_app_iff. auto.
  Qed.

  Definition includes_done (es : list event) (t' : table) : Prop :=
    forall f d text, In (Declared f d) es -> item d = D_Pragma (P_Include text) ->
      exists g, glob_of globs f (item text) = Some g /\ forall p, In p (expansion g) -> absent t' p.

  Lemma includes_done_sub es t t' : incl t' t -> includes_done es t -> includes_done es t'.
  Proof. intros I H f d text J K. destruct (H f d text J K) as (g & G & A). exists g. split; auto. intros p L. eapply absent_sub; eauto. Qed.
  Lemma includes_done_app a b t : includes_done a t -> includes_done b t -> includes_done (a ++ b) t.
  Proof. intros A B f d text J K. apply in_app_iff in J as [J|J]; eauto. Qed.

  Lemma walk_done :
    (forall t f ds es t', walk globs t f ds es t' -> names_distinct t -> includes_done es t') /\
    (forall t fs es t', walks globs t fs es t' -> names_distinct t -> includes_done es t').
  Proof.
    apply walk_walks_ind; intros.
    - intros ? ? ? [].
    - specialize (H H0). intros f' d' text [I|I] K; [|eauto]. injection I as <- <-. rewrite K in e. discriminate.
    - assert (P0 := offers_perm _ _ _ _ _ _ o).
      assert (D1 : names_distinct t1) by (eapply names_distinct_app_r; eapply names_distinct_perm; eauto).
      destruct (proj2 walk_rest _ _ _ _ w) as [e1 P1]. destruct (proj1 walk_rest _ _ _ _ _ w0) as [e2 P2].
      assert (S1 := perm_sub _ _ _ P1). assert (S2 := perm_sub _ _ _ P2).
      assert (ND2 := perm_distinct _ _ _ P1 D1).
      specialize (H D1). specialize (H0 ND2).
      change (includes_done ([Declared f d] ++ offered ++ es1 ++ es2) t3).
      apply includes_done_app; [|apply includes_done_app; [|apply includes_done_app]].
      + intros f' d' text' [I|[]] K. injection I as <- <-. rewrite K in e. injection e as ->. exists g. split; auto.
        intros p J. eapply absent_sub; [|eapply offers_absent; eauto]. eapply incl_tran; eauto.
      + intros f' d' text' I K. exfalso. clear -o I. induction o; simpl in I; intuition discriminate.
      + eapply includes_done_sub; eauto.
      + auto.
    - intros ? ? ? [].
    - destruct (proj1 walk_rest _ _ _ _ _ w) as [e1 P1]. destruct (proj2 walk_rest _ _ _ _ w0) as [e2 P2].
      apply includes_done_app.
      + eapply includes_done_sub; [eapply perm_sub; eauto|auto].
      + apply H0. eapply perm_distinct; eauto.
  Qed.

  Lemma walk_unique :
    (forall t f ds es t', walk globs t f ds es t' -> names_distinct t ->
       forall es2 t2, walk globs t f ds es2 t2 -> es = es2 /\ t' = t2) /\
    (forall t fs es t', walks globs t fs es t' -> names_distinct t ->
       forall es2 t2, walks globs t fs es2 t2 -> es = es2 /\ t' = t2).
  Proof.
    apply walk_walks_ind; intros.
    - inversion H0; auto.
    - inversion H1 as [|? ? ? ? ? ? NI W|? ? ? ? ? ? ? ? ? ? ? ? ? II]; subst; [|now rewrite II in e].
      destruct (H H0 _ _ W) as (-> & ->). auto.
    - inversion H2 as [|? ? ? ? ? ? NI W|? ? ? ? ? ? ? ? ? ? ? ? ? II GG OO W1 W2]; subst; [now rewrite e in NI|].
      rewrite e in II. injection II as <-. rewrite e0 in GG. injection GG as <-.
      destruct (offers_unique _ _ _ _ _ _ o H1 _ _ _ OO) as (<- & <- & <-).
      assert (D1 := perm_distinct _ _ _ (offers_perm _ _ _ _ _ _ o) H1).
      destruct (H D1 _ _ W1) as (<- & <-).
      destruct (proj2 walk_rest _ _ _ _ w) as [x P1].
      destruct (H0 (perm_distinct _ _ _ P1 D1) _ _ W2) as (<- & <-). auto.
    - inversion H0; auto.
    - inversion H2 as [|? ? ? ? ? ? ? ? W1 W2]; subst.
      destruct (H H1 _ _ W1) as (<- & <-). destruct (proj1 walk_rest _ _ _ _ _ w) as [x P1].
      destruct (H0 (perm_distinct _ _ _ P1 H1) _ _ W2) as (<- & <-). auto.
  Qed.
End Reach.

(** ** Termination *)

Lemma decl_count_perm a b : Permutation a b -> decl_count a = decl_count b.
Proof. unfold decl_count. induction 1; simpl; lia. Qed.

Lemma pp_fuel_eq s : pp_fuel s = decl_count (work s) + decl_count (pp_remaining s).
Proof. unfold pp_fuel, work, decl_count. simpl. lia. Qed.

Section Terminates.
  Context (canonicalize : path -> option path).
  Context (globs : list (path * included_glob)).
  Context (error_paths : list (option path * list N)).

  Lemma offer_fuel sp s p : pp_fuel (offer canonicalize error_paths sp s p) = pp_fuel s.
  Proof.
    unfold offer. pose proof (remove_entry_spec (pp_remaining s) p) as R.
    destruct (remove_entry opt_path_eqb (Some p) (pp_remaining s)) as [[[k ds] t']|].
    - destruct R as (kp & -> & R). apply takes_perm, decl_count_perm in R. rewrite !pp_fuel_eq.
      unfold work, decl_count in *. simpl in *. lia.
    - destruct (not_entered canonicalize error_paths s p sp); reflexivity.
  Qed.

  Lemma offer_all_fuel sp ps : forall s, pp_fuel (fold_left (offer canonicalize error_paths sp) ps s) = pp_fuel s.
  Proof. induction ps as [|p ps IH]; intros s; simpl; auto. now rewrite IH, offer_fuel. Qed.

  Lemma pragma_fuel s p s' : do_pragma canonicalize globs error_paths s p = Fine s' -> pp_fuel s' = pp_fuel s.
  Proof.
    destruct p as [t|t|kv|k|g|o|pl]; simpl; intros H.
    - injection H as <-. reflexivity.
    - injection H as <-. now destruct (pop_tag t (pp_tags s)).
    - injection H as <-. reflexivity.
    - injection H as <-. now destruct (pop_meta k (pp_meta s)).
    - unfold do_include in H. destruct (lookup path_eqb _ globs) as [[ps|e]|]; try discriminate; injection H as <-; auto.
      rewrite offer_all_fuel. now destruct ps.
    - destruct (options_assimilate (pp_options s) o) as [os [r|]]; injection H as <-; reflexivity.
    - injection H as <-. reflexivity.
  Qed.

  Lemma step_fuel s : match pp_step canonicalize globs error_paths s with
    | Fine (Yield _ s') | Fine (Continue s') => S (pp_fuel s') = pp_fuel s
    | _ => True
    end.
  Proof.
    unfold pp_step. destruct (pp_decls s) as [|d ds] eqn:D.
    - destruct (pp_stacked s) as [|[p ds] stk] eqn:ST; auto. unfold pp_fuel. simpl. rewrite D, ST. unfold decl_count. simpl. lia.
    - assert (E : S (pp_fuel (with_decls s ds)) = pp_fuel s) by (unfold pp_fuel; simpl; rewrite D; simpl; lia).
      destruct (item d) as [dir|p].
      + destruct (do_directive (with_decls s ds) dir); auto.
      + destruct (do_pragma canonicalize globs error_paths (with_decls s ds) p) as [s2|] eqn:DP; auto.
        apply pragma_fuel in DP. lia.
  Qed.

  Lemma run_total n : forall s, pp_fuel s <= n -> pp_run canonicalize globs error_paths n s <> Fine None.
  Proof.
    induction n as [|n IH]; intros s L; [unfold pp_fuel in L; lia|]. simpl.
    pose proof (step_fuel s) as F. destruct (pp_step canonicalize globs error_paths s) as [[d s'|s'|]|]; try discriminate.
    - specialize (IH s' ltac:(lia)). destruct (pp_run canonicalize globs error_paths n s') as [[[ds s2]|]|]; congruence.
    - apply IH. lia.
  Qed.

  Lemma run_mono n : forall s m, n <= m -> pp_run canonicalize globs error_paths n s <> Fine None ->
    pp_run canonicalize globs error_paths m s = pp_run canonicalize globs error_paths n s.
  Proof.
    induction n as [|n IH]; intros s m L N; [now elim N|]. destruct m as [|m]; [lia|]. simpl in *.
    destruct (pp_step canonicalize globs error_paths s) as [[d s'|s'|]|]; auto.
    - rewrite (IH s' m); [auto|lia|]. intros Q. rewrite Q in N. congruence.
    - apply IH; auto. lia.
  Qed.
End Terminates.

(** ** Panics *)

Section Panics.
  Context (canonicalize : path -> option path).
  Context (globs : list (path * included_glob)).
  Context (error_paths : list (option path * list N)).
  Context (po : parser_options) (T : table) (root : option path).

  Definition missing_glob : Prop :=
    exists f ds d text, reached globs T root f /\ In (f, ds) T /\ In d ds /\
      item d = D_Pragma (P_Include text) /\ glob_of globs f (item text) = None.

  Definition within (s : processor) : Prop :=
    incl (pp_remaining s) T /\
    forall f ds, In (f, ds) (work s) -> reached globs T root f /\ exists ds0, In (f, ds0) T /\ incl ds ds0.

  Lemma offers_from sp t ps es fs t1 : offers sp t ps es fs t1 -> incl t T ->
    incl t1 T /\ forall x, In x fs -> In x T /\ exists p k, In p ps /\ same_path p k /\ fst x = Some k.
  Proof.
    induction 1 as [t|t p ps k ds t1 es fs t2 TK O IH|t p ps es fs t1 A O IH]; intros I.
    - split; auto. easy.
    - assert (P := takes_perm _ _ _ _ _ TK).
      destruct IH as [I2 F]; [intros x J; apply I; rewrite P; now right|]. split; auto.
      intros x [<-|J].
      + split; [apply I; rewrite P; now left|]. exists p, k. destruct TK as (? & ? & _ & _ & S). simpl. auto.
      + destruct (F x J) as (K & p' & k' & L & M & Q). split; auto. exists p', k'. simpl. auto.
    - destruct (IH I) as [I2 F]. split; auto. intros x J. destruct (F x J) as (K & p' & k' & L & M & Q).
      split; auto. exists p', k'. simpl. auto.
  Qed.

  Lemma run_panic n : forall seen s, at_point canonicalize globs error_paths po seen s -> within s ->
    pp_run canonicalize globs error_paths n s = Panic -> missing_glob.
  Proof.
    induction n as [|n IH]; intros seen s A [WR WW]; simpl; [discriminate|].
    unfold pp_step. destruct (pp_decls s) as [|d rest] eqn:DS.
    - destruct (pp_stacked s) as [|[p ds1] stk] eqn:ST; [discriminate|].
      intros H. eapply IH in H; eauto.
      + destruct A as [TA M I O P E]. constructor; [exact TA|exact M|exact I|exact O|exact P|exact E].
      + split; auto. intros f ds I. apply WW. unfold work in *. rewrite ST. simpl in I. now right.
    - set (s1 := with_decls s rest). assert (A1 : at_point canonicalize globs error_paths po seen s1) by now apply at_point_decls.
      destruct (WW (pp_path s) (pp_decls s)) as (RF & ds0 & I0 & I1); [now left|]. rewrite DS in I1.
      assert (W1 : within s1).
      { split; auto. intros f ds [I|I].
        - injection I as <- <-. split; auto. exists ds0. split; auto. eapply incl_tran; [|exact I1]. intros x J. now right.
        - apply WW. now right. }
      destruct d as [[dir|p] sp]; simpl item; simpl span_of.
      + destruct (do_directive_spec seen s1 dir (ap_tags _ _ _ _ _ _ A1) (ap_meta _ _ _ _ _ _ A1)) as (dir' & DD & AU).
        rewrite DD. destruct (pp_run canonicalize globs error_paths n s1) as [[[ds2 s2]|]|] eqn:R; try discriminate.
        intros _. eapply IH; [|exact W1|exact R].
        apply (at_point_declared_quiet canonicalize globs error_paths po seen s1 (pp_path s) (mk_spanned (D_Directive dir) sp) None A1); simpl; auto.
      + destruct (is_include (D_Pragma p)) eqn:II.
        * destruct p as [| | | |g| |]; try discriminate. simpl do_pragma.
          pose proof (include_spec canonicalize globs error_paths po seen s1 (mk_spanned (D_Pragma (P_Include g)) sp) g A1 eq_refl) as IS.
          destruct (do_include canonicalize globs error_paths s1 g) as [s2|].
          -- destruct IS as (gl & oes & fs & GL & OF & A2 & WK). intros R. eapply IH; [exact A2| |exact R].
             destruct (offers_from _ _ _ _ _ _ OF WR) as [I2 F]. split; auto.
             intros f ds I. rewrite WK in I. apply in_app_iff in I as [I|I].
             ++ apply in_rev in I. destruct (F _ I) as (K & p' & k' & L & M & Q). simpl in Q. subst f. split.
                ** eapply reached_include with (f := pp_path s); eauto.
                   { apply I1. now left. }
                   { reflexivity. }
                ** exists ds. split; auto. apply incl_refl.
             ++ now apply W1.
          -- intros _. exists (pp_path s), ds0, (mk_spanned (D_Pragma (P_Include g)) sp), g.
             split; auto. split; auto. split; [apply I1; now left|]. auto.
        * destruct (pragma_spec canonicalize globs error_paths po seen s1 (pp_path s) sp p A1 II) as (s2 & DP & A2 & WK & RM).
          rewrite DP. intros R. eapply IH; [exact A2| |exact R]. split; [rewrite RM; exact WR|]. rewrite WK. apply W1.
  Qed.
End Panics.

(** ** What is left at the end *)

Lemma leftover_spec seen s :
  tags_agree (pp_tags s) (fun t => tag_stack t seen) -> metas_agree (pp_meta s) (fun k => meta_stack k seen) ->
  leftover seen
    (map (fun '(key, _) => mk_report InvalidPushmeta (span_of key) []) (pp_meta s) ++
     flat_map (fun '(tag, others) =>
       mk_report InvalidPushtag (span_of tag) [] ::
       map (fun other => mk_report InvalidPushtag (span_of other) []) others) (pp_tags s)).
Proof.
  intros (TD & TI & TN) (MD & MI & MN).
  exists (map (fun e => item (fst e)) (pp_meta s)), (map (fun e => item (fst e)) (pp_tags s)).
  split; [now apply keys_distinct_NoDup|]. split; [|split; [now apply keys_distinct_NoDup|split]].
  - intros k. split.
    + intros I. apply in_map_iff in I as ([k' v] & <- & I). destruct (MI _ _ I) as (E & v0 & r & ->).
      simpl fst. rewrite E. simpl. intros Q. now apply app_eq_nil in Q as [_ Q].
    + intros NZ. destruct (in_dec (list_eq_dec N.eq_dec) k (map (fun e => item (fst e)) (pp_meta s))) as [I|I]; auto.
      elim NZ. apply (MN (mk_spanned k (mk_span 0 0 0))). now apply lookup_item.
  - intros k. split.
    + intros I. apply in_map_iff in I as ([k' v] & <- & I). destruct (TI _ _ I) as (E & _).
      simpl fst. rewrite E. simpl. intros Q. now apply app_eq_nil in Q as [_ Q].
    + intros NZ. destruct (in_dec (list_eq_dec N.eq_dec) k (map (fun e => item (fst e)) (pp_tags s))) as [I|I]; auto.
      elim NZ. apply (TN (mk_spanned k (mk_span 0 0 0))). now apply lookup_item.
  - clear MD TD MN TN. f_equal.
    + induction (pp_meta s) as [|[k v] m IH]; auto. simpl.
      destruct (MI k v) as (E & v0 & r & Q); [now left|]. rewrite E, rev_involutive, Q, IH; auto.
      intros k' v' I. apply MI. now right.
    + clear MI. induction (pp_tags s) as [|[k v] m IH]; auto. simpl.
      destruct (TI k v) as (E & F); [now left|]. rewrite E, rev_involutive, IH; auto.
      intros k' v' I. apply TI. now right.
Qed.

(** ** The whole pass *)

Lemma remove_root root rootds (a b : table) : names_distinct (a ++ (root, rootds) :: b) ->
  remove_key opt_path_eqb root (a ++ (root, rootds) :: b) = a ++ b.
Proof.
  intros D. apply names_distinct_keys in D. destruct opt_path_equiv as (R & S & _).
  induction a as [|[k v] a IH]; simpl in *.
  - destruct D as [L D]. rewrite R. clear D.
    induction b as [|[k v] b IH]; simpl in *; auto. destruct (opt_path_eqb root k); [discriminate|]. f_equal. auto.
  - destruct D as [L D]. rewrite lookup_None in L.
    destruct (opt_path_eqb root k) eqn:E.
    + rewrite S in E. rewrite (L root rootds) in E; [discriminate|]. apply in_app_iff. right. now left.
    + f_equal. auto.
Qed.

Lemma pass_spec canonicalize globs error_paths po root a rootds b :
  let parsed := a ++ (root, rootds) :: b in
  names_distinct parsed ->
  match pragma_pass canonicalize globs error_paths root parsed (options_new po) with
  | Panic => missing_glob globs parsed root
  | Fine None => False
  | Fine (Some (ds, (opts, plugins, reports))) =>
      exists es rest rs left,
        walk globs (a ++ b) root rootds es rest /\ yields [] es ds /\
        dues canonicalize globs error_paths [] es rs /\ leftover es left /\
        opts = fst (assimilate_all (options_new po) (options_of es)) /\
        plugins = plugins_of es /\ reports = rs ++ left
  end.
Proof.
  intros parsed D. unfold pragma_pass, pp_new.
  assert (L : lookup opt_path_eqb root parsed = Some rootds).
  { apply keys_distinct_lookup; [apply opt_path_equiv|now apply names_distinct_keys|]. apply in_app_iff. right. now left. }
  assert (RM : remove_key opt_path_eqb root parsed = a ++ b).
  { unfold parsed. now apply remove_root. }
  rewrite L, RM.
  set (s := mk_pp root rootds [] (a ++ b) [] [] [] (options_new po) [] []).
  assert (A : at_point canonicalize globs error_paths po [] s).
  { constructor; simpl.
    - split; [exact I|]. split; [easy|]. auto.
    - split; [exact I|]. split; [easy|]. auto.
    - intros c. simpl. intros ? ? ? [].
    - reflexivity.
    - reflexivity.
    - constructor. }
  pose proof (run_total canonicalize globs error_paths (pp_fuel s) s (le_n _)) as RT.
  destruct (pp_run canonicalize globs error_paths (pp_fuel s) s) as [[[ds s']|]|] eqn:R; [|tauto|].
  - destruct (run_spec _ _ _ _ _ _ _ _ _ A R) as (es & W & Y & A').
    simpl in W. unfold work in W; simpl in W. inversion W as [|? ? ? ? ? ? ? ? W1 W2]; subst. inversion W2; subst.
    rewrite app_nil_r in *. simpl in A'.
    destruct A' as [TA M IA O P E].
    eexists es1, _, _, _. split; [exact W1|]. split; [exact Y|]. split; [exact E|].
    split; [apply leftover_spec; eauto|]. auto.
  - eapply run_panic; [exact A| |exact R]. split.
    + simpl. intros x J. unfold parsed. apply in_app_iff in J. apply in_app_iff. simpl. tauto.
    + intros f ds [J|[]]. injection J as <- <-. split; [constructor|]. exists rootds. split; [|apply incl_refl].
      apply in_app_iff. right. now left.
Qed.

(** ** All declarations of a file are processed in their order *)

Definition from (g : option path) (e : event) : bool :=
  match e with Declared f _ => opt_path_eqb g f | _ => false end.
Definition named (g : option path) (x : option (list N) * list (spanned declaration)) : bool := opt_path_eqb g (fst x).

Lemma same_file_eqb f g : opt_path_eqb f g = true <-> same_file f g.
Proof. destruct f, g; simpl; try (split; easy). apply same_path_eqb. Qed.

Lemma filter_perm {A} (p : A -> bool) l l' : Permutation l l' -> Permutation (filter p l) (filter p l').
Proof.
  induction 1; simpl; auto.
  - destruct (p x); auto.
  - destruct (p x), (p y); auto. constructor.
  - eapply Permutation_trans; eauto.
Qed.

Lemma named_once g l : names_distinct l -> List.length (filter (named g) l) <= 1.
Proof.
  induction 1 as [|x l F D IH]; simpl; auto. destruct (named g x) eqn:N; auto. simpl.
  assert (filter (named g) l = []) as ->; auto.
  clear - F N. rewrite Forall_forall in F. induction l as [|y l IH]; simpl; auto.
  destruct (named g y) eqn:M; [|apply IH; intros z I; apply F; now right].
  elim (F y); [now left|]. apply same_file_eqb. unfold named in *. destruct opt_path_equiv as (R & S & T).
  apply (T _ g); auto. now rewrite S.
Qed.

Lemma named_perm g l l' : names_distinct l -> Permutation l l' -> filter (named g) l = filter (named g) l'.
Proof.
  intros D P. pose proof (named_once g l D) as L. apply (filter_perm (named g)) in P.
  destruct (filter (named g) l) as [|x [|y r]]; simpl in L; try lia.
  - now apply Permutation_nil in P.
  - now apply Permutation_length_1_inv in P.
Qed.

Lemma named_own g f ds : filter (from g) (own (f, ds)) = if opt_path_eqb g f then own (f, ds) else [].
Proof.
  unfold own. simpl. induction ds as [|d ds IH]; simpl; [now destruct (opt_path_eqb g f)|].
  rewrite IH. now destruct (opt_path_eqb g f).
Qed.

Lemma offers_from_nil g sp t ps es fs t1 : offers sp t ps es fs t1 -> filter (from g) es = [].
Proof. induction 1; auto. Qed.

Section Order.
  Context (globs : list (path * included_glob)) (g : option path).

  Lemma walk_files :
    (forall t f ds es t', walk globs t f ds es t' -> names_distinct ((f, ds) :: t) ->
       exists ent, Permutation t (ent ++ t') /\ filter (from g) es = flat_map own (filter (named g) ((f, ds) :: ent))) /\
    (forall t fs es t', walks globs t fs es t' -> names_distinct (fs ++ t) ->
       exists ent, Permutation t (ent ++ t') /\ filter (from g) es = flat_map own (filter (named g) (fs ++ ent))).
  Proof.
    apply walk_walks_ind; intros.
    - exists []. split; auto. simpl. unfold named; simpl. now destruct (opt_path_eqb g f).
    - destruct H as (ent & P & Q).
      { inversion H0; subst. constructor; auto. }
      exists ent. split; auto. simpl. rewrite Q. simpl. unfold named; simpl.
      destruct (opt_path_eqb g f); reflexivity.
    - assert (P0 := offers_perm _ _ _ _ _ _ o).
      inversion H1 as [|? ? F D]; subst.
      assert (D1 : names_distinct (rev fs ++ t1)).
      { eapply names_distinct_perm; [|exact D]. rewrite P0. now rewrite <- Permutation_rev. }
      destruct H as (ent1 & P1 & Q1); auto.
      destruct H0 as (ent2 & P2 & Q2).
      { constructor.
        - rewrite Forall_forall in *. intros x I. apply F. rewrite P0, P1, !in_app_iff. auto.
        - apply names_distinct_app_r in D1. eapply perm_distinct; eauto. }
      exists (fs ++ ent1 ++ ent2). split; [rewrite P0, P1, P2; now rewrite !app_assoc|].
      simpl filter at 1. rewrite !filter_app, (offers_from_nil _ _ _ _ _ _ _ o), Q1, Q2. simpl app.
      assert (PT : Permutation t ((fs ++ ent1 ++ ent2) ++ t3)) by (rewrite P0, P1, P2; now rewrite !app_assoc).
      assert (DE : names_distinct (fs ++ ent1 ++ ent2)).
      { apply (names_distinct_perm _ _ PT) in D. eapply names_distinct_app_r, names_distinct_perm; [|exact D].
        apply Permutation_app_comm. }
      assert (E : filter (named g) (fs ++ ent1 ++ ent2) = filter (named g) (rev fs ++ ent1) ++ filter (named g) ent2).
      { rewrite <- filter_app, <- app_assoc. apply named_perm; auto. now rewrite <- Permutation_rev. }
      simpl. change (named g (f, ds)) with (opt_path_eqb g f). change (named g (f, d :: ds)) with (opt_path_eqb g f).
      destruct (opt_path_eqb g f) eqn:GF.
      + assert (N : filter (named g) (fs ++ ent1 ++ ent2) = []).
        { assert (L := named_once g ((f, d :: ds) :: fs ++ ent1 ++ ent2)). simpl in L. unfold named at 1 in L. simpl in L.
          rewrite GF in L. simpl in L. destruct (filter (named g) (fs ++ ent1 ++ ent2)); auto. simpl in L.
          exfalso. enough (2 + List.length l <= 1) by lia. apply L. constructor; auto.
          rewrite Forall_forall in *. intros x I. apply F. rewrite PT. apply in_app_iff. auto. }
        rewrite N in E. symmetry in E. apply app_eq_nil in E as [E1 E2].
        rewrite N, E1, E2. reflexivity.
      + rewrite E, flat_map_app. reflexivity.
    - exists []. split; auto.
    - assert (D1 : names_distinct ((f, ds) :: t)).
      { simpl in H1. inversion H1 as [|? ? F D]; subst. constructor.
        - rewrite Forall_forall in *. intros x I. apply F. apply in_app_iff. auto.
        - eapply names_distinct_app_r; eauto. }
      destruct H as (ent1 & P1 & Q1); auto.
      assert (DA : names_distinct ((f, ds) :: fs ++ ent1 ++ t1)).
      { eapply names_distinct_perm; [|exact H1]. simpl. now rewrite P1. }
      destruct H0 as (ent2 & P2 & Q2).
      { inversion DA as [|? ? F D]; subst. eapply (names_distinct_app_r ent1), names_distinct_perm; [|exact D].
        rewrite !app_assoc. apply Permutation_app_tail. apply Permutation_app_comm. }
      exists (ent1 ++ ent2). split; [rewrite P1, P2; now rewrite app_assoc|].
      rewrite filter_app, Q1, Q2, <- flat_map_app, <- filter_app. f_equal. simpl app.
      apply named_perm.
      + eapply (names_distinct_app_r t2), names_distinct_perm; [|exact DA].
        rewrite P2. rewrite <- Permutation_middle. simpl. constructor.
        rewrite (Permutation_app_comm t2). rewrite (app_assoc ent1 ent2), (app_assoc fs), <- !app_assoc.
        rewrite !app_assoc. apply Permutation_app_tail. rewrite <- !app_assoc.
        rewrite !app_assoc. apply Permutation_app_tail. apply Permutation_app_comm.
      + constructor. rewrite !app_assoc. apply Permutation_app_tail. apply Permutation_app_comm.
  Qed.
End Order.

(** Everything about which files are entered by a walk from the root. *)
Lemma walk_entered globs root rootds (a b : table) es rest :
  names_distinct (a ++ (root, rootds) :: b) -> walk globs (a ++ b) root rootds es rest ->
  exists entered, names_distinct entered /\
    (forall x, In x entered <-> In x (a ++ (root, rootds) :: b) /\ reached globs (a ++ (root, rootds) :: b) root (fst x)) /\
    Permutation (filter is_declared es) (flat_map own entered) /\
    Permutation (a ++ (root, rootds) :: b) (entered ++ rest) /\
    (forall f d text, In (Declared f d) es -> item d = D_Pragma (P_Include text) -> glob_of globs f (item text) <> None).
Proof.
  intros D W. set (T := a ++ (root, rootds) :: b) in *.
  assert (PT : Permutation T ((root, rootds) :: a ++ b)) by (symmetry; apply Permutation_middle).
  assert (D1 := names_distinct_perm _ _ PT D).
  destruct (proj1 (walk_perm globs T root) _ _ _ _ _ W) as (ent & P & Q & R).
  { intros x I. rewrite PT. now right. }
  { constructor. }
  { intros d I. exists rootds. split; auto. rewrite PT. now left. }
  assert (DN : includes_done globs es rest).
  { apply (proj1 (walk_done globs) _ _ _ _ _ W). now inversion D1. }
  assert (PE : Permutation T (((root, rootds) :: ent) ++ rest)) by (rewrite PT, P; reflexivity).
  assert (DE := names_distinct_perm _ _ PE D).
  exists ((root, rootds) :: ent). split; [|split; [|split; [|split]]]; auto.
  - eapply names_distinct_app_r, names_distinct_perm; [|exact DE]. apply Permutation_app_comm.
  - intros x. split.
    + intros I. split; [rewrite PE; apply in_app_iff; auto|]. destruct I as [<-|I]; [constructor|auto].
    + intros [I RE]. assert (H : forall f, reached globs T root f -> forall ds, In (f, ds) T -> In (f, ds) ((root, rootds) :: ent)).
      { clear x I RE. induction 1 as [|f ds d text g p k ds' RE IH I J IT GO E K S]; intros ds0 I0.
        - left. apply (names_distinct_same T); [exact D| |exact I0|].
          + rewrite PT. now left.
          + apply same_file_eqb. apply opt_path_equiv.
        - assert (ID : In (Declared f d) (filter is_declared es)).
          { rewrite Q. change (own (root, rootds) ++ flat_map own ent) with (flat_map own ((root, rootds) :: ent)).
            apply in_flat_map. exists (f, ds). split; auto. apply in_map_iff. eauto. }
          apply filter_In in ID as [ID _]. destruct (DN f d text ID IT) as (g' & G' & AB).
          rewrite GO in G'. injection G' as <-. specialize (AB p E).
          rewrite PE in I0. apply in_app_iff in I0 as [I0|I0]; auto.
          elim (AB k ds0); auto. }
      destruct x as [f ds]. now apply H.
  - intros f d text I IT G. destruct (DN f d text I IT) as (g & G' & _). congruence.
Qed.

(** ** Positions *)

Lemma yields_at seen es ds : yields seen es ds -> forall before e after d,
  es = before ++ e :: after -> as_directive e = Some d ->
  exists d', nth_error ds (List.length (directives_of before)) = Some d' /\
    augmented (seen ++ before) (item d) (item d') /\ span_of d' = span_of d.
Proof.
  induction 1 as [seen|seen e0 es d0 d0' ds AD AU SP Y IH|seen e0 es ds AD Y IH]; intros before e after d E A.
  - destruct before; discriminate.
  - destruct before as [|x before]; injection E as -> ->.
    + rewrite A in AD. injection AD as <-. exists d0'. rewrite app_nil_r. auto.
    + destruct (IH _ _ _ _ eq_refl A) as (d' & N & AU' & S'). exists d'.
      rewrite <- app_assoc in AU'. split; auto. unfold directives_of in *. simpl. rewrite AD. exact N.
  - destruct before as [|x before]; injection E as -> ->; [congruence|].
    destruct (IH _ _ _ _ eq_refl A) as (d' & N & AU' & S'). exists d'.
    rewrite <- app_assoc in AU'. split; auto. unfold directives_of in *. simpl. rewrite AD. exact N.
Qed.

Lemma augmented_core seen d d' : augmented seen (item d) (item d') -> span_of d' = span_of d -> core d' = core d.
Proof. intros [A B C D _ _ _ _] S. unfold core. now rewrite A, B, C, D, S. Qed.

Lemma yields_core seen es ds : yields seen es ds -> map core ds = map core (directives_of es).
Proof.
  induction 1 as [seen|seen e0 es d0 d0' ds AD AU SP Y IH|seen e0 es ds AD Y IH]; auto.
  - unfold directives_of in *. simpl. rewrite AD. simpl. rewrite IH. f_equal. eapply augmented_core; eauto.
  - unfold directives_of in *. simpl. rewrite AD. exact IH.
Qed.

Lemma directives_perm es l : Permutation (filter is_declared es) l -> Permutation (directives_of es) (directives_of l).
Proof.
  intros P. assert (E : directives_of es = directives_of (filter is_declared es)).
  { clear. unfold directives_of. induction es as [|[f d|sp p k] es IH]; simpl; auto. now rewrite IH. }
  rewrite E. unfold directives_of. now apply Permutation_flat_map.
Qed.

Lemma directives_own l : directives_of (flat_map own l) = flat_map (fun x => directives_in (snd x)) l.
Proof.
  unfold directives_of. induction l as [|[f ds] l IH]; simpl; auto. rewrite flat_map_app, IH. f_equal.
  unfold own, directives_in. simpl. induction ds as [|d ds IH2]; simpl; auto. rewrite IH2.
  now destruct (item d).
Qed.

Section Dues.
  Context (canonicalize : path -> option path).
  Context (globs : list (path * included_glob)).
  Context (error_paths : list (option path * list N)).
  Notation dues := (dues canonicalize globs error_paths).
  Notation due := (due canonicalize globs error_paths).

  Lemma dues_at seen es rs : dues seen es rs -> forall before e after, es = before ++ e :: after ->
    exists r1 r0 r2, rs = r1 ++ r0 ++ r2 /\ dues seen before r1 /\ due (seen ++ before) e r0.
  Proof.
    induction 1 as [seen|seen e0 es rs rs' D H IH]; intros before e after E; [destruct before; discriminate|].
    destruct before as [|x before]; injection E as -> ->.
    - exists [], rs, rs'. rewrite app_nil_r. split; auto. split; auto. constructor.
    - destruct (IH _ _ _ eq_refl) as (r1 & r0 & r2 & -> & A & B). exists (rs ++ r1), r0, r2.
      rewrite <- app_assoc in B. split; [now rewrite <- app_assoc|]. split; auto. now constructor.
  Qed.

  Lemma same_path_trans p q r : same_path p q -> same_path q r -> same_path p r.
  Proof. unfold same_path. congruence. Qed.

  Lemma last_entered_unique c seen sp before sp' before' :
    last_entered canonicalize c seen sp before -> last_entered canonicalize c seen sp' before' -> sp = sp' /\ before = before'.
  Proof.
    intros (p & k & after & -> & F & L) (p' & k' & after' & E & F' & L').
    revert before' E. induction before as [|x before IH]; intros [|y before'] E; simpl in E.
    - injection E as -> -> -> ->. auto.
    - injection E as <- ->. elim (L sp' p' k'); auto. apply in_app_iff. right. now left.
    - injection E as -> <-. elim (L' sp p k); auto. apply in_app_iff. right. now left.
    - injection E as -> E. destruct (IH _ E) as (-> & ->). auto.
  Qed.

  Lemma last_never c seen sp before : last_entered canonicalize c seen sp before -> ~ never_entered canonicalize c seen.
  Proof.
    intros (p & k & after & -> & F & L) H. elim (H sp p k); auto. apply in_app_iff. right. now left.
  Qed.

  Lemma due_unique seen e rs rs' : due seen e rs -> due seen e rs' -> Forall2 alike_report rs rs'.
  Proof.
    assert (RF : forall l : list report, Forall2 alike_report l l) by (induction l; constructor; auto; constructor).
    destruct e as [f d|sp p [k|]]; simpl.
    - intros A B. replace rs' with rs; [apply RF|]. destruct (item d) as [x|[]]; congruence.
    - intros -> ->. constructor.
    - intros A B.
      destruct A as [e L|c s0 b0 L C LE SC|c s0 b0 h0 f0 L C LE SC H0 F0|h0 L NE H0],
               B as [e' L'|c' s1 b1 L' C' LE' SC'|c' s1 b1 h1 f1 L' C' LE' SC' H1 F1|h1 L' NE' H1]; try congruence;
        try (assert (c' = c) by congruence; subst c');
        try (destruct (last_entered_unique _ _ _ _ _ _ LE LE') as [<- <-]); try contradiction;
        try (elim (last_never _ _ _ _ LE); auto; fail); try (elim (last_never _ _ _ _ LE'); auto; fail).
      + assert (e' = e) as -> by congruence. apply RF.
      + constructor.
      + constructor; [|constructor]. constructor; eapply lists_unique; eassumption.
      + constructor; [|constructor]. constructor; eapply lists_unique; eassumption.
  Qed.

  Lemma dues_unique seen es rs rs' : dues seen es rs -> dues seen es rs' -> Forall2 alike_report rs rs'.
  Proof.
    intros H; revert rs'; induction H as [seen|seen e0 es rs rs' D H IH]; intros r2 H2; inversion H2; subst; auto.
    apply Forall2_app; eauto using due_unique.
  Qed.

  Lemma due_alike seen e rs rs' : due seen e rs -> Forall2 alike_report rs rs' -> due seen e rs'.
  Proof.
    assert (SM : forall (l l' : list report), Forall2 alike_report l l' ->
      (forall r, In r l -> match rp_problem r with DuplicateInclude _ _ => False | _ => True end) -> l' = l).
    { induction 1 as [|x y l l' X F IH]; intro N; [reflexivity|]. rewrite IH by (intros; apply N; right; assumption).
      f_equal. specialize (N x (or_introl eq_refl)). destruct X; [reflexivity|destruct N..]. }
    destruct e as [f d|sp p [k|]]; simpl.
    - intros A B. rewrite (SM _ _ B); [exact A|]. intros r I.
      destruct (item d) as [x|[]]; subst rs; try destruct I.
      + destruct (tag_stack (item t) seen); cbn in I; [destruct I as [<-|[]]|destruct I]; exact Logic.I.
      + destruct (meta_stack (item k) seen); cbn in I; [destruct I as [<-|[]]|destruct I]; exact Logic.I.
      + destruct (glob_of globs f (item s)) as [[[|]|]|]; cbn in I; try destruct I as [<-|[]]; try destruct I; exact Logic.I.
      + unfold due_report in I. destruct (setting_of (opt_variant o)); [|destruct I]. destruct (find _ _); [|destruct I].
        destruct (keyed _); cbn in I; destruct I as [<-|[]]; exact Logic.I.
    - intros -> B. inversion B; reflexivity.
    - intros A B. destruct A as [e L|c s0 b0 L C LE SC|c s0 b0 h0 f0 L C LE SC H0 F0|h0 L NE H0].
      + rewrite (SM _ _ B); [constructor; assumption|]. intros r [<-|[]]. exact Logic.I.
      + inversion B. econstructor 2; eassumption.
      + inversion B as [|? ? ? ? X Y]; subst. inversion Y; subst. inversion X; subst; econstructor 3; eauto using lists_alike.
      + inversion B as [|? ? ? ? X Y]; subst. inversion Y; subst. inversion X; subst; econstructor 4; eauto using lists_alike.
  Qed.

  Lemma dues_alike seen es rs rs' : dues seen es rs -> Forall2 alike_report rs rs' -> dues seen es rs'.
  Proof.
    intros H; revert rs'; induction H as [seen|seen e0 es rs rs' D H IH]; intros r2 F.
    - inversion F. constructor.
    - apply Forall2_app_inv_l in F. destruct F as (l1 & l2 & F1 & F2 & ->). constructor; eauto using due_alike.
  Qed.

  Lemma dues_pops seen es rs : dues seen es rs -> filter about_pops rs = stray_pops seen es /\ filter about_pushes rs = [].
  Proof.
    induction 1 as [seen|seen e es rs rs' D H [IH1 IH2]]; auto.
    rewrite !filter_app, IH1, IH2, app_nil_r. simpl.
    enough (filter about_pops rs = stray_pop seen e /\ filter about_pushes rs = []) as [-> ->] by auto.
    destruct e as [f d|sp p [k|]]; simpl in D |- *.
    - destruct (item d) as [x|[t|t|kv|k|g|o|pl]]; subst rs; auto.
      + destruct (tag_stack (item t) seen); auto.
      + destruct (meta_stack (item k) seen); auto.
      + destruct (glob_of globs f (item g)) as [[[|]|]|]; auto.
      + unfold due_report. destruct (setting_of _); auto. destruct (find _ _); auto. destruct (keyed s); auto.
    - subst; auto.
    - destruct D; auto.
  Qed.
End Dues.

Lemma leftover_about es left : leftover es left -> filter about_pops left = [] /\ filter about_pushes left = left.
Proof.
  intros (ks & ts & _ & _ & _ & _ & ->). rewrite !filter_app.
  assert (A : forall ks, filter about_pops (flat_map (fun k => match rev (meta_stack k es) with
                            | (sp, _) :: _ => [mk_report InvalidPushmeta sp []]
                            | [] => []
                            end) ks) = [] /\
     filter about_pushes (flat_map (fun k => match rev (meta_stack k es) with
                            | (sp, _) :: _ => [mk_report InvalidPushmeta sp []]
                            | [] => []
                            end) ks) = flat_map (fun k => match rev (meta_stack k es) with
                            | (sp, _) :: _ => [mk_report InvalidPushmeta sp []]
                            | [] => []
                            end) ks).
  { clear. induction ks as [|k ks IH]; auto. simpl. destruct (rev (meta_stack k es)) as [|[sp v] r]; simpl; auto.
    destruct IH as [-> ->]. auto. }
  assert (B : forall (l : list (spanned (list N))), let m := map (fun x => mk_report InvalidPushtag (span_of x) []) l in
     filter about_pops m = [] /\ filter about_pushes m = m).
  { clear. induction l as [|x l [IH1 IH2]]; simpl in *; auto. rewrite IH1, IH2. auto. }
  assert (C : forall ts, let m := flat_map (fun t => map (fun x => mk_report InvalidPushtag (span_of x) []) (rev (tag_stack t es))) ts in
     filter about_pops m = [] /\ filter about_pushes m = m).
  { clear - B. induction ts as [|x l [IH1 IH2]]; simpl in *; auto. rewrite !filter_app, IH1, IH2.
    destruct (B (rev (tag_stack x es))) as [-> ->]. auto. }
  destruct (A ks) as [-> ->], (C ts) as [-> ->]. auto.
Qed.
