(** * Two inputs which are read in step: the pragmas and the result *)
From Coq Require Import String Ascii.
From Coq Require Import List NArith ZArith Arith Bool Lia Permutation.
From Verif Require Import Base BaseFacts Text Path Sources Types SortM SpecSort P_Sort Options Pragma SpecPragma PragmaRun Read Token Peg Lexer Grammar SpecGrammar SpecDisplay SpecLedger
  Parse SpecWhole P_Parse P_Display SpecAlike AlikeRead AlikeFile AlikeWalk AlikeOptions P_Total Sim SimValues SimGrammar SimFile.
Import ListNotations.
Local Open Scope nat_scope.

(** ** Tables *)
Section Tables.
  Context {A A' V V' : Type} (eqb : A -> A -> bool) (eqb' : A' -> A' -> bool) (R : A -> A' -> Prop) (W : V -> V' -> Prop).
  Context (Eq : forall a b a' b', R a a' -> R b b' -> eqb a b = eqb' a' b').
  Definition table (m : list (A * V)) (m' : list (A' * V')) : Prop := Forall2 (fun x y => R (fst x) (fst y) /\ W (snd x) (snd y)) m m'.

  Lemma table_lookup k k' m m' : R k k' -> table m m' ->
    match lookup eqb k m, lookup eqb' k' m' with Some v, Some w => W v w | None, None => True | _, _ => False end.
  Proof.
    intros Rk F. induction F as [|[a v] [b w] m m' [Ra Wv] F IH]; [exact Logic.I|]. cbn in *. rewrite (Eq _ _ _ _ Rk Ra). destruct (eqb' k' b); assumption.
  Qed.
  Lemma table_replace k k' v v' m m' : R k k' -> W v v' -> table m m' -> table (replace_val eqb k v m) (replace_val eqb' k' v' m').
  Proof.
    intros Rk Wv F. induction F as [|[a x] [b y] m m' [Ra Wx] F IH]; [constructor|]. cbn in *. rewrite (Eq _ _ _ _ Rk Ra). destruct (eqb' k' b); constructor; auto.
  Qed.
  Lemma table_insert k k' v v' m m' : R k k' -> W v v' -> table m m' -> table (insert eqb k v m) (insert eqb' k' v' m').
  Proof.
    intros Rk Wv F. unfold insert. pose proof (table_lookup _ _ _ _ Rk F) as H. destruct (lookup eqb k m), (lookup eqb' k' m'); try contradiction.
    - apply table_replace; assumption.
    - apply Forall2_app; [exact F|]. repeat constructor; assumption.
  Qed.
  Lemma table_remove k k' m m' : R k k' -> table m m' -> table (remove_key eqb k m) (remove_key eqb' k' m').
  Proof.
    intros Rk F. induction F as [|[a x] [b y] m m' [Ra Wx] F IH]; [constructor|]. cbn in *. rewrite (Eq _ _ _ _ Rk Ra). destruct (eqb' k' b); [exact IH|constructor; auto].
  Qed.
  Lemma table_entry k k' m m' : R k k' -> table m m' ->
    match remove_entry eqb k m, remove_entry eqb' k' m' with
    | Some (a, v, r), Some (b, w, r') => R a b /\ W v w /\ table r r'
    | None, None => True
    | _, _ => False
    end.
  Proof.
    intros Rk F. induction F as [|[a x] [b y] m m' [Ra Wx] F IH]; [exact Logic.I|]. cbn in *. rewrite (Eq _ _ _ _ Rk Ra). destruct (eqb' k' b); [auto|].
    destruct (remove_entry eqb k m) as [[[? ?] ?]|], (remove_entry eqb' k' m') as [[[? ?] ?]|]; try contradiction; auto.
    destruct IH as (H1 & H2 & H3). split; [exact H1|]. split; [exact H2|]. constructor; auto.
  Qed.
  Context (U : V -> V -> bool) (U' : V' -> V' -> bool) (Ueq : forall v w v' w', W v v' -> W w w' -> U v w = U' v' w').
  Lemma table_eqb a b a' b' : table a a' -> table b b' -> map_eqb eqb U a b = map_eqb eqb' U' a' b'.
  Proof.
    intros Fa Fb. unfold map_eqb. rewrite (forall2_length _ _ _ Fa), (forall2_length _ _ _ Fb). f_equal.
    induction Fa as [|[k v] [k' v'] a a' [Rk Wv] Fa IH]; [reflexivity|]. cbn in *. rewrite IH. f_equal.
    pose proof (table_lookup _ _ _ _ Rk Fb) as H. destruct (lookup eqb k b), (lookup eqb' k' b'); try contradiction; auto.
  Qed.
End Tables.
Lemma list_eqb_alike {V V'} (W : V -> V' -> Prop) (U : V -> V -> bool) (U' : V' -> V' -> bool) : (forall v w v' w', W v v' -> W w w' -> U v w = U' v' w') ->
  forall a a', Forall2 W a a' -> forall b b', Forall2 W b b' -> list_eqb U a b = list_eqb U' a' b'.
Proof.
  intros H a a' F. induction F as [|x y a a' Wx F IH]; intros b b' F'; destruct F' as [|x' y' b b' Wx' F']; cbn; auto. rewrite (H _ _ _ _ Wx Wx'), (IH _ _ F'). reflexivity.
Qed.
Lemma forall2_removelast {A B} (W : A -> B -> Prop) l m : Forall2 W l m -> Forall2 W (removelast l) (removelast m).
Proof. induction 1 as [|x y l m Wx F IH]; [constructor|]. cbn. destruct F; [constructor|]. constructor; assumption. Qed.
Lemma forall2_last {A B} (W : A -> B -> Prop) l m d d' : W d d' -> Forall2 W l m -> W (last l d) (last m d').
Proof. intros Wd F. induction F as [|x y l m Wx F IH]; [exact Wd|]. cbn. destruct F; assumption. Qed.

Lemma eqb_items {A} (eqb : A -> A -> bool) (a b a' b' : spanned A) : same_item a a' -> same_item b b' -> spanned_eqb eqb a b = spanned_eqb eqb a' b'.
Proof. unfold same_item, spanned_eqb. intros -> ->. reflexivity. Qed.
Lemma eqb_keys (a b a' b' : spanned str) : same_item a a' -> same_item b b' -> spanned_str_eqb a b = spanned_str_eqb a' b'.
Proof. apply eqb_items. Qed.
Lemma eqb_eq_r {A} (eqb : A -> A -> bool) a b a' b' : a = a' -> b = b' -> eqb a b = eqb a' b'.
Proof. intros -> ->. reflexivity. Qed.
Lemma eqb_values a b a' b' : alike_meta_value (item a) (item a') -> alike_meta_value (item b) (item b') -> spanned_eqb meta_value_eqb a b = spanned_eqb meta_value_eqb a' b'.
Proof.
  unfold spanned_eqb. destruct (item a) as [v|x], (item a') as [v'|x'], (item b) as [w|y], (item b') as [w'|y']; cbn; try contradiction; auto.
  - intros -> ->. reflexivity.
  - intros [A1 A2] [B1 B2]. unfold amount_eqb, spanned_eqb. unfold same_item in *. rewrite A1, A2, B1, B2. reflexivity.
Qed.

Section Pass.
  Context (K : span -> span -> Prop) (Kin : forall a a' b b', K a a' -> K b b' -> (a = b <-> a' = b')).

  Lemma eqb_spans a b a' b' : K a a' -> K b b' -> span_eqb a b = span_eqb a' b'.
  Proof.
    assert (H : forall x y, span_eqb x y = true <-> x = y).
    { intros [x1 x2 x3] [y1 y2 y3]. unfold span_eqb. cbn. rewrite !andb_true_iff, !Nat.eqb_eq. split; [intros [[-> ->] ->]; reflexivity|]. intro H. injection H as -> -> ->. auto. }
    intros Ka Kb. pose proof (Kin _ _ _ _ Ka Kb) as Q. apply eq_true_iff_eq. rewrite !H. exact Q.
  Qed.
  Definition alike_pushed (x y : span * spanned meta_value) : Prop := K (fst x) (fst y) /\ alike_meta_value (item (snd x)) (item (snd y)).
  Definition alike_tags : tag_map -> tag_map -> Prop := table same_item (Forall2 same_item).
  Definition alike_metas : meta_map -> meta_map -> Prop := table same_item (Forall2 alike_pushed).

  Lemma alike_tags_eqb a b a' b' : alike_tags a a' -> alike_tags b b' -> tags_eqb a b = tags_eqb a' b'.
  Proof. apply table_eqb; [exact eqb_keys|]. intros v w v' w' F F'. eapply list_eqb_alike; [|exact F|exact F']. exact eqb_keys. Qed.
  Lemma alike_metas_eqb a b a' b' : alike_metas a a' -> alike_metas b b' -> metas_eqb a b = metas_eqb a' b'.
  Proof.
    apply table_eqb; [exact eqb_keys|]. intros v w v' w' F F'. eapply list_eqb_alike; [|exact F|exact F'].
    intros x y x' y' [Kx Vx] [Ky Vy]. cbn. rewrite (eqb_spans _ _ _ _ Kx Ky), (eqb_values _ _ _ _ Vx Vy). reflexivity.
  Qed.
  Lemma alike_push_tag t t' m m' : same_item t t' -> alike_tags m m' -> alike_tags (push_tag t m) (push_tag t' m').
  Proof.
    intros S F. unfold push_tag. pose proof (table_lookup _ _ _ _ eqb_keys _ _ _ _ S F) as H. destruct (lookup spanned_str_eqb t m), (lookup spanned_str_eqb t' m'); try contradiction.
    - apply table_replace; auto; [exact eqb_keys|]. apply Forall2_app; auto.
    - apply table_insert; auto. exact eqb_keys.
  Qed.
  Lemma alike_pop_tag t t' m m' : same_item t t' -> alike_tags m m' -> match pop_tag t m, pop_tag t' m' with Some a, Some b => alike_tags a b | None, None => True | _, _ => False end.
  Proof.
    intros S F. unfold pop_tag. pose proof (table_lookup _ _ _ _ eqb_keys _ _ _ _ S F) as H. destruct (lookup spanned_str_eqb t m) as [l|], (lookup spanned_str_eqb t' m') as [l'|]; try contradiction; auto.
    destruct H as [|x y l l' Sx H].
    - apply table_remove; auto. exact eqb_keys.
    - apply table_replace; auto; [exact eqb_keys|]. apply forall2_removelast. constructor; assumption.
  Qed.
  Lemma alike_push_meta x x' m m' : alike_key_value x x' -> K (span_of (mkv_key x)) (span_of (mkv_key x')) -> alike_metas m m' -> alike_metas (push_meta x m) (push_meta x' m').
  Proof.
    intros [S V] Kx F. unfold push_meta. pose proof (table_lookup _ _ _ _ eqb_keys _ _ _ _ S F) as H. destruct (lookup spanned_str_eqb (mkv_key x) m), (lookup spanned_str_eqb (mkv_key x') m'); try contradiction.
    - apply table_replace; auto; [exact eqb_keys|]. apply Forall2_app; auto. constructor; [split; assumption|constructor].
    - apply table_insert; auto; [exact eqb_keys|]. constructor; [split; assumption|constructor].
  Qed.
  Lemma alike_pop_meta t t' m m' : same_item t t' -> alike_metas m m' -> match pop_meta t m, pop_meta t' m' with Some a, Some b => alike_metas a b | None, None => True | _, _ => False end.
  Proof.
    intros S F. unfold pop_meta. pose proof (table_lookup _ _ _ _ eqb_keys _ _ _ _ S F) as H. destruct (lookup spanned_str_eqb t m) as [l|], (lookup spanned_str_eqb t' m') as [l'|]; try contradiction; auto.
    apply forall2_removelast in H. destruct H as [|x y r r' Sx H].
    - apply table_remove; auto. exact eqb_keys.
    - apply table_replace; auto; exact eqb_keys.
  Qed.

  (** ** Directives *)
  Lemma elements_app {A} (R : A -> A -> Prop) a b a' b' : same_elements R a a' -> same_elements R b b' -> same_elements R (a ++ b) (a' ++ b').
  Proof. intros (m & P & F) (n & P' & F'). exists (m ++ n). split; [apply Permutation_app; assumption|apply Forall2_app; assumption]. Qed.
  Lemma mem_items t l : mem spanned_str_eqb t l = true <-> In (item t) (map item l).
  Proof.
    induction l as [|x l IH]; cbn; [split; [discriminate|intros []]|]. rewrite orb_true_iff, IH. unfold spanned_str_eqb, spanned_eqb. rewrite str_eqb_eq. split; intros [H|H]; auto.
  Qed.
  Lemma mem_elements t t' l l' : same_item t t' -> same_elements same_item l l' -> mem spanned_str_eqb t l = mem spanned_str_eqb t' l'.
  Proof.
    intros S Q. apply eq_true_iff_eq. rewrite !mem_items, S. pose proof (elements_map item same_item _ _ (fun _ _ H => H) Q) as P.
    split; apply Permutation_in; [exact P|symmetry; exact P].
  Qed.
  Lemma alike_augment_tags md md' m m' : alike_metadata md md' -> alike_tags m m' -> alike_metadata (augment_tags md m) (augment_tags md' m').
  Proof.
    intros A F. revert md md' A. induction F as [|[t o] [t' o'] m m' [St So] F IH]; intros md md' A; [exact A|]. unfold augment_tags in *. cbn [fold_left] in *. apply IH. cbn in St, So.
    rewrite (mem_elements _ _ _ _ St (proj1 (proj2 A))). destruct (mem spanned_str_eqb t' (md_tags md')); [exact A|]. destruct A as (A1 & A2 & A3).
    split; [exact A1|]. split; [|exact A3]. cbn. apply elements_app; [exact A2|]. apply forall2_elements. repeat constructor. apply forall2_last; assumption.
  Qed.
  Lemma lookup_keys k (l : list (spanned str * spanned meta_value)) : lookup spanned_str_eqb k l = None <-> ~ In (item k) (map (fun e => item (fst e)) l).
  Proof.
    induction l as [|[a v] l IH]; cbn; [tauto|]. destruct (spanned_str_eqb k a) eqn:Q; unfold spanned_str_eqb, spanned_eqb in Q.
    - apply str_eqb_eq in Q. split; [discriminate|]. intro H. exfalso. apply H. auto.
    - rewrite IH. split; [|tauto]. intros H [X|X]; [|tauto]. rewrite X in Q. assert (str_eqb (item k) (item k) = true) by (apply str_eqb_eq; reflexivity). congruence.
  Qed.
  Lemma lookup_alike k k' (l l' : list (spanned str * spanned meta_value)) : same_item k k' -> same_elements alike_entry l l' -> (lookup spanned_str_eqb k l = None <-> lookup spanned_str_eqb k' l' = None).
  Proof.
    intros S Q. rewrite !lookup_keys, S. pose proof (elements_map (fun e => item (fst e)) alike_entry _ _ (fun _ _ H => proj1 H) Q) as P.
    split; intros H X; apply H; (eapply Permutation_in; [|exact X]); [symmetry|]; exact P.
  Qed.
  Lemma alike_augment_key_value md md' e e' : alike_metadata md md' -> same_item (fst e) (fst e') -> Forall2 alike_pushed (snd e) (snd e') ->
    match augment_key_value md e, augment_key_value md' e' with Fine a, Fine b => alike_metadata a b | Panic, Panic => True | _, _ => False end.
  Proof.
    destruct e as [k vs], e' as [k' vs']. cbn [fst snd]. intros A S F. unfold augment_key_value. pose proof (lookup_alike _ _ _ _ S (proj1 A)) as H.
    destruct (lookup spanned_str_eqb k (md_key_values md)) eqn:X, (lookup spanned_str_eqb k' (md_key_values md')) eqn:Y; try (exfalso; destruct H as [H H']; now (discriminate (H eq_refl) || discriminate (H' eq_refl))); [exact A|].
    apply forall2_rev in F. destruct F as [|[sp v] [sp' v'] r r' [Ks Vs] F]; [exact Logic.I|]. destruct A as (A1 & A2 & A3). split; [|split; assumption]. cbn [md_key_values].
    assert (I1 : forall (k : spanned str) sp, spanned_str_eqb (mk_spanned (item k) sp) = spanned_str_eqb k) by (reflexivity).
    assert (L1 : forall (k : spanned str) sp (l : list (spanned str * spanned meta_value)), lookup spanned_str_eqb (mk_spanned (item k) sp) l = lookup spanned_str_eqb k l) by (intros k0 sp0 l; induction l as [|[a w] l IH]; [reflexivity|]; cbn [lookup]; rewrite I1, IH; reflexivity).
    unfold insert. rewrite !L1, X, Y. apply elements_app; [exact A1|]. apply forall2_elements. repeat constructor; assumption.
  Qed.
  Lemma alike_augment_key_values md md' m m' : alike_metadata md md' -> alike_metas m m' ->
    match augment_key_values md m, augment_key_values md' m' with Fine a, Fine b => alike_metadata a b | Panic, Panic => True | _, _ => False end.
  Proof.
    unfold augment_key_values. intros A F.
    assert (H : forall o o', match o, o' with Fine a, Fine b => alike_metadata a b | Panic, Panic => True | _, _ => False end ->
      match fold_left (fun md e => match md with Panic => Panic | Fine md => augment_key_value md e end) m o,
            fold_left (fun md e => match md with Panic => Panic | Fine md => augment_key_value md e end) m' o' with Fine a, Fine b => alike_metadata a b | Panic, Panic => True | _, _ => False end); [|apply H; exact A].
    clear A. induction F as [|e e' m m' [Se Fe] F IH]; intros o o' H; [exact H|]. cbn [fold_left]. apply IH. destruct o as [a|], o' as [b|]; try contradiction; auto. apply alike_augment_key_value; assumption.
  Qed.

  (** ** The processor *)
  Notation files := (table eq (Forall2 (alike_declared K))).
  Definition alike_ic (a b : include_context) : Prop := alike_tags (ic_tags a) (ic_tags b) /\ alike_metas (ic_meta a) (ic_meta b).
  Definition alike_report (r r' : report) : Prop := alike_problem (rp_problem r) (rp_problem r').
  Record alike_pp (s s' : processor) : Prop := {
    app_path : pp_path s = pp_path s';
    app_decls : Forall2 (alike_declared K) (pp_decls s) (pp_decls s');
    app_stacked : files (pp_stacked s) (pp_stacked s');
    app_remaining : files (pp_remaining s) (pp_remaining s');
    app_includes : table eq alike_ic (pp_includes s) (pp_includes s');
    app_tags : alike_tags (pp_tags s) (pp_tags s');
    app_meta : alike_metas (pp_meta s) (pp_meta s');
    app_options : alike_fields (pp_options s) (pp_options s');
    app_settings : alike_settings (os_parser_options (pp_options s)) (os_parser_options (pp_options s'));
    app_plugins : Forall2 alike_plugin (pp_plugins s) (pp_plugins s');
    app_errors : Forall2 alike_report (pp_errors s) (pp_errors s')
  }.
  Lemma alike_with_error s s' r r' : alike_pp s s' -> alike_report r r' -> alike_pp (with_error s r) (with_error s' r').
  Proof. intros [] R. constructor; cbn; auto. apply Forall2_app; auto. Qed.
  Lemma alike_problem_refl p : alike_problem p p.
  Proof.
    destruct p; cbn; try reflexivity.
    assert (M : forall v, alike_meta_value v v) by (intros [v|v]; cbn; [reflexivity|split; reflexivity]).
    assert (H : forall l, alike_listing l l).
    { intros [ts ms]. split; [reflexivity|]. cbn. induction ms as [|[k vs] ms IH]; constructor; [split; [reflexivity|]|exact IH]. cbn. induction vs; constructor; auto. }
    split; [apply H|]. destruct first; cbn; auto.
  Qed.
  Lemma alike_listing_of t m t' m' : alike_tags t t' -> alike_metas m m' -> alike_listing (listing_of t m) (listing_of t' m').
  Proof.
    intros T M. split; cbn.
    - induction T as [|x y t t' [S _] T IH]; [reflexivity|]. cbn. rewrite S, IH. reflexivity.
    - induction M as [|x y m m' [S F] M IH]; [constructor|]. constructor; [|exact IH]. split; [exact S|]. cbn. clear - F. induction F as [|a b l l' [_ V] F IH]; constructor; auto.
  Qed.

  Section Processor.
    Context (canonicalize : path -> option path) (globs : list (path * included_glob)) (errs : list (option path * str)).

    Lemma alike_not_entered s s' p sp sp' : alike_pp s s' ->
      match not_entered canonicalize errs s p sp, not_entered canonicalize errs s' p sp' with Some r, Some r' => alike_report r r' | None, None => True | _, _ => False end.
    Proof.
      intro A. unfold not_entered. pose proof (alike_listing_of _ _ _ _ (app_tags _ _ A) (app_meta _ _ A)) as Ls.
      destruct (lookup opt_path_eqb (Some p) errs); [apply alike_problem_refl|]. destruct (canonicalize p) as [c|]; [|split; [exact Ls|exact Logic.I]].
      pose proof (table_lookup path_eqb path_eqb eq alike_ic (eqb_eq_r path_eqb) c c _ _ eq_refl (app_includes _ _ A)) as H.
      destruct (lookup path_eqb c (pp_includes s)) as [x|], (lookup path_eqb c (pp_includes s')) as [y|]; try contradiction; [|split; [exact Ls|exact Logic.I]].
      destruct H as [Ht Hm]. rewrite (alike_tags_eqb _ _ _ _ Ht (app_tags _ _ A)), (alike_metas_eqb _ _ _ _ Hm (app_meta _ _ A)).
      destruct (_ && _); [exact Logic.I|]. split; [exact Ls|]. cbn. apply alike_listing_of; assumption.
    Qed.
    Lemma alike_offer sp sp' s s' p : alike_pp s s' -> alike_pp (offer canonicalize errs sp s p) (offer canonicalize errs sp' s' p).
    Proof.
      intro A. unfold offer. pose proof (table_entry opt_path_eqb opt_path_eqb eq (Forall2 (alike_declared K)) (eqb_eq_r opt_path_eqb) (Some p) (Some p) _ _ eq_refl (app_remaining _ _ A)) as H.
      destruct (remove_entry opt_path_eqb (Some p) (pp_remaining s)) as [[[k ds] r]|], (remove_entry opt_path_eqb (Some p) (pp_remaining s')) as [[[k' ds'] r']|]; try contradiction.
      - destruct H as (<- & Fd & Fr). pose proof A as A0. destruct A0. constructor; cbn; auto.
        + constructor; [split; assumption|assumption].
        + destruct k as [kp|]; [|assumption]. destruct (canonicalize kp) as [c|]; [|assumption]. apply table_insert; auto; [apply eqb_eq_r|]. split; assumption.
      - pose proof (alike_not_entered s s' p sp sp' A) as N. destruct (not_entered _ _ s p sp), (not_entered _ _ s' p sp'); try contradiction; [apply alike_with_error; assumption|exact A].
    Qed.
    Lemma alike_do_include s s' g g' : alike_pp s s' -> same_item g g' ->
      match do_include canonicalize globs errs s g, do_include canonicalize globs errs s' g' with Fine a, Fine b => alike_pp a b | Panic, Panic => True | _, _ => False end.
    Proof.
      intros A S. unfold do_include. rewrite (app_path _ _ A), S. destruct (lookup path_eqb _ globs) as [[ps|e]|]; [| |exact Logic.I].
      - assert (B : alike_pp (match ps with [] => with_error s (mk_report IncludeNoSuchFile (span_of g) []) | _ => s end) (match ps with [] => with_error s' (mk_report IncludeNoSuchFile (span_of g') []) | _ => s' end)).
        { destruct ps; [|exact A]. apply alike_with_error; [exact A|apply alike_problem_refl]. }
        revert B. generalize (match ps with [] => with_error s (mk_report IncludeNoSuchFile (span_of g) []) | _ => s end), (match ps with [] => with_error s' (mk_report IncludeNoSuchFile (span_of g') []) | _ => s' end).
        clear A. induction ps as [|p ps IH]; intros a b B; [exact B|]. cbn [fold_left]. apply IH. apply alike_offer. exact B.
      - apply alike_with_error; [exact A|apply alike_problem_refl].
    Qed.
    Lemma assimilate_settings o x : os_parser_options (fst (options_assimilate o x)) = os_parser_options o.
    Proof.
      unfold options_assimilate, assimilate_field. destruct o as [ti su cc td tm tc doc oc rc bm pm po]. destruct (opt_variant x); cbn; try reflexivity; unfold assign;
        match goal with |- context [update_optional ?a ?b ?c] => destruct (update_optional a b c) | |- context [update_hashmap ?a ?b ?c ?d ?e] => destruct (update_hashmap a b c d e) | |- context [update_unit_hashmap ?a ?b ?c ?d] => destruct (update_unit_hashmap a b c d) end; reflexivity.
    Qed.
    Lemma assimilate_problem o o' x y : alike_fields o o' -> opt_variant x = opt_variant y ->
      match snd (options_assimilate o x), snd (options_assimilate o' y) with Some r, Some r' => rp_problem r = rp_problem r' | None, None => True | _, _ => False end.
    Proof.
      intros A Q. unfold options_assimilate, assimilate_field. destruct o as [ti su cc td tm tc doc oc rc bm pm po], o' as [ti' su' cc' td' tm' tc' doc' oc' rc' bm' pm' po'].
      assert (Opt : forall B (f g : option (sourced B)) v s s', same_value_of f g -> match update_optional f v s, update_optional g v s' with Ok _, Ok _ => True | Err (DupOption _), Err (DupOption _) => True | _, _ => False end)
        by (intros B f g v s s' S; unfold same_value_of in S; destruct f, g; try discriminate; exact Logic.I).
      assert (Has : forall C D (eqb : C -> C -> bool) (f g : list (C * (D * option_source))) k v s s', map (fun x => (fst x, fst (snd x))) f = map (fun x => (fst x, fst (snd x))) g ->
        match update_hashmap eqb f k v s, update_hashmap eqb g k v s' with Ok _, Ok _ => True | Err (DupValue _), Err (DupValue _) => True | _, _ => False end).
      { intros C D eqb f g k v s s' S. unfold update_hashmap. pose proof (lookup_shape fst eqb k f g S) as H. destruct (lookup eqb k f) as [[? ?]|], (lookup eqb k g) as [[? ?]|]; auto; destruct H as [H H']; now (discriminate (H eq_refl) || discriminate (H' eq_refl)). }
      assert (Uni : forall C (eqb : C -> C -> bool) (f g : list (C * option_source)) k s s', map fst f = map fst g ->
        match update_unit_hashmap eqb f k s, update_unit_hashmap eqb g k s' with Ok _, Ok _ => True | Err (DupValue _), Err (DupValue _) => True | _, _ => False end).
      { intros C eqb f g k s s' S. apply unit_shape in S. unfold update_unit_hashmap. pose proof (lookup_shape (fun _ => tt) eqb k f g S) as H. destruct (lookup eqb k f) as [?|], (lookup eqb k g) as [?|]; auto; destruct H as [H H']; now (discriminate (H eq_refl) || discriminate (H' eq_refl)). }
      destruct A as [A1 A2 A3 A4 A5 A6 A7 A8 A9 A10 A11]. cbn in *. rewrite Q. destruct (opt_variant y); cbn; auto;
        unfold assign;
        match goal with
        | |- context [update_optional ?f ?v ?s] => match goal with |- context [update_optional ?g v ?s'] => assert (S : same_value_of f g) by auto; pose proof (Opt _ f g v s s' S) as H; destruct (update_optional f v s) as [?|[?|?]], (update_optional g v s') as [?|[?|?]] end
        | |- context [update_hashmap ?e ?f ?k ?v ?s] => match goal with |- context [update_hashmap e ?g k v ?s'] => pose proof (Has _ _ e f g k v s s' ltac:(assumption)) as H; destruct (update_hashmap e f k v s) as [?|[?|?]], (update_hashmap e g k v s') as [?|[?|?]] end
        | |- context [update_unit_hashmap ?e ?f ?k ?s] => match goal with |- context [update_unit_hashmap e ?g k ?s'] => pose proof (Uni _ e f g k s s' ltac:(assumption)) as H; destruct (update_unit_hashmap e f k s) as [?|[?|?]], (update_unit_hashmap e g k s') as [?|[?|?]] end
        end; try contradiction; cbn; auto.
    Qed.
    Lemma alike_do_pragma s s' p p' : alike_pp s s' -> alike_pragma K p p' ->
      match do_pragma canonicalize globs errs s p, do_pragma canonicalize globs errs s' p' with Fine a, Fine b => alike_pp a b | Panic, Panic => True | _, _ => False end.
    Proof.
      intros A P. destruct P as [t t' S|t t' S|x x' S Kx|t t' S|t t' S|x x' S|o o' S]; cbn [do_pragma].
      - pose proof (alike_push_tag _ _ _ _ S (app_tags _ _ A)). destruct A. constructor; cbn; auto.
      - pose proof (alike_pop_tag _ _ _ _ S (app_tags _ _ A)) as H. destruct (pop_tag t (pp_tags s)), (pop_tag t' (pp_tags s')); try contradiction.
        + destruct A. constructor; cbn; auto.
        + apply alike_with_error; [exact A|apply alike_problem_refl].
      - pose proof (alike_push_meta _ _ _ _ S Kx (app_meta _ _ A)). destruct A. constructor; cbn; auto.
      - pose proof (alike_pop_meta _ _ _ _ S (app_meta _ _ A)) as H. destruct (pop_meta t (pp_meta s)), (pop_meta t' (pp_meta s')); try contradiction.
        + destruct A. constructor; cbn; auto.
        + apply alike_with_error; [exact A|apply alike_problem_refl].
      - apply alike_do_include; assumption.
      - destruct A. constructor; cbn; auto. apply Forall2_app; auto.
      - pose proof (alike_assimilate _ _ _ _ (app_options _ _ A) S) as H1. pose proof (assimilate_problem _ _ _ _ (app_options _ _ A) S) as H2.
        pose proof (assimilate_settings (pp_options s) o) as H3. pose proof (assimilate_settings (pp_options s') o') as H4.
        destruct (options_assimilate (pp_options s) o) as [os e], (options_assimilate (pp_options s') o') as [os' e']. cbn [fst snd] in *.
        assert (B : alike_pp (with_options s os) (with_options s' os')) by (destruct A; constructor; cbn; auto; rewrite H3, H4; assumption).
        destruct e, e'; try contradiction; [|exact B]. apply alike_with_error; [exact B|]. unfold alike_report. rewrite H2. apply alike_problem_refl.
    Qed.
    Lemma alike_do_directive s s' d d' : alike_pp s s' -> alike d d' ->
      match do_directive s d, do_directive s' d' with Fine a, Fine b => alike a b | Panic, Panic => True | _, _ => False end.
    Proof.
      intros A [D M V]. unfold do_directive. pose proof (alike_augment_key_values _ _ _ _ (alike_augment_tags _ _ _ _ M (app_tags _ _ A)) (app_meta _ _ A)) as H.
      destruct (augment_key_values _ (pp_meta s)), (augment_key_values _ (pp_meta s')); try contradiction; auto. constructor; cbn; assumption.
    Qed.
    Lemma alike_pp_step s s' : alike_pp s s' ->
      match pp_step canonicalize globs errs s, pp_step canonicalize globs errs s' with
      | Fine (Yield d a), Fine (Yield d' b) => alike (item d) (item d') /\ alike_pp a b
      | Fine (Continue a), Fine (Continue b) => alike_pp a b
      | Fine Done, Fine Done => True
      | Panic, Panic => True
      | _, _ => False
      end.
    Proof.
      intro A. unfold pp_step. pose proof (app_decls _ _ A) as D. destruct D as [|d d' ds ds' Ad Fd].
      - pose proof (app_stacked _ _ A) as St. destruct St as [|[p ds] [p' ds'] r r' [Q F] Fr]; [exact Logic.I|]. cbn in Q, F. subst p'. destruct A. constructor; cbn; auto.
      - assert (B : alike_pp (with_decls s ds) (with_decls s' ds')) by (destruct A; constructor; cbn; auto).
        destruct Ad as [x y Qx Qy Al|x y Qx Qy Al]; rewrite Qx, Qy.
        + pose proof (alike_do_directive _ _ _ _ B Al) as H. destruct (do_directive (with_decls s ds) x), (do_directive (with_decls s' ds') y); try contradiction; auto.
        + pose proof (alike_do_pragma _ _ _ _ B Al) as H. destruct (do_pragma canonicalize globs errs (with_decls s ds) x), (do_pragma canonicalize globs errs (with_decls s' ds') y); try contradiction; auto.
    Qed.
    Lemma alike_pp_run n : forall s s', alike_pp s s' ->
      match pp_run canonicalize globs errs n s, pp_run canonicalize globs errs n s' with
      | Fine (Some (ds, a)), Fine (Some (ds', b)) => Forall2 (fun d d' => alike (item d) (item d')) ds ds' /\ alike_pp a b
      | Fine None, Fine None => True
      | Panic, Panic => True
      | _, _ => False
      end.
    Proof.
      induction n as [|n IH]; intros s s' A; [exact Logic.I|]. cbn [pp_run]. pose proof (alike_pp_step s s' A) as H.
      destruct (pp_step canonicalize globs errs s) as [[d a|a|]|], (pp_step canonicalize globs errs s') as [[d' b|b|]|]; try contradiction; auto.
      - destruct H as [H1 H2]. specialize (IH _ _ H2). destruct (pp_run canonicalize globs errs n a) as [[[ds x]|]|], (pp_run canonicalize globs errs n b) as [[[ds' y]|]|]; try contradiction; auto.
        destruct IH as [I1 I2]. split; [constructor; assumption|exact I2].
      - apply IH. exact H.
    Qed.
  End Processor.

  Lemma files_count a b : files a b -> decl_count a = decl_count b.
  Proof. unfold decl_count, list_sum. induction 1 as [|x y a b [_ F] _ IH]; [reflexivity|]. cbn [map fold_right]. rewrite IH, (forall2_length _ _ _ F). reflexivity. Qed.
  Lemma alike_pass canonicalize globs errs root parsed parsed' os os' :
    files parsed parsed' -> alike_fields os os' -> alike_settings (os_parser_options os) (os_parser_options os') ->
    match pragma_pass canonicalize globs errs root parsed os, pragma_pass canonicalize globs errs root parsed' os' with
    | Fine (Some (ds, (o, ps, es))), Fine (Some (ds', (o', ps', es'))) =>
        Forall2 (fun d d' => alike (item d) (item d')) ds ds' /\ alike_fields o o' /\ alike_settings (os_parser_options o) (os_parser_options o') /\
        Forall2 alike_plugin ps ps' /\ Forall2 alike_report es es'
    | Fine None, Fine None => True
    | Panic, Panic => True
    | _, _ => False
    end.
  Proof.
    intros F Fo Fs. unfold pragma_pass, pp_new. pose proof (table_lookup opt_path_eqb opt_path_eqb eq (Forall2 (alike_declared K)) (eqb_eq_r opt_path_eqb) root root _ _ eq_refl F) as H.
    destruct (lookup opt_path_eqb root parsed) as [ds|], (lookup opt_path_eqb root parsed') as [ds'|]; try contradiction; auto.
    match goal with |- context [pp_run _ _ _ (pp_fuel ?s) ?s] => match goal with |- context [pp_run _ _ _ (pp_fuel ?t) ?t] => assert (A : alike_pp (mk_pp root ds [] (remove_key opt_path_eqb root parsed) [] [] [] os [] []) (mk_pp root ds' [] (remove_key opt_path_eqb root parsed') [] [] [] os' [] [])) end end.
    { constructor; cbn; auto; try constructor. apply (table_remove opt_path_eqb opt_path_eqb eq (Forall2 (alike_declared K)) (eqb_eq_r opt_path_eqb)); auto. all: apply Fs. }
    revert A. generalize (mk_pp root ds [] (remove_key opt_path_eqb root parsed) [] [] [] os [] []), (mk_pp root ds' [] (remove_key opt_path_eqb root parsed') [] [] [] os' [] []). clear - Kin. intros s s' A.
    assert (Q : pp_fuel s = pp_fuel s') by (unfold pp_fuel; rewrite (forall2_length _ _ _ (app_decls _ _ A)), (files_count _ _ (app_stacked _ _ A)), (files_count _ _ (app_remaining _ _ A)); reflexivity).
    rewrite Q. pose proof (alike_pp_run canonicalize globs errs (pp_fuel s') s s' A) as H.
    destruct (pp_run _ _ _ _ s) as [[[ds a]|]|], (pp_run _ _ _ _ s') as [[[ds' b]|]|]; try contradiction; auto. destruct H as [H1 H2]. unfold pp_result. destruct H2.
    repeat (split; [assumption|]). apply Forall2_app; [assumption|]. apply Forall2_app.
    - match goal with H : alike_metas _ _ |- _ => revert H end. clear. induction 1 as [|[k v] [k' v'] m m' _ F IH]; [constructor|]. constructor; [reflexivity|exact IH].
    - match goal with H : alike_tags _ _ |- _ => revert H end. clear. induction 1 as [|[k v] [k' v'] m m' [_ Fv] F IH]; [constructor|]. cbn in *. constructor; [reflexivity|]. apply Forall2_app; [|exact IH].
      clear - Fv. induction Fv; constructor; auto. reflexivity.
  Qed.

  (** ** Everything *)
  Definition fits (I J : input) : Prop := exists P Q, in_step I J P Q K /\ end_in_step I J P Q.
  Definition fit_file (toks toks' : list (list rtoken)) (x y : nat * option path * str) : Prop :=
    fst x = fst y /\ match nth_error toks (fst (fst x)), nth_error toks' (fst (fst y)) with
                     | Some ts, Some ts' => fits (input_of (fst (fst x)) (snd x) ts) (input_of (fst (fst y)) (snd y) ts')
                     | None, None => True
                     | _, _ => False
                     end.

  Section Whole.
    Context (E : grammar_env) (Go : forall l, Permutation l (g_order E l)).
    Lemma alike_parse_all toks toks' cs cs' : Forall2 (fit_file toks toks') cs cs' -> forall outputs outputs' es es' st st',
      files outputs outputs' -> same_told es es' -> alike_state st st' ->
      match parse_all E toks cs outputs es st, parse_all E toks' cs' outputs' es' st' with
      | Fine (Some (o, e, s)), Fine (Some (o', e', s')) => files o o' /\ same_told e e' /\ alike_state s s'
      | Panic, Panic => True
      | _, _ => False
      end.
    Proof.
      induction 1 as [|[[id f] c] [[id' f'] c'] cs cs' [Q H] F IH]; intros outputs outputs' es es' st st' Fo Te As; [cbn; auto|]. cbn in Q. injection Q as <- <-. cbn [fst snd] in H. cbn [parse_all].
      destruct (nth_error toks id) as [ts|], (nth_error toks' id) as [ts'|]; try contradiction; auto. destruct H as (P & Q & Step & Ends).
      pose proof (alike_file_read E Go _ _ P Q K Step Ends f st st' As) as H.
      pose proof (C65_file E (input_of id c ts) f st) as T. pose proof (C65_file E (input_of id c' ts') f st') as T'.
      destruct (parse_file E (input_of id c ts) f st) as [[[[o e] s]|]|], (parse_file E (input_of id c' ts') f st') as [[[[o' e'] s']|]|]; try contradiction; try congruence; auto.
      destruct H as (H1 & H2 & H3). apply IH; [|apply same_told_app; assumption|exact H3].
      apply table_insert; auto; [apply eqb_eq_r|]. destruct o, o'; try contradiction; [exact H1|constructor].
    Qed.
    Lemma same_told_complaints es es' : same_told es es' -> same_elements alike_complaint es es'.
    Proof.
      unfold same_told. intro H. symmetry in H. apply Permutation_map_inv in H. destruct H as (m & Q & P). exists m. split; [exact P|]. clear P es. symmetry in Q.
      revert es' Q. induction m as [|c m IH]; intros [|d es'] Q; try discriminate; [constructor|]. cbn in Q. injection Q as Q0 Q. constructor; [|apply IH; exact Q].
      destruct c, d; cbn in *; try discriminate; [|injection Q0 as -> ->; auto]. injection Q0 as ->. apply alike_problem_refl.
    Qed.
    Lemma alike_reports_elements es es' : Forall2 alike_report es es' -> same_elements alike_complaint (map C_Report es) (map C_Report es').
    Proof. intro F. apply forall2_elements. induction F; constructor; auto. Qed.
    Lemma elements_nil {A} (R : A -> A -> Prop) l l' : same_elements R l l' -> (l = [] <-> l' = []).
    Proof.
      intros (m & P & F). split; intros ->.
      - apply Permutation_nil in P. subst m. inversion F. reflexivity.
      - inversion F; subst. symmetry in P. apply Permutation_nil in P. exact P.
    Qed.
    Lemma alike_parse canonicalize s s' toks toks' : root_path s = root_path s' -> included_globs s = included_globs s' -> error_paths s = error_paths s' ->
      Forall2 (fit_file toks toks') (content_iter s) (content_iter s') ->
      match parse E canonicalize s toks, parse E canonicalize s' toks' with
      | Fine (Some r), Fine (Some r') => alike_result r r'
      | Panic, Panic => True
      | _, _ => False
      end.
    Proof.
      intros Rp Ig Ep F. pose proof (C65_terminates E canonicalize s toks) as T. pose proof (C65_terminates E canonicalize s' toks') as T'.
      unfold parse, parse_declarations in *. pose proof (alike_parse_all toks toks' _ _ F [] [] [] [] default_pstate default_pstate (Forall2_nil _) (Permutation_refl _) (conj (conj eq_refl eq_refl) eq_refl)) as H.
      destruct (parse_all E toks _ [] [] default_pstate) as [[[[o e] st]|]|], (parse_all E toks' _ [] [] default_pstate) as [[[[o' e'] st']|]|]; try contradiction; auto.
      destruct H as (H1 & H2 & [Hs Hw]). rewrite <- Rp, <- Ig, <- Ep in *.
      pose proof (alike_pass canonicalize (included_globs s) (error_paths s) (root_path s) o o' (options_new (ps_options st)) (options_new (ps_options st')) H1 (alike_fields_new _ _) Hs) as H.
      destruct (pragma_pass _ _ _ _ o _) as [[[ds [[os ps] es]]|]|], (pragma_pass _ _ _ _ o' _) as [[[ds' [[os' ps'] es']]|]|]; try contradiction; try congruence; auto.
      destruct H as (D & Fo & Fs & Fp & Fe).
      destruct (C01_sort_stable ds) as (out & pi & So & _). destruct (C01_sort_stable ds') as (out' & pi' & So' & _). rewrite So, So'.
      pose proof (elements_app _ _ _ _ _ (same_told_complaints _ _ H2) (alike_reports_elements _ _ Fe)) as El.
      pose proof (elements_nil _ _ _ El) as Ni.
      destruct (e ++ map C_Report es) eqn:X, (e' ++ map C_Report es') eqn:Y; try (exfalso; destruct Ni as [N N']; now (discriminate (N eq_refl) || discriminate (N' eq_refl))).
      - split; [eapply alike_sorted; [exact D|apply sort_sorted; exact So|apply sort_sorted; exact So']|]. split; [|split; [exact Fp|exact Hw]].
        destruct Fo, Fs as [Fn Fm]. constructor; auto.
        + intro t. unfold options_account_type_name. rewrite Fn. reflexivity.
        + unfold options_long_string_maxlines, os_spanned. destruct (po_maxlines _), (po_maxlines _); cbn in *; auto.
      - split; [exact El|exact Hw].
    Qed.
  End Whole.
End Pass.
