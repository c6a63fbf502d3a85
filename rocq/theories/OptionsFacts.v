(** * Facts about option handling *)
From Coq Require Import String Ascii.
From Coq Require Import List NArith ZArith Arith Bool Lia.
From Verif Require Import Base BaseFacts Path PathFacts Types SpecTypes TypesFacts Options SpecOptions.
Import ListNotations.
Local Open Scope nat_scope.

Lemma subaccount_eqb_eq a b : subaccount_eqb a b = true <-> a = b.
Proof. destruct a, b; simpl; split; congruence. Qed.

Lemma currency_or_any_eqb_eq a b : currency_or_any_eqb a b = true <-> a = b.
Proof.
  destruct a, b; simpl; try (split; congruence).
  rewrite str_eqb_eq. split; congruence.
Qed.

Lemma currency_or_any_equiv : eq_equiv currency_or_any_eqb.
Proof.
  split; [|split].
  - intros x. now apply currency_or_any_eqb_eq.
  - intros x y. destruct (currency_or_any_eqb x y) eqn:A; symmetry.
    + apply currency_or_any_eqb_eq in A as ->. now apply currency_or_any_eqb_eq.
    + destruct (currency_or_any_eqb y x) eqn:B; auto. apply currency_or_any_eqb_eq in B as ->.
      rewrite (proj2 (currency_or_any_eqb_eq x x) eq_refl) in A. discriminate.
  - intros x y z A B. apply currency_or_any_eqb_eq in A as ->. exact B.
Qed.

Lemma given_app {A} (f : option_variant -> option A) a b : given f (a ++ b) = given f a ++ given f b.
Proof. induction a as [|o a IH]; simpl; auto. destruct (f (opt_variant o)); simpl; rewrite IH; auto. Qed.

Section FirstEntries.
  Context {K X : Type} (eqb : K -> K -> bool).
  Hypothesis E : eq_equiv eqb.

  Lemma lookup_filter_other k k' (l : list (K * X)) : eqb k' k = false ->
    lookup eqb k (filter (fun e => negb (eqb k' (fst e))) l) = lookup eqb k l.
  Proof.
    intros N. induction l as [|[k0 x0] l IH]; simpl; auto.
    destruct (eqb k' k0) eqn:Q; simpl.
    - rewrite IH. destruct (eqb k k0) eqn:R; auto.
      destruct E as (_ & Sy & T). rewrite (T k' k0 k Q) in N; [discriminate|]. now rewrite Sy.
    - rewrite IH. reflexivity.
  Qed.

  Lemma lookup_first_entries k (l : list (K * X)) : lookup eqb k (first_entries eqb l) = lookup eqb k l.
  Proof.
    induction l as [|[k0 x0] l IH]; simpl; auto.
    destruct (eqb k k0) eqn:Q; auto.
    rewrite lookup_filter_other; auto. destruct E as (_ & Sy & _). now rewrite Sy.
  Qed.

  Lemma lookup_none_filter k (l : list (K * X)) :
    filter (fun e => negb (eqb k (fst e))) l = l <-> lookup eqb k l = None.
  Proof.
    induction l as [|[k0 x0] l IH]; simpl; [tauto|].
    destruct (eqb k k0) eqn:Q; simpl.
    - split; [|discriminate]. intros H. apply (f_equal (@List.length _)) in H. simpl in H.
      assert (L : forall m : list (K * X), List.length (filter (fun e => negb (eqb k (fst e))) m) <= List.length m).
      { induction m as [|y m IHm]; simpl; auto. destruct (negb _); simpl; lia. }
      specialize (L l). lia.
    - rewrite <- IH. split; [intros H; now injection H|now intros ->].
  Qed.

  Lemma first_entries_snoc k x (l : list (K * X)) :
    first_entries eqb (l ++ [(k, x)]) =
    match lookup eqb k l with
    | Some _ => first_entries eqb l
    | None => first_entries eqb l ++ [(k, x)]
    end.
  Proof.
    induction l as [|[k0 x0] l IH]; simpl; auto. rewrite IH.
    destruct E as (R & Sy & T).
    destruct (eqb k k0) eqn:Q.
    - destruct (lookup eqb k l); auto. f_equal.
      rewrite filter_app; simpl. rewrite (Sy k0 k), Q. simpl. now rewrite app_nil_r.
    - destruct (lookup eqb k l); auto. simpl. f_equal.
      rewrite filter_app; simpl. rewrite (Sy k0 k), Q. reflexivity.
  Qed.

  Lemma insert_new k x (l : list (K * X)) : lookup eqb k l = None -> insert eqb k x l = l ++ [(k, x)].
  Proof. intros H. unfold insert. now rewrite H. Qed.
End FirstEntries.

Definition first_sourced {A} (f : option_variant -> option A) seen : option (sourced A) :=
  match given f seen with [] => None | (a, s) :: _ => Some (new_sourced a s) end.

Definition tol_entries (l : list (currency_or_any * decimal * option_source)) : list (currency_or_any * (decimal * option_source)) :=
  map (fun e => (fst (fst e), (snd (fst e), snd e))) l.

(** The state after the options [seen]. *)
Record state_after (po : parser_options) (seen : list beancount_option) (o : options) : Prop := {
  sa_title : os_title o = first_sourced as_title seen;
  sa_sub : forall w, os_subaccount o w = first_sourced (as_subaccount w) seen;
  sa_cc : os_conversion_currency o = first_sourced as_conversion_currency seen;
  sa_tol : os_tolerance_default o = first_entries currency_or_any_eqb (tol_entries (given as_tolerance seen));
  sa_tm : os_tolerance_multiplier o = first_sourced as_tolerance_multiplier seen;
  sa_tc : os_tolerance_from_cost o = first_sourced as_tolerance_from_cost seen;
  sa_doc : os_documents o = first_entries path_eqb (given as_documents seen);
  sa_oc : os_operating_currency o = first_entries str_eqb (given as_operating_currency seen);
  sa_rc : os_render_commas o = first_sourced as_render_commas seen;
  sa_bm : os_booking_method o = first_sourced as_booking_method seen;
  sa_pm : os_plugin_mode o = first_sourced as_plugin_mode seen;
  sa_po : os_parser_options o = po
}.

Lemma state_after_nil po : state_after po [] (options_new po).
Proof. constructor; reflexivity. Qed.

(** A single-valued field and the search for an earlier setting agree. *)
Lemma find_single {A} (f : option_variant -> option A) s seen :
  (forall o, sets s o = match f (opt_variant o) with Some _ => true | None => false end) ->
  find (sets s) seen = None /\ given f seen = [] \/
  exists o a rest, find (sets s) seen = Some o /\ given f seen = (a, opt_source o) :: rest.
Proof.
  intros H. induction seen as [|o seen IH]; simpl; auto.
  rewrite H. destruct (f (opt_variant o)) as [a|]; auto. right; eauto.
Qed.

Lemma find_keyed {K} (f : option_variant -> option K) (eqb : K -> K -> bool) (mk : K -> setting) k seen :
  (forall o, sets (mk k) o = match f (opt_variant o) with Some k' => eqb k k' | None => false end) ->
  lookup eqb k (given f seen) = option_map opt_source (find (sets (mk k)) seen).
Proof.
  intros H. induction seen as [|o seen IH]; simpl; auto.
  rewrite H. destruct (f (opt_variant o)) as [k'|]; simpl; auto. destruct (eqb k k'); auto.
Qed.

Lemma find_tolerance c seen :
  option_map snd (lookup currency_or_any_eqb c (tol_entries (given as_tolerance seen))) =
  option_map opt_source (find (sets (SetTolerance c)) seen).
Proof.
  induction seen as [|o seen IH]; simpl; auto.
  unfold sets, as_tolerance. destruct (opt_variant o) eqn:V; simpl; auto.
  destruct (currency_or_any_eqb c c0); auto.
Qed.

Lemma given_one {A} (f : option_variant -> option A) seen x :
  given f (seen ++ [x]) = given f seen ++ match f (opt_variant x) with Some a => [(a, opt_source x)] | None => [] end.
Proof. rewrite given_app. simpl. destruct (f (opt_variant x)); reflexivity. Qed.

Lemma first_sourced_keep {A} (f : option_variant -> option A) seen x :
  f (opt_variant x) = None -> first_sourced f (seen ++ [x]) = first_sourced f seen.
Proof. intros H. unfold first_sourced. rewrite given_one, H, app_nil_r. reflexivity. Qed.

Lemma given_keep {A} (f : option_variant -> option A) seen x :
  f (opt_variant x) = None -> given f (seen ++ [x]) = given f seen.
Proof. intros H. rewrite given_one, H, app_nil_r. reflexivity. Qed.

Lemma update_single {A} (f : option_variant -> option A) s seen x a :
  (forall o, sets s o = match f (opt_variant o) with Some _ => true | None => false end) ->
  f (opt_variant x) = Some a -> setting_of (opt_variant x) = Some s -> keyed s = false ->
  match update_optional (first_sourced f seen) a (opt_source x) with
  | Ok fld => fld = first_sourced f (seen ++ [x]) /\ due_report seen x = None
  | Err e => first_sourced f (seen ++ [x]) = first_sourced f seen /\
             due_report seen x = Some (dup_report (opt_source x) e)
  end.
Proof.
  intros H Fx Sx Kx. unfold due_report. rewrite Sx.
  unfold first_sourced. rewrite given_one, Fx.
  destruct (find_single f s seen H) as [[-> ->]|(o & b & rest & -> & ->)]; simpl.
  - auto.
  - rewrite Kx. auto.
Qed.

Lemma assimilate_step po seen o x :
  state_after po seen o ->
  state_after po (seen ++ [x]) (fst (options_assimilate o x)) /\
  snd (options_assimilate o x) = due_report seen x.
Proof.
  intros [T SU CC TO TM TC DO OC RC BM PM PO]. unfold options_assimilate, assimilate_field.
  destruct o as [ti su cc td tm tc doc oc rc bm pm po']; simpl in *.
  destruct (opt_variant x) eqn:V.
  (* every case: the untouched fields *)
  all: try (split; [constructor; simpl; intros;
      rewrite ?first_sourced_keep, ?given_keep by (rewrite V; reflexivity); auto
    | unfold due_report; rewrite V; reflexivity]; fail).
  - (* title *)
    pose proof (update_single as_title SetTitle seen x s) as Q. rewrite V in Q.
    specialize (Q ltac:(intros o; unfold sets; destruct (opt_variant o); reflexivity) eq_refl eq_refl eq_refl).
    rewrite T. destruct (update_optional _ _ _) as [fld|e]; destruct Q as [Q1 Q2]; simpl; (split; [|auto]);
    constructor; simpl; intros; rewrite ?given_keep by (rewrite V; reflexivity); rewrite ?first_sourced_keep by (rewrite V; reflexivity); auto; congruence.
  - (* subaccount *)
    pose proof (update_single (as_subaccount which) (SetSubaccount which) seen x s) as Q. rewrite V in Q.
    specialize (Q ltac:(intros o; unfold sets; destruct (opt_variant o); try reflexivity; simpl; destruct (subaccount_eqb which which0); reflexivity)).
    specialize (Q ltac:(simpl; now rewrite (proj2 (subaccount_eqb_eq which which) eq_refl)) eq_refl eq_refl).
    rewrite SU. destruct (update_optional _ _ _) as [fld|e]; destruct Q as [Q1 Q2]; simpl; (split; [|auto]);
    constructor; simpl; intros; rewrite ?given_keep by (rewrite V; reflexivity); rewrite ?first_sourced_keep by (rewrite V; reflexivity); auto.
    + destruct (subaccount_eqb w which) eqn:EW.
      * apply subaccount_eqb_eq in EW as ->. auto.
      * rewrite first_sourced_keep; auto. rewrite V. simpl. now rewrite EW.
    + destruct (subaccount_eqb w which) eqn:EW.
      * apply subaccount_eqb_eq in EW as ->. rewrite Q1. auto.
      * rewrite first_sourced_keep; auto. rewrite V. simpl. now rewrite EW.
  - (* conversion currency *)
    pose proof (update_single as_conversion_currency SetConversionCurrency seen x c) as Q. rewrite V in Q.
    specialize (Q ltac:(intros o; unfold sets; destruct (opt_variant o); reflexivity) eq_refl eq_refl eq_refl).
    rewrite CC. destruct (update_optional _ _ _) as [fld|e]; destruct Q as [Q1 Q2]; simpl; (split; [|auto]);
    constructor; simpl; intros; rewrite ?given_keep by (rewrite V; reflexivity); rewrite ?first_sourced_keep by (rewrite V; reflexivity); auto; congruence.
  - (* tolerance default *)
    unfold update_hashmap. rewrite TO, lookup_first_entries by apply currency_or_any_equiv.
    pose proof (find_tolerance c seen) as FT.
    assert (G : tol_entries (given as_tolerance (seen ++ [x])) = tol_entries (given as_tolerance seen) ++ [(c, (d, opt_source x))]).
    { rewrite given_one, V. simpl. unfold tol_entries. rewrite map_app. reflexivity. }
    unfold due_report. rewrite V. simpl setting_of. cbv iota.
    destruct (lookup _ c (tol_entries _)) as [[d0 s0]|] eqn:L; simpl in FT.
    + destruct (find (sets (SetTolerance c)) seen) as [f|]; simpl in FT; [|discriminate]. injection FT as ->.
      simpl. split; [|reflexivity].
      constructor; simpl; intros; rewrite ?first_sourced_keep by (rewrite V; reflexivity); try (rewrite given_keep by (rewrite V; reflexivity)); auto.
      rewrite G, first_entries_snoc by apply currency_or_any_equiv. now rewrite L.
    + destruct (find (sets (SetTolerance c)) seen) as [f|]; simpl in FT; [discriminate|].
      simpl. split; [|reflexivity].
      constructor; simpl; intros; rewrite ?first_sourced_keep by (rewrite V; reflexivity); try (rewrite given_keep by (rewrite V; reflexivity)); auto.
      rewrite G, first_entries_snoc by apply currency_or_any_equiv. rewrite L.
      apply insert_new. now rewrite lookup_first_entries by apply currency_or_any_equiv.
  - (* tolerance multiplier *)
    pose proof (update_single as_tolerance_multiplier SetToleranceMultiplier seen x d) as Q. rewrite V in Q.
    specialize (Q ltac:(intros o; unfold sets; destruct (opt_variant o); reflexivity) eq_refl eq_refl eq_refl).
    rewrite TM. destruct (update_optional _ _ _) as [fld|e]; destruct Q as [Q1 Q2]; simpl; (split; [|auto]);
    constructor; simpl; intros; rewrite ?given_keep by (rewrite V; reflexivity); rewrite ?first_sourced_keep by (rewrite V; reflexivity); auto; congruence.
  - (* tolerance from cost *)
    pose proof (update_single as_tolerance_from_cost SetToleranceFromCost seen x b) as Q. rewrite V in Q.
    specialize (Q ltac:(intros o; unfold sets; destruct (opt_variant o); reflexivity) eq_refl eq_refl eq_refl).
    rewrite TC. destruct (update_optional _ _ _) as [fld|e]; destruct Q as [Q1 Q2]; simpl; (split; [|auto]);
    constructor; simpl; intros; rewrite ?given_keep by (rewrite V; reflexivity); rewrite ?first_sourced_keep by (rewrite V; reflexivity); auto; congruence.
  - (* documents *)
    unfold update_unit_hashmap. rewrite DO, lookup_first_entries by apply path_eqb_equiv.
    rewrite (find_keyed as_documents path_eqb SetDocuments p seen)
      by (intros o; unfold sets; destruct (opt_variant o); reflexivity).
    pose proof (find_keyed as_documents path_eqb SetDocuments p seen ltac:(intros o; unfold sets; destruct (opt_variant o); reflexivity)) as FD.
    unfold due_report. rewrite V. simpl setting_of. cbv iota.
    destruct (find (sets (SetDocuments p)) seen) as [f|]; simpl.
    + split; [|reflexivity].
      constructor; simpl; intros; rewrite ?first_sourced_keep by (rewrite V; reflexivity); try (rewrite given_keep by (rewrite V; reflexivity)); auto.
      rewrite given_one, V. simpl. rewrite first_entries_snoc by apply path_eqb_equiv. now rewrite FD.
    + split; [|reflexivity].
      constructor; simpl; intros; rewrite ?first_sourced_keep by (rewrite V; reflexivity); try (rewrite given_keep by (rewrite V; reflexivity)); auto.
      rewrite given_one, V. simpl. rewrite first_entries_snoc by apply path_eqb_equiv. rewrite FD. simpl.
      apply insert_new. now rewrite lookup_first_entries by apply path_eqb_equiv.
  - (* operating currency *)
    unfold update_unit_hashmap. rewrite OC, lookup_first_entries by apply str_eqb_equiv.
    pose proof (find_keyed as_operating_currency str_eqb SetOperatingCurrency c seen ltac:(intros o; unfold sets; destruct (opt_variant o); reflexivity)) as FD.
    rewrite FD.
    unfold due_report. rewrite V. simpl setting_of. cbv iota.
    destruct (find (sets (SetOperatingCurrency c)) seen) as [f|]; simpl.
    + split; [|reflexivity].
      constructor; simpl; intros; rewrite ?first_sourced_keep by (rewrite V; reflexivity); try (rewrite given_keep by (rewrite V; reflexivity)); auto.
      rewrite given_one, V. simpl. rewrite first_entries_snoc by apply str_eqb_equiv. now rewrite FD.
    + split; [|reflexivity].
      constructor; simpl; intros; rewrite ?first_sourced_keep by (rewrite V; reflexivity); try (rewrite given_keep by (rewrite V; reflexivity)); auto.
      rewrite given_one, V. simpl. rewrite first_entries_snoc by apply str_eqb_equiv. rewrite FD. simpl.
      apply insert_new. now rewrite lookup_first_entries by apply str_eqb_equiv.
  - (* render commas *)
    pose proof (update_single as_render_commas SetRenderCommas seen x b) as Q. rewrite V in Q.
    specialize (Q ltac:(intros o; unfold sets; destruct (opt_variant o); reflexivity) eq_refl eq_refl eq_refl).
    rewrite RC. destruct (update_optional _ _ _) as [fld|e]; destruct Q as [Q1 Q2]; simpl; (split; [|auto]);
    constructor; simpl; intros; rewrite ?given_keep by (rewrite V; reflexivity); rewrite ?first_sourced_keep by (rewrite V; reflexivity); auto; congruence.
  - (* booking *)
    pose proof (update_single as_booking_method SetBookingMethod seen x b) as Q. rewrite V in Q.
    specialize (Q ltac:(intros o; unfold sets; destruct (opt_variant o); reflexivity) eq_refl eq_refl eq_refl).
    rewrite BM. destruct (update_optional _ _ _) as [fld|e]; destruct Q as [Q1 Q2]; simpl; (split; [|auto]);
    constructor; simpl; intros; rewrite ?given_keep by (rewrite V; reflexivity); rewrite ?first_sourced_keep by (rewrite V; reflexivity); auto; congruence.
  - (* plugin mode *)
    pose proof (update_single as_plugin_mode SetPluginMode seen x m) as Q. rewrite V in Q.
    specialize (Q ltac:(intros o; unfold sets; destruct (opt_variant o); reflexivity) eq_refl eq_refl eq_refl).
    rewrite PM. destruct (update_optional _ _ _) as [fld|e]; destruct Q as [Q1 Q2]; simpl; (split; [|auto]);
    constructor; simpl; intros; rewrite ?given_keep by (rewrite V; reflexivity); rewrite ?first_sourced_keep by (rewrite V; reflexivity); auto; congruence.
Qed.

Lemma assimilate_all_spec po seen o opts :
  state_after po seen o ->
  state_after po (seen ++ opts) (fst (assimilate_all o opts)) /\
  snd (assimilate_all o opts) = due_reports seen opts.
Proof.
  revert seen o; induction opts as [|x opts IH]; intros seen o H; simpl.
  - rewrite app_nil_r. auto.
  - destruct (assimilate_step po seen o x H) as [A B].
    destruct (options_assimilate o x) as [o1 r]. simpl in *.
    destruct (IH (seen ++ [x]) o1 A) as [A2 B2].
    destruct (assimilate_all o1 opts) as [o2 rs]. simpl in *.
    rewrite <- app_assoc in A2. split; auto. now rewrite B, B2.
Qed.

(** ** Numbers *)

Lemma digits_value_spec ds acc n :
  digits_value acc ds = Some n <->
  Forall digit ds /\ n = fold_left (fun acc c => (acc * 10 + (c - 48))%N) ds acc.
Proof.
  revert acc; induction ds as [|c ds IH]; intros acc; simpl.
  - split; [intros H; injection H as ->; auto|now intros [_ ->]].
  - destruct (is_ascii_digit c) eqn:D.
    + rewrite IH. apply is_digit_spec in D. split; [intros [A B]; auto|]. intros [A B]; inversion A; auto.
    + split; [discriminate|]. intros [A _]. inversion A as [|? ? Q]; subst. apply is_digit_spec in Q. congruence.
Qed.

Lemma parse_usize_spec v n : parse_usize v = Some n <-> unsigned_number v n.
Proof.
  assert (CORE : forall ds m, ds <> [] ->
     match digits_value 0 ds with Some k => if (k <? 2 ^ 64)%N then Some k else None | None => None end = Some m <->
     Forall digit ds /\ m = decimal_value ds /\ (m < 2 ^ 64)%N).
  { intros ds m _. destruct (digits_value 0 ds) as [k|] eqn:E.
    - apply digits_value_spec in E as [A B]. fold (decimal_value ds) in B. subst k.
      destruct (decimal_value ds <? 2 ^ 64)%N eqn:L.
      + apply N.ltb_lt in L. split; [intros H; injection H as <-; auto|intros (_ & -> & _); auto].
      + apply N.ltb_ge in L. split; [discriminate|]. intros (_ & -> & Q). lia.
    - split; [discriminate|]. intros (A & B & _). assert (digits_value 0 ds = Some m) by (apply digits_value_spec; auto). congruence. }
  unfold parse_usize, unsigned_number. split.
  - intros H. set (ds := match v with c :: s' => if (c =? 43)%N then s' else v | [] => v end) in H.
    exists ds. assert (NE : ds <> []) by (intros E; rewrite E in H; discriminate).
    assert (match digits_value 0 ds with Some k => if (k <? 2 ^ 64)%N then Some k else None | None => None end = Some n) as H'
      by (destruct ds; [congruence|exact H]).
    apply CORE in H' as (A & B & C); auto. repeat split; auto.
    subst ds. destruct v as [|c s]; auto. destruct (c =? 43)%N eqn:Q; auto. apply N.eqb_eq in Q as ->. auto.
  - intros (ds & V & NE & A & B & C).
    assert (E : match v with c :: s' => if (c =? 43)%N then s' else v | [] => v end = ds).
    { destruct V as [->| ->]; [|reflexivity]. destruct ds as [|c ds]; auto.
      inversion A as [|? ? Q]; subst. unfold digit in Q. destruct (c =? 43)%N eqn:R; auto. apply N.eqb_eq in R. lia. }
    rewrite E. assert (X := proj2 (CORE ds n NE) (conj A (conj B C))). destruct ds; [congruence|exact X].
Qed.
