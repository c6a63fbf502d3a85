(** * C24: cost specifications *)
From Coq Require Import String Ascii.
From Coq Require Import List NArith Arith Bool Lia Permutation.
From Verif Require Import Base Types Cost SpecCost.
Import ListNotations.
Local Open Scope nat_scope.

Definition field {A} (f : cost_comp -> option A) (l : list (spanned cost_comp)) : option (spanned A) :=
  hd_error (given f l).

Record inv (l : list (spanned cost_comp)) (b : cost_builder) : Prop := {
  inv_spec : cb_spec b = mk_cost_spec (field per_unit_of l) (field total_of l) (field currency_of l)
               (field date_of l) (field label_of l) (match given merge_of l with [] => false | _ => true end);
  inv_errors : forall k, count_occ cost_kind_eq_dec (cb_errors b) k = times k l - 1
}.

Lemma given_app : forall A (f : cost_comp -> option A) l1 l2, given f (l1 ++ l2) = given f l1 ++ given f l2.
Proof. intros. unfold given. apply flat_map_app. Qed.

Lemma inv_nil : inv [] default_builder.
Proof. constructor; [reflexivity|]. intros []; reflexivity. Qed.

Lemma inv_step : forall l b c, inv l b -> inv (l ++ [c]) (add_comp b c).
Proof.
  intros l [sp es] [c s] [Sp E]. cbn [cb_spec cb_errors] in *. subst sp.
  assert (G : forall A (f : cost_comp -> option A) x, given f (l ++ [mk_spanned x s])
    = given f l ++ match f x with Some a => [mk_spanned a s] | None => [] end).
  { intros A f x. rewrite given_app. unfold given at 2. cbn [flat_map item span_of]. rewrite app_nil_r. reflexivity. }
  assert (Hd : forall A (g : list A) x, hd_error (g ++ [x]) = match hd_error g with Some y => Some y | None => Some x end)
    by (intros A [|? ?] ?; reflexivity).
  assert (Mg : forall A (g : list A) x, match g ++ [x] with [] => false | _ => true end = true)
    by (intros A [|? ?] ?; reflexivity).
  assert (Ln : forall A (g : list A), List.length g - 1 + (match hd_error g with Some _ => 1 | None => 0 end) = List.length g).
  { intros A [|? ?]; cbn [hd_error List.length]; lia. }
  pose proof (Ln _ (given per_unit_of l)) as L1. pose proof (Ln _ (given total_of l)) as L2.
  pose proof (Ln _ (given currency_of l)) as L3. pose proof (Ln _ (given date_of l)) as L4.
  pose proof (Ln _ (given label_of l)) as L5.
  assert (L6 : List.length (given merge_of l) - 1 + (if match given merge_of l with [] => false | _ => true end then 1 else 0)
    = List.length (given merge_of l)).
  { destruct (given merge_of l); cbn [List.length]; lia. }
  destruct c as [[cu|[v|v|p t]|[v|v|p t] cu]|d|la|];
  unfold add_comp, set_compound_expr, set_per_unit, set_total, set_currency, set_date, set_label, set_merge,
    push_error; cbn [item span_of cb_spec cb_errors];
  (constructor;
   [ unfold field in *; rewrite !G; cbn [per_unit_of total_of currency_of date_of label_of merge_of amount_of];
     rewrite ?app_nil_r, ?Hd, ?Mg;
     repeat match goal with |- context [match hd_error ?g with _ => _ end] => destruct (hd_error g); cbn [cb_spec cb_errors] end;
     try reflexivity; destruct (given merge_of l); reflexivity
   | intro k; specialize (E k); unfold field in *; destruct k; cbn [times] in *; rewrite G;
     cbn [per_unit_of total_of currency_of date_of label_of merge_of amount_of]; rewrite ?app_length;
     repeat match goal with |- context [match hd_error ?g with _ => _ end] => destruct (hd_error g); cbn [cb_spec cb_errors] end;
     repeat match goal with |- context [negb ?g] => destruct g; cbn [negb cb_spec cb_errors] end;
     cbn [cb_errors cb_spec List.length];
     rewrite ?count_occ_app; cbn [count_occ cost_kind_eq_dec cost_kind_rec cost_kind_rect];
     repeat match goal with |- context [cost_kind_eq_dec ?a ?b] => destruct (cost_kind_eq_dec a b); try discriminate; try congruence end;
     lia ]).
Qed.

Lemma inv_fold : forall l, inv l (fold_left add_comp l default_builder).
Proof.
  intro l. induction l as [|c l IH] using rev_ind; [apply inv_nil|].
  rewrite fold_left_app. cbn [fold_left]. apply inv_step. exact IH.
Qed.

Lemma cost_of_fold : forall o, cost_of o = build (fold_left add_comp (comps_of o) default_builder).
Proof. intros [[h t]|]; reflexivity. Qed.

Lemma no_errors_iff : forall es, es = [] <-> forall k, count_occ cost_kind_eq_dec es k = 0.
Proof.
  intros [|k es]; split; auto; try discriminate.
  intro H. specialize (H k). cbn in H. destruct (cost_kind_eq_dec k k); [discriminate|congruence].
Qed.

Lemma only_hd : forall A (l : list A), List.length l <= 1 -> only l (hd_error l).
Proof. intros A [|a [|b l]] H; cbn in *; try constructor. lia. Qed.

Lemma only_det : forall A (l : list A) o, only l o -> List.length l <= 1 /\ o = hd_error l.
Proof. intros A l o H. destruct H; cbn; auto. Qed.

(** C24: accepted exactly when every field is given at most once, each field
    then having the value given. *)
Theorem C24_accepts : forall comps c,
  cost_of comps = Ok c <-> spells_cost (comps_of comps) c.
Proof.
  intros o c. rewrite cost_of_fold. destruct (inv_fold (comps_of o)) as [Sp E].
  set (b := fold_left add_comp (comps_of o) default_builder) in *. set (l := comps_of o) in *. clearbody b l.
  assert (T : cb_errors b = [] <-> forall k, times k l <= 1).
  { rewrite no_errors_iff. split; intros H k; specialize (H k); rewrite (E k) in *; lia. }
  unfold build. split.
  - intro H. destruct (cb_errors b) eqn:Eb; [|discriminate]. inversion H; subst c. clear H.
    assert (T' : forall k, times k l <= 1) by (apply T; reflexivity).
    rewrite Sp. constructor; cbn.
    + apply only_hd. exact (T' CK_PerUnit).
    + apply only_hd. exact (T' CK_Total).
    + apply only_hd. exact (T' CK_Currency).
    + apply only_hd. exact (T' CK_Date).
    + apply only_hd. exact (T' CK_Label).
    + pose proof (T' CK_Merge) as M. cbn in M. destruct (given merge_of l) as [|m [|m' ms]]; cbn in *; [auto| |lia].
      right. exists m. auto.
  - intro H. destruct H as [H1 H2 H3 H4 H5 H6].
    apply only_det in H1. apply only_det in H2. apply only_det in H3. apply only_det in H4. apply only_det in H5.
    assert (Eb : cb_errors b = []).
    { apply T. intros []; cbn [times]; try tauto. destruct H6 as [[H6 _]|[s [H6 _]]]; rewrite H6; cbn; lia. }
    rewrite Eb, Sp. f_equal. unfold field.
    destruct H1 as [_ <-]. destruct H2 as [_ <-]. destruct H3 as [_ <-]. destruct H4 as [_ <-]. destruct H5 as [_ <-].
    destruct c as [c1 c2 c3 c4 c5 c6]. cbn in *. destruct H6 as [[-> ->]|[s [-> ->]]]; reflexivity.
Qed.

(** C24: otherwise rejected, with one error for each repetition. *)
Theorem C24_rejects : forall comps,
  ((exists es, cost_of comps = Err es) <-> exists k, 2 <= times k (comps_of comps)) /\
  forall es, cost_of comps = Err es ->
    forall k, count_occ cost_kind_eq_dec es k = times k (comps_of comps) - 1.
Proof.
  intro o. rewrite cost_of_fold. destruct (inv_fold (comps_of o)) as [Sp E].
  set (b := fold_left add_comp (comps_of o) default_builder) in *. set (l := comps_of o) in *. clearbody b l.
  unfold build. split; [split|].
  - intros [es H]. destruct (cb_errors b) as [|k es'] eqn:Eb; [discriminate|].
    exists k. specialize (E k). cbn in E. destruct (cost_kind_eq_dec k k); [lia|congruence].
  - intros [k H]. specialize (E k). destruct (cb_errors b) as [|k' es'] eqn:Eb; [cbn in E; lia|]. eexists. reflexivity.
  - intros es H k. destruct (cb_errors b) as [|k' es'] eqn:Eb; [discriminate|]. inversion H; subst. apply E.
Qed.

Lemma given_permutation : forall A (f : cost_comp -> option A) l l', Permutation l l' -> Permutation (given f l) (given f l').
Proof. intros. apply Permutation_flat_map. assumption. Qed.

(** C24: the order of the components does not matter. *)
Theorem C24_order_irrelevant : forall comps comps',
  Permutation (comps_of comps) (comps_of comps') ->
  (forall c, cost_of comps = Ok c <-> cost_of comps' = Ok c) /\
  (forall es, cost_of comps = Err es -> exists es', cost_of comps' = Err es' /\ Permutation es es').
Proof.
  assert (half : forall l l' c, Permutation l l' -> spells_cost l c -> spells_cost l' c).
  { intros l l' c P H.
    assert (O : forall A (f : cost_comp -> option A) o, only (given f l) o -> only (given f l') o).
    { intros A f o Ho. pose proof (given_permutation _ f _ _ P) as Q. inversion Ho as [E1 E2|a E1 E2].
      - rewrite <- E1 in Q. apply Permutation_nil in Q. rewrite Q. constructor.
      - rewrite <- E1 in Q. apply Permutation_length_1_inv in Q. rewrite Q. constructor. }
    destruct H as [H1 H2 H3 H4 H5 H6]. constructor; try (apply O; assumption).
    pose proof (given_permutation _ merge_of _ _ P) as Q.
    destruct H6 as [[E1 E2]|[s [E1 E2]]]; rewrite E1 in Q.
    - apply Permutation_nil in Q. auto.
    - apply Permutation_length_1_inv in Q. eauto. }
  intros o o' P. split.
  - intro c. rewrite !C24_accepts. split; apply half; [assumption|symmetry; assumption].
  - intros es H. destruct (C24_rejects o) as [[A B] C]. destruct (C24_rejects o') as [[A' B'] C'].
    assert (T : forall k, times k (comps_of o) = times k (comps_of o')).
    { intros []; cbn [times]; apply Permutation_length, given_permutation, P. }
    destruct A as [k Hk]; [eauto|]. destruct B' as [es' H']; [exists k; rewrite <- T; exact Hk|].
    exists es'. split; [exact H'|].
    apply (Permutation_count_occ cost_kind_eq_dec). intro k'. rewrite (C _ H), (C' _ H'), T. reflexivity.
Qed.

(** What is reported, and in which order: every field given again, when it is. *)
Definition has (b : cost_builder) (k : cost_kind) : bool :=
  let some {A} (o : option A) := match o with Some _ => true | None => false end in
  match k with
  | CK_PerUnit => some (cs_per_unit (cb_spec b))
  | CK_Total => some (cs_total (cb_spec b))
  | CK_Currency => some (cs_currency (cb_spec b))
  | CK_Date => some (cs_date (cb_spec b))
  | CK_Label => some (cs_label (cb_spec b))
  | CK_Merge => cs_merge (cb_spec b)
  end.

Inductive filled : cost_builder -> list cost_kind -> cost_builder -> Prop :=
| filled_none b : filled b [] b
| filled_more b k b1 ks b2 :
    cb_errors b1 = cb_errors b ++ (if has b k then [k] else []) ->
    (forall k', has b1 k' = has b k' || if cost_kind_eq_dec k' k then true else false) ->
    filled b1 ks b2 -> filled b (k :: ks) b2.

Lemma filled_app b ks b1 ks' b2 : filled b ks b1 -> filled b1 ks' b2 -> filled b (ks ++ ks') b2.
Proof. induction 1; cbn; eauto using filled. Qed.

Ltac one_field :=
  intros; eapply filled_more; [..|apply filled_none];
  match goal with b : cost_builder |- _ => destruct b as [[pu to cu da la me] es] end;
  unfold set_per_unit, set_total, set_currency, set_date, set_label, set_merge, push_error, has; cbn [cb_spec cb_errors negb];
  [|intros []];
  match goal with
  | |- context [match ?o with Some _ => mk_builder _ _ | None => _ end] => destruct o
  | |- context [match ?o with Some _ => _ | None => mk_builder _ _ end] => destruct o
  | |- context [if negb ?b then _ else _] => destruct b
  end; cbn; rewrite ?app_nil_r, ?orb_true_r, ?orb_false_r; reflexivity.

Lemma per_unit_filled v b : filled b [CK_PerUnit] (set_per_unit v b). Proof. one_field. Qed.
Lemma total_filled v b : filled b [CK_Total] (set_total v b). Proof. one_field. Qed.
Lemma currency_filled v s b : filled b [CK_Currency] (set_currency v s b). Proof. one_field. Qed.
Lemma date_filled v s b : filled b [CK_Date] (set_date v s b). Proof. one_field. Qed.
Lemma label_filled v s b : filled b [CK_Label] (set_label v s b). Proof. one_field. Qed.
Lemma merge_filled b : filled b [CK_Merge] (set_merge b). Proof. one_field. Qed.

Lemma add_comp_filled b c : filled b (fields_of (item c)) (add_comp b c).
Proof.
  pose proof per_unit_filled as P. pose proof total_filled as T. pose proof currency_filled as U.
  destruct c as [c s]. unfold add_comp; cbn [item span_of].
  destruct c as [[cur|[v|v|p t]|[v|v|p t] cur]|d|l|]; cbn [fields_of set_compound_expr]; auto using date_filled, label_filled, merge_filled.
  - apply (filled_app _ [CK_PerUnit] _ [CK_Total] _ (P _ _) (T _ _)).
  - apply (filled_app _ [CK_PerUnit] _ [CK_Currency] _ (P _ _) (U _ _ _)).
  - apply (filled_app _ [CK_Total] _ [CK_Currency] _ (T _ _) (U _ _ _)).
  - eapply (filled_app _ [CK_PerUnit] _ [CK_Total; CK_Currency]); [apply P|]. apply (filled_app _ [CK_Total] _ [CK_Currency] _ (T _ _) (U _ _ _)).
Qed.

Lemma filled_repeats b ks b' : filled b ks b' -> forall seen, (forall k, In k seen <-> has b k = true) ->
  exists es, cb_errors b' = cb_errors b ++ es /\ repeats seen ks es.
Proof.
  induction 1 as [b|b k b1 ks b2 E H F IH]; intros seen I.
  - exists []. rewrite app_nil_r. split; [reflexivity|constructor].
  - destruct (has b k) eqn:K.
    + destruct (IH seen) as (es & A & B).
      { intro k'. rewrite H, orb_true_iff, I. destruct (cost_kind_eq_dec k' k); [subst; tauto|]. intuition discriminate. }
      exists (k :: es). rewrite A, E, <- app_assoc. split; [reflexivity|]. apply repeats_again; [now apply I|exact B].
    + destruct (IH (k :: seen)) as (es & A & B).
      { intro k'. rewrite H, orb_true_iff. cbn. rewrite I. destruct (cost_kind_eq_dec k' k); [subst; tauto|]. split; [intros [X|X]; [congruence|auto]|]. intros [X|X]; [auto|discriminate]. }
      exists es. rewrite A, E, app_nil_r. split; [reflexivity|]. apply repeats_first; [|exact B]. rewrite I. congruence.
Qed.

Lemma repeats_fun seen l es es' : repeats seen l es -> repeats seen l es' -> es = es'.
Proof. intro H. revert es'. induction H; intros es' H'; inversion H'; subst; try contradiction; auto. f_equal. auto. Qed.

Theorem C24_errors : forall comps es,
  cost_of comps = Err es <-> es <> [] /\ repeats [] (flat_map (fun c => fields_of (item c)) (comps_of comps)) es.
Proof.
  intros o es. rewrite cost_of_fold.
  assert (F : forall l b, filled b (flat_map (fun c => fields_of (item c)) l) (fold_left add_comp l b)).
  { induction l as [|c l IH]; intro b; cbn [flat_map fold_left]; [constructor|]. eapply filled_app; [apply add_comp_filled|apply IH]. }
  destruct (filled_repeats _ _ _ (F (comps_of o) default_builder) []) as (es0 & A & B); [intros []; cbn; intuition discriminate|].
  cbn [cb_errors default_builder app] in A. unfold build. rewrite A. split.
  - destruct es0; [discriminate|]. intro H. injection H as <-. split; [discriminate|exact B].
  - intros [NE R]. rewrite (repeats_fun _ _ _ _ R B) in *. destruct es0; [congruence|reflexivity].
Qed.

(** ** A concrete case: {10 # 5 USD, 2024-01-02, *} *)
Definition sp_ (n : nat) : span := mk_span 0 n (n + 1).
Definition ev_ (n : N) : expr_value := mk_ev (mk_dec false n 0) (E_Value (mk_dec false n 0)).
Definition ex_comps : list (spanned cost_comp) :=
  [mk_spanned (CC_Amount (CA_CurrencyAmount (CE_Both (ev_ 10) (ev_ 5)) (lit "USD"))) (sp_ 1);
   mk_spanned (CC_Date (mk_date 2024 1 2)) (sp_ 2); mk_spanned CC_Merge (sp_ 3)].

Example ex_cost : cost_of (Some (hd (mk_spanned CC_Merge (sp_ 0)) ex_comps, tl ex_comps)) =
  Ok (mk_cost_spec (Some (mk_spanned (ev_ 10) (sp_ 1))) (Some (mk_spanned (ev_ 5) (sp_ 1)))
        (Some (mk_spanned (lit "USD") (sp_ 1))) (Some (mk_spanned (mk_date 2024 1 2) (sp_ 2))) None true).
Proof. reflexivity. Qed.

Example ex_cost_twice : cost_of (Some (mk_spanned CC_Merge (sp_ 0), ex_comps ++ [mk_spanned (CC_Amount (CA_Amount (CE_Total (ev_ 1)))) (sp_ 9)])) =
  Err [CK_Merge; CK_Total].
Proof. reflexivity. Qed.

Print Assumptions C24_accepts.
Print Assumptions C24_rejects.
Print Assumptions C24_order_irrelevant.
Print Assumptions C24_errors.
