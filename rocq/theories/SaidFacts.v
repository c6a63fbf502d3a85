(** * Facts about all that the options say *)
From Coq Require Import String Ascii.
From Coq Require Import List NArith Arith Bool Lia.
From Verif Require Import Base BaseFacts Path PathFacts Sources Types Options SpecOptions OptionsFacts P_Options Token SpecAlike SpecSaid.
Import ListNotations.
Local Open Scope nat_scope.

Inductive kind := KTitle | KSubaccount (w : subaccount_option) | KConversion | KTolerance | KMultiplier | KFromCost | KDocuments | KOperating | KCommas | KBooking | KMode.
Definition kinds : list kind :=
  [KTitle] ++ map KSubaccount [PreviousBalances; PreviousEarnings; PreviousConversions; CurrentEarnings; CurrentConversions; UnrealizedGains; Rounding] ++
  [KConversion; KTolerance; KMultiplier; KFromCost; KDocuments; KOperating; KCommas; KBooking; KMode].
Definition kind_of (v : option_variant) : option kind :=
  match v with
  | O_Title _ => Some KTitle | O_Subaccount w _ => Some (KSubaccount w) | O_ConversionCurrency _ => Some KConversion | O_InferredToleranceDefault _ _ => Some KTolerance
  | O_InferredToleranceMultiplier _ => Some KMultiplier | O_InferToleranceFromCost _ => Some KFromCost | O_Documents _ => Some KDocuments | O_OperatingCurrency _ => Some KOperating
  | O_RenderCommas _ => Some KCommas | O_BookingMethod _ => Some KBooking | O_PluginProcessingMode _ => Some KMode
  | O_AccountTypeName _ _ | O_LongStringMaxlines _ | O_Assimilated | O_Ignored => None
  end.
Definition kind_eq_dec (a b : kind) : {a = b} + {a <> b}.
Proof. decide equality. decide equality. Defined.
Definition part (o : options) (k : kind) : list option_variant :=
  match k with
  | KTitle => map O_Title (value_of (os_title o))
  | KSubaccount w => map (O_Subaccount w) (value_of (os_subaccount o w))
  | KConversion => map O_ConversionCurrency (value_of (os_conversion_currency o))
  | KTolerance => map (fun x => O_InferredToleranceDefault (fst x) (fst (snd x))) (os_tolerance_default o)
  | KMultiplier => map O_InferredToleranceMultiplier (value_of (os_tolerance_multiplier o))
  | KFromCost => map O_InferToleranceFromCost (value_of (os_tolerance_from_cost o))
  | KDocuments => map (fun x => O_Documents (fst x)) (os_documents o)
  | KOperating => map (fun x => O_OperatingCurrency (fst x)) (os_operating_currency o)
  | KCommas => map O_RenderCommas (value_of (os_render_commas o))
  | KBooking => map O_BookingMethod (value_of (os_booking_method o))
  | KMode => map O_PluginProcessingMode (value_of (os_plugin_mode o))
  end.
Lemma said_parts o : said o = flat_map (part o) kinds.
Proof. unfold said, kinds. cbn [flat_map map app]. cbn [part]. rewrite ?app_nil_r, <- ?app_assoc. reflexivity. Qed.

Definition of_kind (k : kind) (v : option_variant) : bool := match kind_of v with Some k' => if kind_eq_dec k k' then true else false | None => false end.
Definition arranged (vs : list option_variant) : list option_variant := flat_map (fun k => filter (of_kind k) vs) kinds.

Lemma insert_last {K V} (eqb : K -> K -> bool) k v (m : list (K * V)) : lookup eqb k m = None -> insert eqb k v m = m ++ [(k, v)].
Proof. intro H. unfold insert. rewrite H. reflexivity. Qed.
Lemma part_step o x o1 : options_assimilate o x = (o1, None) -> forall k, part o1 k = part o k ++ filter (of_kind k) [opt_variant x].
Proof.
  intros H k. unfold options_assimilate in H. destruct (assimilate_field o x) as [o2 e] eqn:A. injection H as -> He. destruct e; [discriminate|]. clear He. unfold assimilate_field in A.
  destruct o as [ti su cc td tm tc doc oc rc bm pm po]. destruct x as [s v]. cbn [opt_variant opt_source] in *.
  assert (Z : forall {T} (mk : T -> options) (r : result T dup_error) o0, assign o0 mk r = (o1, None) -> exists y, r = Ok y /\ o1 = mk y).
  { intros T mk r o0 Q. unfold assign in Q. destruct r; [injection Q as <-; eauto|discriminate]. }
  assert (Op : forall {T} (f : option (sourced T)) (w : T) y, update_optional f w s = Ok y -> f = None /\ value_of y = [w]).
  { intros T f w y Q. unfold update_optional in Q. destruct f; [discriminate|]. injection Q as <-. split; reflexivity. }
  destruct v; try (injection A as <-; cbn [filter of_kind]; unfold of_kind; cbn; rewrite app_nil_r; reflexivity);
    apply Z in A; destruct A as (y & Q & ->); try (apply Op in Q; destruct Q as [Qn Qv]);
    (destruct k; unfold of_kind; cbn [filter kind_of part os_title os_subaccount os_conversion_currency os_tolerance_default os_tolerance_multiplier os_tolerance_from_cost os_documents os_operating_currency os_render_commas os_booking_method os_plugin_mode];
      try (match goal with |- context [kind_eq_dec ?a ?b] => destruct (kind_eq_dec a b) as [Qk|Nk] end; try discriminate Qk; try congruence; rewrite ?app_nil_r; try reflexivity)).
  all: try (subst; cbn; rewrite ?Qv; reflexivity).
  - injection Qk as ->. rewrite (proj2 (subaccount_eqb_eq which which) eq_refl). rewrite Qv, Qn. reflexivity.
  - destruct (subaccount_eqb w which) eqn:Sw; [|reflexivity]. apply subaccount_eqb_eq in Sw. congruence.
  - unfold update_hashmap in Q. destruct (lookup _ _ _) as [[? ?]|] eqn:Lk in Q; [discriminate|]. injection Q as <-. rewrite (insert_last _ _ _ _ Lk), map_app. reflexivity.
  - unfold update_unit_hashmap in Q. destruct (lookup _ _ _) as [?|] eqn:Lk in Q; [discriminate|]. injection Q as <-. rewrite (insert_last _ _ _ _ Lk), map_app. reflexivity.
  - unfold update_unit_hashmap in Q. destruct (lookup _ _ _) as [?|] eqn:Lk in Q; [discriminate|]. injection Q as <-. rewrite (insert_last _ _ _ _ Lk), map_app. reflexivity.
Qed.
Lemma parts_all l : forall o, Forall (fun r => r = None) (snd (assimilate_all o l)) -> forall k, part (fst (assimilate_all o l)) k = part o k ++ filter (of_kind k) (map opt_variant l).
Proof.
  induction l as [|x l IH]; intros o F k; [cbn; rewrite app_nil_r; reflexivity|]. cbn [assimilate_all map] in *. destruct (options_assimilate o x) as [o1 r] eqn:A. specialize (IH o1). destruct (assimilate_all o1 l) as [o2 rs]. cbn [fst snd] in *.
  inversion F as [|? ? -> F']; subst. rewrite (IH F' k), (part_step _ _ _ A k), <- app_assoc. f_equal. rewrite <- filter_app. reflexivity.
Qed.
Lemma said_all po l : Forall (fun r => r = None) (due_reports [] l) -> said (fst (assimilate_all (options_new po) l)) = arranged (map opt_variant l).
Proof.
  intro F. rewrite said_parts. unfold arranged. apply flat_map_ext. intro k. rewrite parts_all by (rewrite C12_reports; exact F). replace (part (options_new po) k) with (@nil option_variant) by (destruct k; reflexivity). reflexivity.
Qed.

Lemma kinds_all k : exists a b, kinds = a ++ k :: b /\ ~ In k a /\ ~ In k b.
Proof.
  assert (N : NoDup kinds) by (unfold kinds; cbn; repeat constructor; cbn; intuition discriminate).
  assert (H : In k kinds) by (destruct k as [|[]| | | | | | | | |]; cbn; intuition). apply in_split in H. destruct H as (a & b & Q). exists a, b. split; [exact Q|]. rewrite Q in N. apply NoDup_remove_2 in N. rewrite in_app_iff in N. tauto.
Qed.
Lemma arranged_one v k vs us : kind_of v = Some k -> exists a b, arranged (vs ++ v :: us) = a ++ v :: b /\ arranged (vs ++ us) = a ++ b.
Proof.
  intro K. destruct (kinds_all k) as (ka & kb & Q & Na & Nb). unfold arranged. rewrite Q, !flat_map_app. cbn [flat_map].
  assert (Other : forall ks, ~ In k ks -> flat_map (fun k => filter (of_kind k) (vs ++ v :: us)) ks = flat_map (fun k => filter (of_kind k) (vs ++ us)) ks).
  { induction ks as [|k' ks IH]; intro N; [reflexivity|]. cbn [flat_map]. rewrite IH by (intro X; apply N; right; exact X). f_equal. rewrite !filter_app. f_equal. cbn. unfold of_kind at 1. rewrite K. destruct (kind_eq_dec k' k) as [->|]; [exfalso; apply N; left; reflexivity|reflexivity]. }
  rewrite (Other _ Na), (Other _ Nb), !filter_app. cbn [filter]. replace (of_kind k v) with true by (unfold of_kind; rewrite K; destruct (kind_eq_dec k k); congruence).
  exists (flat_map (fun k => filter (of_kind k) (vs ++ us)) ka ++ filter (of_kind k) vs), (filter (of_kind k) us ++ flat_map (fun k => filter (of_kind k) (vs ++ us)) kb).
  split; rewrite <- !app_assoc; reflexivity.
Qed.
Lemma arranged_in v vs : In v vs -> kind_of v <> None -> In v (arranged vs).
Proof.
  intros H K. destruct (kind_of v) as [k|] eqn:Q; [|congruence]. destruct (kinds_all k) as (ka & kb & Qk & _). unfold arranged. rewrite Qk. apply in_flat_map. exists k. split; [apply in_elt|]. apply filter_In. split; [exact H|]. unfold of_kind. rewrite Q. destruct (kind_eq_dec k k); congruence.
Qed.
Lemma setting_kind v : setting_of v = None <-> kind_of v = None.
Proof. destruct v; cbn; split; congruence. Qed.

(** Options are alike just if they say the same. *)
Lemma part_kind o k : Forall (fun v => kind_of v = Some k) (part o k).
Proof. destruct k; cbn [part]; apply Forall_forall; intros v H; apply in_map_iff in H; destruct H as (? & <- & _); reflexivity. Qed.
Lemma filter_part o k k' : filter (of_kind k) (part o k') = if kind_eq_dec k k' then part o k' else [].
Proof.
  assert (F := part_kind o k'). induction (part o k') as [|v l IH]; [destruct (kind_eq_dec k k'); reflexivity|]. inversion F as [|? ? Hv Hl]; subst. cbn [filter]. unfold of_kind at 1. rewrite Hv, (IH Hl). destruct (kind_eq_dec k k'); reflexivity.
Qed.
Lemma said_part o k : filter (of_kind k) (said o) = part o k.
Proof.
  rewrite said_parts. destruct (kinds_all k) as (a & b & Q & Na & Nb). rewrite Q, flat_map_app, filter_app. cbn [flat_map]. rewrite filter_app, filter_part. destruct (kind_eq_dec k k) as [_|]; [|congruence].
  assert (Other : forall ks, ~ In k ks -> filter (of_kind k) (flat_map (part o) ks) = []).
  { induction ks as [|k' ks IH]; intro N; [reflexivity|]. cbn [flat_map]. rewrite filter_app, filter_part, IH by (intro X; apply N; right; exact X). destruct (kind_eq_dec k k') as [->|]; [exfalso; apply N; left|]; reflexivity. }
  rewrite (Other _ Na), (Other _ Nb), app_nil_r. reflexivity.
Qed.
Lemma map_factor {A B C} (f : A -> B) (g : B -> C) (h : A -> C) : (forall x, h x = g (f x)) -> (forall a b, g a = g b -> a = b) -> forall x y, map h x = map h y <-> map f x = map f y.
Proof.
  intros H Inj. induction x as [|a x IH]; intros [|b y]; cbn; split; intro Q; try discriminate Q; try reflexivity; injection Q as Q1 Q2; f_equal; try (apply IH; exact Q2).
  - apply Inj. rewrite <- !H. exact Q1.
  - rewrite !H. f_equal. exact Q1.
Qed.
Lemma said_alike o o' : alike_options o o' <-> said o = said o' /\ same_rules o o'.
Proof.
  assert (V : forall {T} (f : T -> option_variant) (x y : option (sourced T)), (forall a b, f a = f b -> a = b) -> (map f (value_of x) = map f (value_of y) <-> same_value_of x y)).
  { intros T f x y Inj. unfold value_of, same_value_of. destruct (os_spanned x), (os_spanned y); cbn; split; intro H; try discriminate H; try reflexivity; injection H as H; try apply Inj in H; f_equal; congruence. }
  assert (T : forall x y : list (currency_or_any * (decimal * option_source)), map (fun x => O_InferredToleranceDefault (fst x) (fst (snd x))) x = map (fun x => O_InferredToleranceDefault (fst x) (fst (snd x))) y <->
      map (fun x => (fst x, fst (snd x))) x = map (fun x => (fst x, fst (snd x))) y).
  { intros x y. apply (map_factor _ (fun p => O_InferredToleranceDefault (fst p) (snd p))); [reflexivity|]. intros [] []; cbn; congruence. }
  assert (D : forall x y : list (path * option_source), map (fun x => O_Documents (fst x)) x = map (fun x => O_Documents (fst x)) y <-> map fst x = map fst y).
  { intros x y. apply (map_factor _ O_Documents); [reflexivity|]. congruence. }
  assert (P : forall x y : list (str * option_source), map (fun x => O_OperatingCurrency (fst x)) x = map (fun x => O_OperatingCurrency (fst x)) y <-> map fst x = map fst y).
  { intros x y. apply (map_factor _ O_OperatingCurrency); [reflexivity|]. congruence. }
  split.
  - intros []. split; [|split; assumption]. rewrite !said_parts. apply flat_map_ext. intros []; cbn [part]; try (apply V; [intros; congruence|auto]); [apply T|apply D|apply P]; assumption.
  - intros [Q [R1 R2]]. assert (K : forall k, part o k = part o' k) by (intro k; rewrite <- !said_part, Q; reflexivity).
    constructor; try assumption.
    + apply (V _ O_Title); [congruence|]. exact (K KTitle).
    + intro w. apply (V _ (O_Subaccount w)); [congruence|]. exact (K (KSubaccount w)).
    + apply (V _ O_ConversionCurrency); [congruence|]. exact (K KConversion).
    + apply T. exact (K KTolerance).
    + apply (V _ O_InferredToleranceMultiplier); [congruence|]. exact (K KMultiplier).
    + apply (V _ O_InferToleranceFromCost); [congruence|]. exact (K KFromCost).
    + apply D. exact (K KDocuments).
    + apply P. exact (K KOperating).
    + apply (V _ O_RenderCommas); [congruence|]. exact (K KCommas).
    + apply (V _ O_BookingMethod); [congruence|]. exact (K KBooking).
    + apply (V _ O_PluginProcessingMode); [congruence|]. exact (K KMode).
Qed.
