(** * The same tokens in other places: the same directives *)
From Coq Require Import String Ascii.
From Coq Require Import List NArith ZArith Arith Bool Lia Permutation.
From Verif Require Import Base BaseFacts Types SpecTypes Decimal SpecDecimal Cost SpecCost Token Lexer SpecLexer Peg Grammar SpecExpr Display SpecDisplay
  PegFacts PragmaFacts ExprFacts P_Arith DisplayLex DisplayText DisplayDirective DisplayLexed SpecGrammar SpecDirective DisplayRead.
Import ListNotations.
Local Open Scope nat_scope.

(** ** Lists *)

Lemma dedup_alike {A} (label : A -> problem) (R : A -> A -> Prop) : (forall x y, R x y -> label x = label y) ->
  forall seen l kept again, dedup label seen l kept again -> forall l', Forall2 R l l' ->
  exists kept' again', dedup label seen l' kept' again' /\ Forall2 R kept kept' /\ Forall2 R again again'.
Proof.
  intros H seen l kept again D. induction D as [seen|seen x l kept again N D IH|seen x l kept again N D IH]; intros l' F; inversion F as [|? y ? m Rx Fm]; subst.
  - exists [], []. repeat constructor.
  - destruct (IH _ Fm) as (k' & a' & D' & K & A'). exists (y :: k'), a'. rewrite (H _ _ Rx) in *. repeat split; auto using dedup_new.
  - destruct (IH _ Fm) as (k' & a' & D' & K & A'). exists k', (y :: a'). rewrite (H _ _ Rx) in *. repeat split; auto using dedup_old.
Qed.
Lemma dedup_total {A} (label : A -> problem) : forall l seen, exists kept again, dedup label seen l kept again.
Proof.
  induction l as [|x l IH]; intro seen; [exists [], []; constructor|].
  destruct (in_dec problem_dec (label x) seen) as [H|H].
  - destruct (IH seen) as (k & a & D). exists k, (x :: a). now constructor.
  - destruct (IH (label x :: seen)) as (k & a & D). exists (x :: k), a. now constructor.
Qed.
(** Nothing is repeated. *)
Lemma dedup_none {A} (label : A -> problem) : forall seen l kept again, dedup label seen l kept again -> again = [] ->
  kept = l /\ NoDup (map label l) /\ forall x, In x l -> ~ In (label x) seen.
Proof.
  intros seen l kept again D. induction D as [seen|seen x l kept again N D IH|seen x l kept again N D IH]; intro Q; try discriminate.
  - split; [reflexivity|]. split; [constructor|intros x []].
  - destruct (IH Q) as (-> & Nd & Ns). split; [reflexivity|]. split.
    + cbn. constructor; [|exact Nd]. intro H. apply in_map_iff in H. destruct H as (y & E & Hy). apply (Ns y Hy). left. congruence.
    + intros y [<-|Hy]; [exact N|]. intro H. apply (Ns y Hy). right. exact H.
Qed.
Lemma forall2_same_items (l m : list (spanned str)) : Forall2 same_item l m -> map item l = map item m.
Proof. apply (forall2_map same_item item item); auto. Qed.
Lemma forall2_app_inv {A B} (R : A -> B -> Prop) a b c : Forall2 R (a ++ b) c -> exists a' b', c = a' ++ b' /\ Forall2 R a a' /\ Forall2 R b b'.
Proof. intro F. apply Forall2_app_inv_l in F. destruct F as (a' & b' & Fa & Fb & ->). eauto. Qed.

Section Same.
  Context (E : grammar_env) (names : account_type -> str) (I J : input).
  Context (Same : map fst (in_tokens I) = map fst (in_tokens J)).

  Lemma same_tok i t : tok I i t -> tok J i t.
  Proof.
    intros [r H]. apply (f_equal (option_map fst)) in H. rewrite <- nth_error_map, Same, nth_error_map in H.
    unfold tok. destruct (nth_error (in_tokens J) i) as [[u q]|]; [|discriminate]. cbn in H. injection H as ->. eauto.
  Qed.
  Lemma same_finished i : finished I i -> finished J i.
  Proof.
    unfold finished. intro H. apply (f_equal (option_map fst)) in H. rewrite <- nth_error_map, Same, nth_error_map in H.
    destruct (nth_error (in_tokens J) i); [discriminate|reflexivity].
  Qed.

  Definition moved_to {A} (i j : nat) (x : spanned A) : spanned A := mk_spanned (item x) (text J i j).
  Lemma same_written {A} (R R' : nat -> nat -> A -> Prop) i j x : (forall i j a, R i j a -> R' i j a) -> written I R i j x -> written J R' i j (moved_to i j x).
  Proof. intros H [W _]. split; [apply H; exact W|reflexivity]. Qed.
  Lemma same_maybe {A} (R R' : nat -> nat -> spanned A -> Prop) (Q : A -> A -> Prop) i j x :
    (forall i j a, R i j a -> exists b, R' i j b /\ Q (item a) (item b)) -> maybe R i j x ->
    exists y, maybe R' i j y /\ same_option (fun a b => Q (item a) (item b)) x y.
  Proof.
    intros H M. destruct M as [|j a M]; [exists None; split; [constructor|exact Logic.I]|].
    destruct (H _ _ _ M) as (b & B & S). exists (Some b). split; [constructor; exact B|exact S].
  Qed.
  Lemma same_maybe_written {A} (R R' : nat -> nat -> A -> Prop) i j x : (forall i j a, R i j a -> R' i j a) -> maybe (written I R) i j x ->
    exists y, maybe (written J R') i j y /\ same_option same_item x y.
  Proof.
    intros H M. apply (same_maybe (written I R) (written J R') eq i j x); [|exact M].
    intros i' j' a W. exists (moved_to i' j' a). split; [apply (same_written R R'); assumption|reflexivity].
  Qed.
  Lemma same_star {A B} (R : nat -> nat -> A -> list report -> Prop) (R' : nat -> nat -> B -> list report -> Prop) (Q : A -> B -> Prop) i j l :
    (forall i j a, R i j a [] -> exists b, R' i j b [] /\ Q a b) -> star R i j l [] -> exists l', star R' i j l' [] /\ Forall2 Q l l'.
  Proof.
    intros H S. remember [] as es eqn:Es in S. revert Es. induction S as [i|i j k a l es es' Ra S IH]; intro Es.
    - exists []. split; constructor.
    - apply app_eq_nil in Es. destruct Es as [-> ->]. destruct (H _ _ _ Ra) as (b & Rb & Qb). destruct (IH eq_refl) as (l' & S' & F).
      exists (b :: l'). split; [|auto]. change (@nil report) with (@nil report ++ []). econstructor; eassumption.
  Qed.
  Lemma same_silent {A B} (R : nat -> nat -> A -> Prop) (R' : nat -> nat -> B -> Prop) (Q : A -> B -> Prop) i j l :
    (forall i j a, R i j a -> exists b, R' i j b /\ Q a b) -> star (silent R) i j l [] -> exists l', star (silent R') i j l' [] /\ Forall2 Q l l'.
  Proof.
    intro H. apply same_star. intros i' j' a [Ra _]. destruct (H _ _ _ Ra) as (b & Rb & Qb). exists b. split; [split; auto|exact Qb].
  Qed.

  Local Hint Resolve same_tok same_finished : same.
  Local Hint Constructors line_end account_at currency_at tag_at link_at key_at date_at number_at string_at booking_at bool_at flag_at txn_at
    sum product factor primary compound_expr_at compound_amount_at price_sign price_at cost_comp_at simple_value_at : same.

  Lemma same_line_end i j : line_end I i j -> line_end J i j. Proof. destruct 1; eauto with same. Qed.
  Lemma same_account i j a : account_at E I names i j a -> account_at E J names i j a. Proof. destruct 1; eauto with same. Qed.
  Lemma same_currency i j c : currency_at I i j c -> currency_at J i j c. Proof. destruct 1; eauto with same. Qed.
  Lemma same_tag i j c : tag_at E I i j c -> tag_at E J i j c. Proof. destruct 1; eauto with same. Qed.
  Lemma same_link i j c : link_at E I i j c -> link_at E J i j c. Proof. destruct 1; eauto with same. Qed.
  Lemma same_key i j c : key_at E I i j c -> key_at E J i j c. Proof. destruct 1; eauto with same. Qed.
  Lemma same_date i j c : date_at I i j c -> date_at J i j c. Proof. destruct 1; eauto with same. Qed.
  Lemma same_number i j c : number_at I i j c -> number_at J i j c. Proof. destruct 1; eauto with same. Qed.
  Lemma same_string i j c : string_at I i j c -> string_at J i j c. Proof. destruct 1; eauto with same. Qed.
  Lemma same_booking i j c : booking_at I i j c -> booking_at J i j c. Proof. destruct 1; eauto with same. Qed.
  Lemma same_bool i j c : bool_at I i j c -> bool_at J i j c. Proof. destruct 1; eauto with same. Qed.
  Lemma same_flag i j c : flag_at I i j c -> flag_at J i j c. Proof. destruct 1; eauto with same. Qed.
  Local Hint Resolve same_line_end same_account same_currency same_tag same_link same_key same_date same_number same_string same_booking same_bool same_flag : same.
  Lemma same_txn i j c : txn_at I i j c -> txn_at J i j c. Proof. destruct 1; eauto with same. Qed.
  Lemma same_exprs : (forall i j e, sum I i j e -> sum J i j e) /\ (forall i j e, product I i j e -> product J i j e) /\
    (forall i j e, factor I i j e -> factor J i j e) /\ (forall i j e, primary I i j e -> primary J i j e).
  Proof. apply expr_mutind; intros; eauto with same. Qed.
  Lemma same_value i j v : value_at E I i j v -> value_at E J i j v.
  Proof. intros [S W]. split; [apply same_exprs; exact S|exact W]. Qed.
  Local Hint Resolve same_txn same_value : same.
  Lemma same_compound_expr i j v : compound_expr_at E I i j v -> compound_expr_at E J i j v. Proof. destruct 1; eauto with same. Qed.
  Local Hint Resolve same_compound_expr : same.
  Lemma same_compound_amount i j v : compound_amount_at E I i j v -> compound_amount_at E J i j v. Proof. destruct 1; eauto with same. Qed.
  Lemma same_price_sign i v : price_sign I i v -> price_sign J i v. Proof. destruct 1; eauto with same. Qed.
  Local Hint Resolve same_compound_amount same_price_sign : same.
  Lemma same_price i j v : price_at E I i j v -> price_at E J i j v. Proof. destruct 1; eauto with same. Qed.
  Lemma same_cost_comp i j v : cost_comp_at E I i j v -> cost_comp_at E J i j v. Proof. destruct 1; eauto with same. Qed.
  Lemma same_simple i j v : simple_value_at E I names i j v -> simple_value_at E J names i j v. Proof. destruct 1; eauto with same. Qed.
  Local Hint Resolve same_price same_cost_comp same_simple : same.

  (** ** Amounts *)
  Lemma same_amount i k a : amount_at E I i k a -> exists a', amount_at E J i k a' /\ alike_amount a a'.
  Proof.
    intros [j Wn Wc]. exists (mk_amount (moved_to i j (am_number a)) (moved_to j k (am_currency a))). split; [|split; reflexivity].
    exists j; cbn; [eapply same_written; [|exact Wn]; eauto with same|eapply same_written; [|exact Wc]; eauto with same].
  Qed.
  Lemma same_written_amount i k a : written I (amount_at E I) i k a -> exists a', written J (amount_at E J) i k a' /\ alike_amount (item a) (item a').
  Proof. intros [W _]. destruct (same_amount _ _ _ W) as (a' & W' & Al). exists (mk_spanned a' (text J i k)). repeat split; auto; apply Al. Qed.
  Lemma same_amount_tol i k a : amount_tol_at E I i k a -> exists a', amount_tol_at E J i k a' /\ alike_amount_tol a a'.
  Proof.
    intros [a0 W|n t c j m Wn T Wt Wc].
    - destruct (same_written_amount _ _ _ W) as (a' & W' & Al). exists (mk_amount_tol a' None). split; [constructor; exact W'|]. split; [exact Al|exact Logic.I].
    - eexists. split.
      + apply (amount_tol_with E J i k (moved_to i j n) (moved_to (S j) m t) (moved_to m k c) j m); [eapply same_written; [|exact Wn]|apply same_tok; exact T|eapply same_written; [|exact Wt]|eapply same_written; [|exact Wc]]; eauto with same.
      + split; [split; reflexivity|reflexivity].
  Qed.

  (** ** Cost specifications *)
  Lemma same_separated {A B} (R : nat -> nat -> A -> Prop) (R' : nat -> nat -> B -> Prop) (Q : A -> B -> Prop) i j l :
    (forall i j a, R i j a -> exists b, R' i j b /\ Q a b) -> separated I R i j l -> exists l', separated J R' i j l' /\ Forall2 Q l l'.
  Proof.
    intros H S. induction S as [i j x Rx|i j k x l Rx T S IH]; destruct (H _ _ _ Rx) as (y & Ry & Qy).
    - exists [y]. split; [constructor; exact Ry|auto].
    - destruct IH as (l' & S' & F). exists (y :: l'). split; [econstructor; eauto with same|auto].
  Qed.
  Lemma given_alike {A} (f : cost_comp -> option A) l l' : Forall2 same_item l l' -> Forall2 same_item (given f l) (given f l').
  Proof.
    intro F. induction F as [|x y l l' R F IH]; [constructor|]. unfold given. cbn [flat_map]. fold (given f l) (given f l'). unfold same_item in R. rewrite R.
    destruct (f (item y)); cbn [app]; [constructor; [reflexivity|exact IH]|exact IH].
  Qed.
  Lemma only_alike {A} (f : cost_comp -> option A) l l' o : Forall2 same_item l l' -> only (given f l) o -> exists o', only (given f l') o' /\ same_option same_item o o'.
  Proof.
    intros F O. apply (given_alike f) in F. remember (given f l) as g eqn:Hg. clear Hg. destruct O as [|a].
    - inversion F. exists None. split; [constructor|exact Logic.I].
    - inversion F as [|? y ? ? R F']; subst. inversion F'; subst. exists (Some y). split; [constructor|exact R].
  Qed.
  Lemma same_spells l l' c : Forall2 same_item l l' -> spells_cost l c -> exists c', spells_cost l' c' /\ alike_cost c c'.
  Proof.
    intros F [A1 A2 A3 A4 A5 A6].
    destruct (only_alike _ _ _ _ F A1) as (o1 & B1 & C1). destruct (only_alike _ _ _ _ F A2) as (o2 & B2 & C2). destruct (only_alike _ _ _ _ F A3) as (o3 & B3 & C3).
    destruct (only_alike _ _ _ _ F A4) as (o4 & B4 & C4). destruct (only_alike _ _ _ _ F A5) as (o5 & B5 & C5).
    exists (mk_cost_spec o1 o2 o3 o4 o5 (cs_merge c)). split; [|repeat split; assumption]. constructor; try assumption. cbn [cs_merge].
    apply (given_alike merge_of) in F. destruct A6 as [[Q M]|(s & Q & M)]; rewrite Q in F.
    - left. inversion F. auto.
    - right. inversion F as [|? y ? ? R F']; subst. inversion F'; subst. eauto.
  Qed.
  Lemma same_cost i j c : cost_at E I i j c -> exists c', cost_at E J i j c' /\ alike_cost c c'.
  Proof.
    intros [c0 T T' Sp|k l c0 T S T' Sp].
    - destruct (same_spells [] [] c0 (Forall2_nil _) Sp) as (c' & Sp' & Al). exists c'. split; [|exact Al]. apply cost_empty; eauto with same.
    - destruct (same_separated (written I (cost_comp_at E I)) (written J (cost_comp_at E J)) same_item (Datatypes.S i) k l) with (2 := S) as (l' & S' & F).
      { intros a b x W. exists (moved_to a b x). split; [eapply same_written; [|exact W]; eauto with same|reflexivity]. }
      destruct (same_spells l l' c0 F Sp) as (c' & Sp' & Al). exists c'. split; [|exact Al]. eapply cost_; eauto with same.
  Qed.

  (** ** Metadata *)
  Lemma same_meta_value i j v : meta_value_at E I names i j v -> exists v', meta_value_at E J names i j v' /\ alike_meta_value v v'.
  Proof.
    intros [a W|w W].
    - destruct (same_amount _ _ _ W) as (a' & W' & Al). exists (MV_Amount a'). split; [constructor; exact W'|exact Al].
    - exists (MV_Simple w). split; [constructor; eauto with same|reflexivity].
  Qed.
  Definition alike_key_value (a b : meta_key_value) : Prop :=
    same_item (mkv_key a) (mkv_key b) /\ alike_meta_value (item (mkv_value a)) (item (mkv_value b)).
  (** Where the key is written is known, too. *)
  Lemma same_key_value_at i k kv : key_value_at E I names i k kv -> exists kv', key_value_at E J names i k kv' /\ alike_key_value kv kv' /\
    span_of (mkv_key kv) = text I i (S i) /\ span_of (mkv_key kv') = text J i (S i) /\ tok I i (T_Key (item (mkv_key kv))).
  Proof.
    intros [j k0 key v Wk T Wv|j key Wk T].
    - destruct Wv as [Wv _]. destruct (same_meta_value _ _ _ Wv) as (v' & Wv' & Al).
      exists (mk_mkv (moved_to i j key) (mk_spanned v' (text J (S j) k0))). split; [|split; [split; [reflexivity|exact Al]|]].
      + eapply key_value_; [eapply same_written; [|exact Wk]; eauto with same|eauto with same|split; [exact Wv'|reflexivity]].
      + destruct Wk as [Wk Sk]. inversion Wk as [s T1 L1 Q1 Q2]. subst. cbn. rewrite Sk. auto.
    - eexists. split; [eapply (key_null E J names i j (moved_to i j key)); [eapply same_written; [|exact Wk]; eauto with same|eauto with same]|].
      split; [split; reflexivity|]. destruct Wk as [Wk Sk]. inversion Wk as [s T1 L1 Q1 Q2]. subst. cbn. rewrite Sk. auto.
  Qed.
  Lemma same_mark i j m : mark_at E I i j m -> exists m', mark_at E J i j m' /\ alike_metadatum m m'.
  Proof.
    intros [t W|t W].
    - exists (MD_Tag (moved_to i j t)). split; [constructor; eapply same_written; [|exact W]; eauto with same|reflexivity].
    - exists (MD_Link (moved_to i j t)). split; [constructor; eapply same_written; [|exact W]; eauto with same|reflexivity].
  Qed.
  Lemma same_metadatum i j m : metadatum_at E I names i j m -> exists m', metadatum_at E J names i j m' /\ alike_metadatum m m'.
  Proof.
    intros [kv [W S]|m0 W].
    - destruct (same_key_value_at _ _ _ W) as (kv' & W' & Al & _). exists (MD_KeyValue (mk_spanned kv' (text J i j))). split; [constructor; split; [exact W'|reflexivity]|exact Al].
    - destruct (same_mark _ _ _ W) as (m' & W' & Al). exists m'. split; [apply metadatum_mark; exact W'|exact Al].
  Qed.
  Lemma same_metadata_line i j m : metadata_line E I names i j m -> exists m', metadata_line E J names i j m' /\ alike_metadatum m m'.
  Proof.
    intros [k T W Le]. destruct (same_metadatum _ _ _ W) as (m' & W' & Al). exists m'. split; [econstructor; eauto with same|exact Al].
  Qed.

  (** The same items one by one, and none twice. *)
  Record parallel (m m' : metadata) : Prop := {
    par_keys : Forall2 (fun x y => same_item (fst x) (fst y) /\ alike_meta_value (item (snd x)) (item (snd y))) (md_key_values m) (md_key_values m');
    par_tags : Forall2 same_item (md_tags m) (md_tags m');
    par_links : Forall2 same_item (md_links m) (md_links m')
  }.
  Lemma parallel_alike m m' : parallel m m' -> alike_metadata m m'.
  Proof. intros [A B C]. split; [|split]; eexists; (split; [apply Permutation_refl|assumption]). Qed.
  Lemma same_collects l l' md : Forall2 alike_metadatum l l' -> collects l md [] -> exists md', collects l' md' [] /\ parallel md md'.
  Proof.
    intros F C. inversion C as [kept again D Q1 Q2]. apply map_eq_nil in Q2. subst again.
    destruct (dedup_alike _ alike_metadatum alike_label _ _ _ _ D _ F) as (k' & a' & D' & K & A). inversion A; subst a'.
    eexists. split; [exact (collects_ _ _ _ D')|]. split; cbn; [apply alike_kvs|apply alike_tags|apply alike_links]; exact K.
  Qed.
  Lemma same_metadata_at i j md : metadata_at E I names i j md [] -> exists md', metadata_at E J names i j md' [] /\ parallel (item md) (item md').
  Proof.
    intros [l S C _]. destruct (same_silent (metadata_line E I names) (metadata_line E J names) alike_metadatum _ _ _ same_metadata_line S) as (l' & S' & F).
    destruct (same_collects _ _ _ F C) as (md' & C' & P). exists (mk_spanned md' (text J i j)). split; [|exact P]. econstructor; [exact S'|exact C'|reflexivity].
  Qed.
  (** In any case there is some. *)
  Lemma some_metadata_at i j md es : metadata_at E I names i j md es -> exists md' es', metadata_at E J names i j md' es'.
  Proof.
    intros [l S C _]. destruct (same_silent (metadata_line E I names) (metadata_line E J names) alike_metadatum _ _ _ same_metadata_line S) as (l' & S' & F).
    destruct (dedup_total metadatum_label l' []) as (k & a & D). eexists (mk_spanned _ (text J i j)), _. econstructor; [exact S'|apply (collects_ _ _ _ D)|reflexivity].
  Qed.

  (** ** Postings *)
  Lemma same_posting_line i a b c d e f g flag account amount currency cost price :
    tok I i T_Indent -> maybe (written I (flag_at I)) (S i) a flag -> written I (account_at E I names) a b account ->
    maybe (written I (value_at E I)) b c amount -> maybe (written I (currency_at I)) c d currency ->
    maybe (written I (cost_at E I)) d e cost -> maybe (written I (price_at E I)) e f price -> line_end I f g ->
    exists flag' account' amount' currency' cost' price',
      tok J i T_Indent /\ maybe (written J (flag_at J)) (S i) a flag' /\ written J (account_at E J names) a b account' /\
      maybe (written J (value_at E J)) b c amount' /\ maybe (written J (currency_at J)) c d currency' /\
      maybe (written J (cost_at E J)) d e cost' /\ maybe (written J (price_at E J)) e f price' /\ line_end J f g /\
      forall md md', alike_metadata (item md) (item md') ->
        alike_posting (mk_posting flag account amount currency cost price md) (mk_posting flag' account' amount' currency' cost' price' md').
  Proof.
    intros T Mf Wa Mv Mc Ms Mp Le.
    destruct (same_maybe_written (flag_at I) (flag_at J) _ _ _ same_flag Mf) as (flag' & Mf' & Sf).
    destruct (same_maybe_written (value_at E I) (value_at E J) _ _ _ same_value Mv) as (amount' & Mv' & Sv).
    destruct (same_maybe_written (currency_at I) (currency_at J) _ _ _ same_currency Mc) as (currency' & Mc' & Sc).
    destruct (same_maybe_written (price_at E I) (price_at E J) _ _ _ same_price Mp) as (price' & Mp' & Sp).
    destruct (same_maybe (written I (cost_at E I)) (written J (cost_at E J)) alike_cost d e cost) with (2 := Ms) as (cost' & Ms' & Ss).
    { intros i' j' x [W _]. destruct (same_cost _ _ _ W) as (c' & W' & Al). exists (mk_spanned c' (text J i' j')). split; [split; [exact W'|reflexivity]|exact Al]. }
    exists flag', (moved_to a b account), amount', currency', cost', price'. split; [eauto with same|]. split; [exact Mf'|].
    split; [eapply same_written; [|exact Wa]; eauto with same|]. split; [exact Mv'|]. split; [exact Mc'|]. split; [exact Ms'|]. split; [exact Mp'|]. split; [eauto with same|].
    intros md md' Al. repeat split; cbn; try assumption; apply Al.
  Qed.
  Lemma same_posting i j p : posting_at E I names i j p [] -> exists p', posting_at E J names i j p' [] /\ alike_posting (item p) (item p').
  Proof.
    intro P. inversion P as [a b c d e f g j0 flag account amount currency cost price md es T Mf Wa Mv Mc Ms Mp Le Md]; subst.
    destruct (same_posting_line _ _ _ _ _ _ _ _ _ _ _ _ _ _ T Mf Wa Mv Mc Ms Mp Le) as (fl & ac & am & cu & co & pr & T' & Mf' & Wa' & Mv' & Mc' & Ms' & Mp' & Le' & Al).
    destruct (same_metadata_at _ _ _ Md) as (md' & Md' & Pa). eexists. split; [econstructor; eassumption|]. cbn [item]. apply Al. apply parallel_alike. exact Pa.
  Qed.
  Lemma some_posting i j p es : posting_at E I names i j p es -> exists p' es', posting_at E J names i j p' es'.
  Proof.
    intro P. inversion P as [a b c d e f g j0 flag account amount currency cost price md es0 T Mf Wa Mv Mc Ms Mp Le Md]; subst.
    destruct (same_posting_line _ _ _ _ _ _ _ _ _ _ _ _ _ _ T Mf Wa Mv Mc Ms Mp Le) as (fl & ac & am & cu & co & pr & T' & Mf' & Wa' & Mv' & Mc' & Ms' & Mp' & Le' & Al).
    destruct (some_metadata_at _ _ _ _ Md) as (md' & es' & Md'). do 2 eexists. econstructor; eassumption.
  Qed.

  (** ** Fields *)
  Lemma same_currencies i j l : currencies_at I i j l [] -> exists l', currencies_at J i j l' [] /\ same_elements same_item l l'.
  Proof.
    intro C. inversion C as [|j0 first rest kept again S D]; subst.
    - exists []. split; [constructor|]. exists []. split; constructor.
    - match goal with H : map _ again = [] |- _ => apply map_eq_nil in H; subst again end.
      destruct (same_separated (written I (currency_at I)) (written J (currency_at J)) same_item i j (first :: rest)) with (2 := S) as (l' & S' & F).
      { intros a b x W. exists (moved_to a b x). split; [eapply same_written; [|exact W]; eauto with same|reflexivity]. }
      inversion F as [|? first' ? rest' Rf Fr]; subst.
      destruct (dedup_alike (fun x : spanned str => DuplicateCurrency (item x)) same_item ltac:(unfold same_item; congruence) _ _ _ _ D (rest' ++ [first'])) as (k' & a' & D' & K & A).
      { apply Forall2_app; auto. }
      inversion A; subst a'. exists k'. split; [exact (currencies_ J i j first' rest' k' [] S' D')|]. exists l. split; [reflexivity|exact K].
  Qed.
  Lemma same_fields i k j v : fields_at E I names i k j v [] -> exists v', fields_at E J names i k j v' [] /\ alike_variant v v'.
  Proof.
    intro F. assert (Ws : forall A (R R' : nat -> nat -> A -> Prop) i j x, (forall i j a, R i j a -> R' i j a) -> written I R i j x -> written J R' i j (moved_to i j x))
      by (intros; eapply same_written; eassumption).
    inversion F as [b k0 c a Wc Wa|b k0 a t Wa Wt|b k0 l a cs bk es Wa Cs Mb|b a Wa|b c Wc|b k0 a s Wa Wb|b k0 a s Wa Wb|b k0 a s Wa Wb|b k0 a s Wa Wb|b k0 a s Wa Wb]; subst;
      try (eexists; split; [econstructor; (eapply Ws; [|eassumption]; eauto with same)|constructor; reflexivity]).
    - destruct (same_written_amount _ _ _ Wa) as (a' & Wa' & Al). eexists. split; [econstructor; [eapply Ws; [|exact Wc]; eauto with same|exact Wa']|constructor; [reflexivity|exact Al]].
    - destruct Wt as [Wt _]. destruct (same_amount_tol _ _ _ Wt) as (t' & Wt' & Al).
      exists (V_Balance (moved_to i b a) (mk_spanned t' (text J b j))). split; [econstructor; [eapply Ws; [|exact Wa]; eauto with same|split; [exact Wt'|reflexivity]]|constructor; [reflexivity|exact Al]].
    - destruct (same_currencies _ _ _ Cs) as (cs' & Cs' & Al). destruct (same_maybe_written (booking_at I) (booking_at J) _ _ _ same_booking Mb) as (b' & Mb' & Sb).
      eexists. split; [econstructor; [eapply Ws; [|exact Wa]; eauto with same|exact Cs'|exact Mb']|constructor; [reflexivity|exact Al|exact Sb]].
  Qed.
  Lemma same_titles l l' p n : Forall2 same_item l l' -> titles l p n -> exists p' n', titles l' p' n' /\ same_option same_item p p' /\ same_option same_item n n'.
  Proof.
    intros F T. assert (U : forall s s' o, same_item s s' -> unless_empty s o -> exists o', unless_empty s' o' /\ same_option same_item o o').
    { intros s s' o S H. destruct H as [H|H]; unfold same_item in S; rewrite S in H.
      - exists None. split; [constructor; exact H|exact Logic.I].
      - exists (Some s'). split; [constructor; exact H|exact S]. }
    destruct T as [|s n Un|s t p n Up Un].
    - inversion F. exists None, None. repeat split. constructor.
    - inversion F as [|? s' ? ? Rs F']; subst. inversion F'; subst. destruct (U _ _ _ Rs Un) as (n' & Un' & Sn). exists None, n'. repeat split; [constructor; exact Un'|exact Sn].
    - inversion F as [|? s' ? ? Rs F']; subst. inversion F' as [|? t' ? ? Rt F'']; subst. inversion F''; subst.
      destruct (U _ _ _ Rs Up) as (p' & Up' & Sp). destruct (U _ _ _ Rt Un) as (n' & Un' & Sn). exists p', n'. repeat split; [constructor; assumption|exact Sp|exact Sn].
  Qed.

  (** ** Tags and links of the first line *)
  Context (Go : forall l, Permutation l (g_order E l)).
  Lemma same_merges dup old new result old' new' : (forall x y : str, dup x = dup y -> x = y) -> merges dup old (g_order E new) result [] ->
    Forall2 same_item old old' -> Forall2 same_item new new' ->
    exists result', merges dup old' (g_order E new') result' [] /\ same_elements same_item result result' /\ (NoDup (map item old) -> NoDup (map item result)).
  Proof.
    intros Inj M Fo Fn. inversion M as [fresh again D Q F2]. inversion F2; subst. destruct (dedup_none _ _ _ _ _ D eq_refl) as (-> & Nd & Ns).
    rewrite <- (map_map item dup) in Nd.
    assert (Ni : NoDup (map item (g_order E new))) by (eapply NoDup_map_inv; exact Nd).
    assert (Ni' : NoDup (map item (g_order E new'))).
    { apply (Permutation_NoDup (Permutation_map item (Go new'))). rewrite <- (forall2_same_items _ _ Fn). eapply Permutation_NoDup; [symmetry; apply Permutation_map, Go|exact Ni]. }
    exists (old' ++ g_order E new'). split; [|split].
    - apply (merges_ dup old' (g_order E new') _ [] (g_order E new') []); [|reflexivity|constructor]. apply dedup_all.
      + rewrite <- (map_map item dup). apply nodup_map_inj; assumption.
      + intros x Hx Hin. apply (in_map item) in Hx. apply (Permutation_in _ (Permutation_sym (Permutation_map item (Go new')))) in Hx.
        rewrite <- (forall2_same_items _ _ Fn) in Hx. apply (Permutation_in _ (Permutation_map item (Go new))) in Hx. apply in_map_iff in Hx. destruct Hx as (y & Ey & Hy).
        apply (Ns y Hy). rewrite <- (map_map item dup) in Hin |- *. rewrite (forall2_same_items _ _ Fo). rewrite Ey. exact Hin.
    - apply (same_elements_order same_item _ (old ++ new) (old' ++ new')); [apply Permutation_app_head; symmetry; apply Go|apply Forall2_app; assumption|apply Permutation_app_head; apply Go].
    - intro No. rewrite map_app. apply NoDup_app_intro; [exact No|exact Ni|]. intros x Hx Hy. apply in_map_iff in Hy. destruct Hy as (y & <- & Hy).
      apply (Ns y Hy). rewrite <- (map_map item dup). apply in_map. exact Hx.
  Qed.

  (** No tag, no link and no key twice. *)
  Definition distinct_metadata (m : metadata) : Prop :=
    NoDup (map item (md_tags m)) /\ NoDup (map item (md_links m)) /\ NoDup (map (fun e => item (fst e)) (md_key_values m)).
  Lemma labels_distinct l : NoDup (map metadatum_label l) ->
    NoDup (map item (tags_in l)) /\ NoDup (map item (links_in l)) /\ NoDup (map (fun e => item (fst e)) (key_values_in l)).
  Proof.
    induction l as [|m l IH]; cbn; intro N; [repeat constructor|]. inversion N as [|? ? Nm Nl]; subst. destruct (IH Nl) as (A & B & C).
    destruct m as [kv|t|t]; cbn in *.
    - split; [exact A|]. split; [exact B|]. constructor; [|exact C]. intro H. apply Nm. apply in_map_iff in H. destruct H as ([k v] & Q & H). unfold key_values_in in H. apply in_flat_map in H.
      destruct H as (x & Hx & H). destruct x as [kv'|?|?]; try (destruct H; fail). destruct H as [H|[]]. injection H as <- <-. apply in_map_iff. exists (MD_KeyValue kv'). cbn in *. split; [congruence|exact Hx].
    - split; [|split; [exact B|exact C]]. constructor; [|exact A]. intro H. apply Nm. apply in_map_iff in H. destruct H as (u & Q & H). unfold tags_in in H. apply in_flat_map in H.
      destruct H as (x & Hx & H). destruct x as [?|t'|?]; try (destruct H; fail). destruct H as [H|[]]. subst u. apply in_map_iff. exists (MD_Tag t'). cbn. split; [congruence|exact Hx].
    - split; [exact A|split; [|exact C]]. constructor; [|exact B]. intro H. apply Nm. apply in_map_iff in H. destruct H as (u & Q & H). unfold links_in in H. apply in_flat_map in H.
      destruct H as (x & Hx & H). destruct x as [?|?|t']; try (destruct H; fail). destruct H as [H|[]]. subst u. apply in_map_iff. exists (MD_Link t'). cbn. split; [congruence|exact Hx].
  Qed.
  Lemma metadata_distinct i j md : metadata_at E I names i j md [] -> distinct_metadata (item md).
  Proof.
    intros [l _ C _]. inversion C as [kept again D Q1 Q2]. apply map_eq_nil in Q2. subst again. destruct (dedup_none _ _ _ _ _ D eq_refl) as (-> & Nd & _).
    destruct (labels_distinct _ Nd) as (A & B & C'). repeat split; cbn; assumption.
  Qed.
  Lemma same_joined md marks md1 md' marks' : distinct_metadata (item md) -> parallel (item md) (item md') -> Forall2 alike_metadatum marks marks' -> joined E md marks md1 [] [] ->
    exists md1', joined E md' marks' md1' [] [] /\ alike_metadata (item md1) (item md1') /\ distinct_metadata (item md1).
  Proof.
    intros (Nt & Nl & Nk) [Pk Pt Pl] F Jo. remember (@nil report) as e1 eqn:Q1 in Jo at 1. remember (@nil report) as e2 eqn:Q2 in Jo. destruct Jo as [kept again tags links es es' D Mt Ml].
    apply map_eq_nil in Q1. apply app_eq_nil in Q2. destruct Q2. subst.
    destruct (dedup_alike _ alike_metadatum alike_label _ _ _ _ D _ F) as (k' & a' & D' & K & A). inversion A; subst a'.
    destruct (same_merges DuplicateTag _ _ _ _ (tags_in k') ltac:(congruence) Mt Pt (alike_tags _ _ K)) as (tags' & Mt' & St & Nt').
    destruct (same_merges DuplicateLink _ _ _ _ (links_in k') ltac:(congruence) Ml Pl (alike_links _ _ K)) as (links' & Ml' & Sl & Nl').
    eexists. split; [exact (joined_ E md' marks' k' [] tags' links' [] [] D' Mt' Ml')|]. split.
    - split; [|split]; cbn; [eexists; split; [apply Permutation_refl|exact Pk]|exact St|exact Sl].
    - repeat split; cbn; auto.
  Qed.
End Same.

Section Both.
  Context (E : grammar_env) (names : account_type -> str) (I J : input).
  Context (Same : map fst (in_tokens I) = map fst (in_tokens J)) (Go : forall l, Permutation l (g_order E l)).

  Lemma same_directive_at i j d : directive_at E I names i j d [] ->
    exists d', directive_at E J names i j d' [] /\ alike d d' /\ distinct_metadata (item (dir_metadata d)).
  Proof.
    intro D. inversion D as [a b c d0 e f j0 date flag strings payee narration marks md md' postings es1 es2 es3 es4 Wd Wt S Ti Sm Le Md Sp Jo Q1 Q2
                            |a b c d0 j0 k date v marks md md' es1 es2 es3 es4 Wd T F Sm Le Md Jo Q1 Q2
                            |a b c d0 j0 date ty values md es Wd T Ws Sv Le Md Q1 Q2]; subst.
    - repeat match goal with H : _ ++ _ = [] |- _ => apply app_eq_nil in H; destruct H end. subst.
      destruct (same_silent (written I (string_at I)) (written J (string_at J)) same_item b c strings) with (2 := S) as (strings' & S' & Fs).
      { intros x y s W. exists (moved_to J x y s). split; [eapply same_written; [|exact W]; apply same_string; exact Same|reflexivity]. }
      destruct (same_titles _ _ _ _ Fs Ti) as (p' & n' & Ti' & Sp' & Sn').
      destruct (same_silent (mark_at E I) (mark_at E J) alike_metadatum c d0 marks (same_mark E I J Same) Sm) as (marks' & Sm' & Fm).
      destruct (same_metadata_at E names I J Same _ _ _ Md) as (md1 & Md1 & Pa).
      destruct (same_star (posting_at E I names) (posting_at E J names) (fun x y => alike_posting (item x) (item y)) f j postings (same_posting E names I J Same) Sp) as (ps' & Sp1 & Fp).
      destruct (same_joined E Go _ _ _ _ _ (metadata_distinct E names I _ _ _ Md) Pa Fm Jo) as (md2 & Jo' & Al & Di).
      exists (mk_directive (moved_to J i a date) md2 (V_Transaction (moved_to J a b flag) p' n' ps')). split; [|split].
      + change (@nil report) with (@nil report ++ [] ++ [] ++ []). eapply directive_transaction; eauto;
          [eapply same_written; [|exact Wd]; apply same_date; exact Same|eapply same_written; [|exact Wt]; apply same_txn; exact Same|eapply same_line_end; eassumption].
      + constructor; cbn; [reflexivity|exact Al|constructor; auto; reflexivity].
      + exact Di.
    - repeat match goal with H : _ ++ _ = [] |- _ => apply app_eq_nil in H; destruct H end. subst.
      destruct (same_fields E names I J Same _ _ _ _ F) as (v' & F' & Av).
      destruct (same_silent (mark_at E I) (mark_at E J) alike_metadatum b c marks (same_mark E I J Same) Sm) as (marks' & Sm' & Fm).
      destruct (same_metadata_at E names I J Same _ _ _ Md) as (md1 & Md1 & Pa).
      destruct (same_joined E Go _ _ _ _ _ (metadata_distinct E names I _ _ _ Md) Pa Fm Jo) as (md2 & Jo' & Al & Di).
      exists (mk_directive (moved_to J i a date) md2 v'). split; [|split].
      + change (@nil report) with (@nil report ++ [] ++ [] ++ []). eapply directive_line; eauto;
          [eapply same_written; [|exact Wd]; apply same_date; exact Same|eapply same_tok; eassumption|eapply same_line_end; eassumption].
      + constructor; cbn; [reflexivity|exact Al|exact Av].
      + exact Di.
    - destruct (same_silent (longest (written I (meta_value_at E I names))) (longest (written J (meta_value_at E J names))) (fun x y => alike_meta_value (item x) (item y)) b c values) with (2 := Sv) as (vs' & Sv' & Fv).
      { intros x y s [[W _] L]. destruct (same_meta_value E names I J Same _ _ _ W) as (v' & W' & Al). exists (mk_spanned v' (text J x y)). split; [|exact Al]. split; [split; [exact W'|reflexivity]|].
        intros k w [Ww _]. destruct (same_meta_value E names J I (eq_sym Same) _ _ _ Ww) as (w' & Ww' & _). apply (L k (mk_spanned w' (text I x k))). split; [exact Ww'|reflexivity]. }
      destruct (same_metadata_at E names I J Same _ _ _ Md) as (md1 & Md1 & Pa).
      exists (mk_directive (moved_to J i a date) md1 (V_Custom (moved_to J (S a) b ty) vs')). split; [|split].
      + eapply directive_custom; eauto;
          [eapply same_written; [|exact Wd]; apply same_date; exact Same|eapply same_tok; eassumption|eapply same_written; [|exact Ws]; apply same_string; exact Same|eapply same_line_end; eassumption].
      + constructor; cbn; [reflexivity|apply parallel_alike; exact Pa|constructor; auto; reflexivity].
      + exact (metadata_distinct E names I _ _ _ Md).
  Qed.
  Lemma same_whole i j d : whole_at E I names i j d [] -> exists d', whole_at E J names i j d' [] /\ alike d d' /\ distinct_metadata (item (dir_metadata d)).
  Proof.
    intros (D & Nm & Np). destruct (same_directive_at _ _ _ D) as (d' & D' & Al & Di). exists d'. split; [|split; [exact Al|exact Di]]. split; [exact D'|]. split.
    - intros k m M. destruct (same_metadata_line E names J I (eq_sym Same) _ _ _ M) as (m' & M' & _). exact (Nm _ _ M').
    - intros fl p n ps Q k a es P. destruct (some_posting E names J I (eq_sym Same) _ _ _ _ P) as (p' & es' & P').
      pose proof (al_variant _ _ Al) as V. rewrite Q in V. inversion V as [f0 f1 p0 p1 n0 n1 ps0 ps1 H1 H2 H3 H4 X| | | | | | | | | | |]. eapply Np; [symmetry; exact X|exact P'].
  Qed.
End Both.
