(** * Two inputs which are read in step: the grammar *)
From Coq Require Import String Ascii.
From Coq Require Import List NArith ZArith Arith Bool Lia Permutation.
From Verif Require Import Base BaseFacts Types Options Decimal Cost Token Peg Grammar SpecGrammar SpecDisplay SpecLedger P_Display AlikeRead AlikeFile Sim SimValues.
Import ListNotations.
Local Open Scope nat_scope.

(** [P] relates the positions in the one input to those in the other; [Q] those
    after the end of a line.  The second input may have one [T_Eol] more, at its
    end.  [K] relates the places of keys. *)
Record in_step (I J : input) (P Q : nat -> nat -> Prop) (K : span -> span -> Prop) : Prop := {
  st_line : forall i i', Q i i' -> P i i' \/ (~ tok I i T_Indent /\ ~ tok J i' T_Indent);
  st_tok : forall i i', P i i' ->
    match nth_error (in_tokens I) i, nth_error (in_tokens J) i' with
    | Some (t, _), Some (t', _) => t = t' /\ (t <> T_Eol -> P (S i) (S i')) /\ (t = T_Eol -> Q (S i) (S i'))
    | None, None => Q i i'
    | None, Some (t, _) => t = T_Eol /\ Q i (S i')
    | Some (t, _), None => t = T_Eol /\ Q (S i) i'
    end;
  st_key : forall i i' t, P i i' -> tok I i (T_Key t) ->
    K (span_at (in_source I) (in_tokens I) (in_len I) i (S i)) (span_at (in_source J) (in_tokens J) (in_len J) i' (S i'))
}.

Definition alike_settings (po po' : parser_options) : Prop :=
  po_names po = po_names po' /\ option_map (fun x => item (sd_spanned x)) (po_maxlines po) = option_map (fun x => item (sd_spanned x)) (po_maxlines po').

Section Grammar.
  Context (E : grammar_env) (Go : forall l, Permutation l (g_order E l)).
  Context (I J : input) (P Q : nat -> nat -> Prop) (K : span -> span -> Prop) (Step : in_step I J P Q K).
  Context (po po' : parser_options) (Set_ : alike_settings po po').

  Lemma sim_sel {A} (f : token -> option A) : f T_Eol = None -> sim P P eq (sel I f) (sel J f).
  Proof.
    intros Ne i i' Pi. pose proof (st_tok _ _ _ _ _ Step i i' Pi) as H. unfold sel, select.
    destruct (nth_error (in_tokens I) i) as [[t r]|], (nth_error (in_tokens J) i') as [[t' r']|]; try contradiction.
    - destruct H as (<- & Ps & _). destruct (f t) eqn:F; cbn; [assert (t <> T_Eol) by congruence|]; sim_done.
    - destruct H as [-> _]. rewrite Ne. reflexivity.
    - destruct H as [-> _]. rewrite Ne. reflexivity.
    - reflexivity.
  Qed.
  Lemma sim_just t : t <> T_Eol -> sim P P eq (just I t) (just J t).
  Proof. intro Ne. apply sim_sel. destruct (token_eq_dec T_Eol t); [congruence|reflexivity]. Qed.
  Lemma sim_keyword k : sim P P eq (keyword_ I k) (keyword_ J k).
  Proof. apply sim_just. discriminate. Qed.
  Lemma sim_eol : sim P Q eq (eol I) (eol J).
  Proof.
    intros i i' Pi. pose proof (st_tok _ _ _ _ _ Step i i' Pi) as H. unfold eol, choice, alt, pmap, bind, ret, just, sel, select, at_end.
    destruct (nth_error (in_tokens I) i) as [[t r]|], (nth_error (in_tokens J) i') as [[t' r']|]; try contradiction.
    - destruct H as (<- & Ps & Qs). destruct (token_eq_dec t T_Eol) as [Y|Y]; cbn; [|reflexivity]. repeat split; auto. apply same_saids_refl.
    - destruct H as [-> Qs]. destruct (token_eq_dec T_Eol T_Eol); [|contradiction]. cbn. repeat split; auto. apply same_saids_refl.
    - destruct H as [-> Qs]. destruct (token_eq_dec T_Eol T_Eol); [|contradiction]. cbn. repeat split; auto. apply same_saids_refl.
    - cbn. repeat split; auto. apply same_saids_refl.
  Qed.
  Lemma sim_spn {A A'} (S0 S1 : nat -> nat -> Prop) (T : A -> A' -> Prop) p p' : sim S0 S1 T p p' -> sim S0 S1 (fun x y => T (item x) (item y)) (spn I p) (spn J p').
  Proof. apply sim_sp. Qed.
  Lemma sim_same {A} (S0 S1 : nat -> nat -> Prop) (p p' : parser A) : sim S0 S1 eq p p' -> sim S0 S1 same_item (spn I p) (spn J p').
  Proof. apply sim_sp. Qed.
  Lemma sim_rep {A A'} (S0 : nat -> nat -> Prop) (T : A -> A' -> Prop) p p' : sim S0 S0 T p p' -> sim S0 S0 (Forall2 T) (rep I p) (rep J p').
  Proof. apply sim_many. Qed.
  Lemma sim_maybe {A} (S0 : nat -> nat -> Prop) (T : A -> A -> Prop) p p' : sim S0 S0 T p p' -> sim S0 S0 (same_option T) (opt p) (opt p').
  Proof. intro H. apply sim_opt; auto. Qed.
  Lemma sim_eq_map {A B} (S0 S1 : nat -> nat -> Prop) (f : A -> B) p p' : sim S0 S1 eq p p' -> sim S0 S1 eq (pmap f p) (pmap f p').
  Proof. intro H. eapply sim_map; [exact H|]. intros a a' ->. reflexivity. Qed.
  Lemma sim_eq_bind {A B} (S0 S1 S2 : nat -> nat -> Prop) (p p' : parser A) (f f' : A -> parser B) :
    sim S0 S1 eq p p' -> (forall a, sim S1 S2 eq (f a) (f' a)) -> sim S0 S2 eq (bind p f) (bind p' f').
  Proof. intros H F. eapply sim_bind; [exact H|]. intros a a' ->. apply F. Qed.
  Lemma sim_eq_opt {A} (S0 : nat -> nat -> Prop) (p p' : parser A) : sim S0 S0 eq p p' -> sim S0 S0 eq (opt p) (opt p').
  Proof. intro H. eapply sim_value; [apply sim_maybe; exact H|]. intros [a|] [b|]; cbn; congruence || tauto. Qed.
  Lemma sim_eq_try {A B X} (S0 S1 : nat -> nat -> Prop) (f : A -> outcome (result B X)) p p' : sim S0 S1 eq p p' -> sim S0 S1 eq (try_map f p) (try_map f p').
  Proof. intro H. eapply sim_try_map; [exact H|]. intros a a' ->. destruct (f a') as [[]|]; auto. Qed.

  (** ** Leaves *)
  Lemma sim_account : sim P P eq (p_account E I po) (p_account E J po').
  Proof. unfold p_account. rewrite (proj1 Set_). apply sim_eq_try, sim_sel. reflexivity. Qed.
  Lemma sim_tag : sim P P eq (p_tag E I) (p_tag E J).
  Proof. apply sim_eq_try, sim_sel. reflexivity. Qed.
  Lemma sim_link : sim P P eq (p_link E I) (p_link E J).
  Proof. apply sim_eq_try, sim_sel. reflexivity. Qed.
  Lemma sim_key : sim P P eq (p_key E I) (p_key E J).
  Proof. apply sim_eq_try, sim_sel. reflexivity. Qed.
  Lemma sim_key_place : sim P P (fun x y => same_item x y /\ K (span_of x) (span_of y)) (spn I (p_key E I)) (spn J (p_key E J)).
  Proof.
    intros i i' Pi. pose proof (sim_key i i' Pi) as H. pose proof (st_tok _ _ _ _ _ Step i i' Pi) as T. pose proof (st_key _ _ _ _ _ Step i i') as Ks.
    unfold spn, sp, map_span. unfold p_key, try_map, sel, select, tok in *.
    destruct (nth_error (in_tokens I) i) as [[t r]|], (nth_error (in_tokens J) i') as [[t' r']|]; try contradiction; cbn in *.
    - destruct T as (<- & Ps & _). destruct t; cbn in *; try exact H. destruct (key_try_from (g_unicode E) s); cbn in *; [|exact H].
      destruct H as (_ & H). split; [|exact H]. split; [reflexivity|]. eapply Ks; [exact Pi|]. eexists. reflexivity.
    - destruct T as [-> _]. reflexivity.
    - destruct T as [-> _]. reflexivity.
    - reflexivity.
  Qed.
  Lemma sim_currency : sim P P eq (p_currency I) (p_currency J).
  Proof. apply sim_eq_try, sim_sel. reflexivity. Qed.
  Lemma sim_date : sim P P eq (p_date I) (p_date J).
  Proof. apply sim_sel. reflexivity. Qed.
  Lemma sim_decimal : sim P P eq (p_decimal I) (p_decimal J).
  Proof. apply sim_sel. reflexivity. Qed.
  Lemma same_string_warning s a b : same_said (string_warning po s a) (string_warning po' s b).
  Proof.
    unfold string_warning. destruct Set_ as [_ M]. destruct (po_maxlines po) as [[x ?]|], (po_maxlines po') as [[y ?]|]; try discriminate; cbn in *.
    - injection M as ->. destruct (_ <? _)%N; reflexivity.
    - destruct (_ <? _)%N; reflexivity.
  Qed.
  Lemma sim_string : sim P P eq (p_string I po) (p_string J po').
  Proof.
    intros i i' Pi. unfold p_string. assert (H : sim P P same_item (spn I (sel I (fun t => match t with T_String s => Some s | _ => None end)))
      (spn J (sel J (fun t => match t with T_String s => Some s | _ => None end)))) by (apply sim_same, sim_sel; reflexivity).
    specialize (H i i' Pi). destruct (spn I _ i), (spn J _ i'); cbn in *; auto. destruct H as (A & B & C & D). unfold same_item in A. rewrite A. repeat split; auto.
    apply same_said_app; [exact C|]. apply same_string_warning.
  Qed.

  Ltac one := first
    [ apply sim_account | apply sim_tag | apply sim_link | apply sim_key | apply sim_currency | apply sim_date | apply sim_decimal | apply sim_string
    | apply sim_keyword | apply sim_eol | apply sim_just; discriminate | apply sim_sel; reflexivity ].
  Ltac eqs := repeat first
    [ eassumption | one | apply sim_eq_map | apply sim_eq_opt | apply sim_eq_try | apply sim_alt
    | apply sim_choice; repeat (apply Forall2_cons || apply Forall2_nil)
    | eapply sim_eq_bind; [|intro] | apply sim_ret; reflexivity ].

  Lemma sim_bool : sim P P eq (p_bool I) (p_bool J).
  Proof. unfold p_bool. eqs. Qed.
  Lemma sim_flag : sim P P eq (p_flag I) (p_flag J).
  Proof. unfold p_flag. eqs. Qed.
  Lemma sim_txn : sim P P eq (p_txn I) (p_txn J).
  Proof. unfold p_txn. apply sim_choice; repeat (apply Forall2_cons || apply Forall2_nil); [eqs|apply sim_flag]. Qed.
  Lemma sim_booking : sim P P eq (p_booking I po) (p_booking J po').
  Proof. unfold p_booking. eqs. Qed.

  (** ** Expressions *)
  Section Expr.
    Context (p p' : parser expr) (H : sim P P eq p p').
    Lemma sim_primary : sim P P eq (p_primary I p) (p_primary J p').
    Proof. unfold p_primary. eqs. Qed.
    Lemma sim_factor : sim P P eq (p_factor I p) (p_factor J p').
    Proof. pose proof sim_primary. unfold p_factor. eqs. Qed.
    Lemma sim_fold {A B} (q q' : parser A) (r r' : parser B) (f : A -> B -> A) : sim P P eq q q' -> sim P P eq r r' ->
      sim P P eq (foldl (in_tokens I) q r f) (foldl (in_tokens J) q' r' f).
    Proof. intros Hq Hr. eapply sim_foldl; [exact Hq|exact Hr|]. intros a a' b b' -> ->. reflexivity. Qed.
    Lemma sim_product : sim P P eq (p_product I p) (p_product J p').
    Proof. pose proof sim_factor. unfold p_product, p_product_rest. apply sim_fold; eqs. Qed.
    Lemma sim_sum : sim P P eq (p_sum I p) (p_sum J p').
    Proof. pose proof sim_product. unfold p_sum, p_sum_rest. apply sim_fold; eqs. Qed.
  End Expr.
  Lemma sim_expr_n n : forall n', sim P P eq (expr_n I n) (expr_n J n').
  Proof.
    induction n as [|n IH]; intros [|n'] i i' Pi; try exact Logic.I.
    - cbn [expr_n]. destruct (p_sum I (expr_n I n) i); exact Logic.I.
    - cbn [expr_n]. apply sim_sum; [|exact Pi]. apply IH.
  Qed.
  Lemma sim_expr : sim P P eq (p_expr I) (p_expr J).
  Proof. intros i i' Pi. unfold p_expr. apply sim_expr_n. exact Pi. Qed.
  Lemma sim_expr_value : sim P P eq (p_expr_value E I) (p_expr_value E J).
  Proof. eapply sim_map_out; [apply sim_expr|]. intros a a' ->. destruct (expr_value_from _ _); auto. Qed.

  (** ** Amounts *)
  Ltac binds := repeat first
    [ eapply sim_bind; [solve [one | apply sim_same; first [one | apply sim_expr_value | assumption] | apply sim_expr_value | eassumption]|intros ? ? ?]
    | apply sim_ret; repeat split; assumption ].
  Lemma sim_amount : sim P P alike_amount (p_amount E I) (p_amount E J).
  Proof. unfold p_amount. binds. Qed.
  Lemma sim_amount_with_tolerance : sim P P alike_amount_tol (p_amount_with_tolerance E I) (p_amount_with_tolerance E J).
  Proof.
    unfold p_amount_with_tolerance. apply sim_choice. repeat apply Forall2_cons; [| |constructor].
    - eapply sim_map; [apply sim_spn, sim_amount|]. intros a a' H. split; [exact H|exact Logic.I].
    - eapply sim_map_span with (Q := fun x y : spanned expr_value * spanned decimal * spanned str =>
        same_item (fst (fst x)) (fst (fst y)) /\ same_item (snd (fst x)) (snd (fst y)) /\ same_item (snd x) (snd y)).
      + binds.
      + intros [[a b] c] [[a' b'] c'] x x' (H1 & H2 & H3). repeat split; assumption.
  Qed.
  Lemma sim_compound_expr : sim P P eq (p_compound_expr E I) (p_compound_expr E J).
  Proof. pose proof sim_expr_value. unfold p_compound_expr. eqs. Qed.
  Lemma sim_compound_amount : sim P P eq (p_compound_amount E I) (p_compound_amount E J).
  Proof. pose proof sim_compound_expr. unfold p_compound_amount. eqs. Qed.
  Lemma sim_price_annotation : sim P P eq (p_price_annotation E I) (p_price_annotation E J).
  Proof. pose proof sim_expr_value. unfold p_price_annotation. eqs. Qed.
  Lemma sim_cost_comp : sim P P eq (p_cost_comp E I po) (p_cost_comp E J po').
  Proof. pose proof sim_compound_amount. unfold p_cost_comp. eqs. Qed.
  Lemma sim_cost_spec : sim P P alike_cost (p_cost_spec E I po) (p_cost_spec E J po').
  Proof.
    unfold p_cost_spec. eapply sim_try_map with (Q := alike_comps).
    - eapply sim_bind; [one|]. intros _ _ _. eapply sim_bind.
      + apply sim_maybe with (T := fun x y : spanned cost_comp * list (spanned cost_comp) => same_item (fst x) (fst y) /\ Forall2 same_item (snd x) (snd y)).
        eapply sim_bind; [apply sim_same, sim_cost_comp|]. intros h h' Hh. eapply sim_bind.
        * apply sim_rep with (T := same_item). eapply sim_bind; [one|]. intros _ _ _. apply sim_same, sim_cost_comp.
        * intros t t' Ht. apply sim_ret. split; assumption.
      + intros c c' Hc. eapply sim_bind; [one|]. intros _ _ _. apply sim_ret. destruct c as [[h t]|], c' as [[h' t']|]; exact Hc.
    - intros c c' Hc. apply (alike_cost_of c c' Hc).
  Qed.

  (** ** Metadata *)
  Lemma sim_simple_value : sim P P eq (p_simple_value E I po) (p_simple_value E J po').
  Proof. pose proof sim_expr_value. pose proof sim_bool. unfold p_simple_value. eqs. Qed.
  Lemma sim_meta_value : sim P P alike_meta_value (p_meta_value E I po) (p_meta_value E J po').
  Proof.
    unfold p_meta_value. apply sim_choice. repeat apply Forall2_cons; [| |constructor].
    - eapply sim_map; [apply sim_amount|]. auto.
    - eapply sim_map; [apply sim_simple_value|]. auto.
  Qed.
  Definition alike_placed_key_value (a b : meta_key_value) : Prop := alike_key_value a b /\ K (span_of (mkv_key a)) (span_of (mkv_key b)).
  Lemma sim_meta_key_value : sim P P alike_placed_key_value (p_meta_key_value E I po) (p_meta_key_value E J po').
  Proof.
    unfold p_meta_key_value. eapply sim_bind; [apply sim_key_place|]. intros k k' [Sk Kk]. eapply sim_bind; [one|]. intros _ _ _.
    eapply sim_bind; [apply sim_spn, sim_maybe, sim_meta_value|]. intros v v' V. apply sim_ret. split; [|exact Kk]. split; [exact Sk|]. cbn.
    destruct v as [[a|] s], v' as [[b|] s']; cbn in *; try contradiction; [exact V|reflexivity].
  Qed.
  Lemma sim_metadatum_line : sim P Q alike_metadatum (p_metadatum_line E I po) (p_metadatum_line E J po').
  Proof.
    unfold p_metadatum_line. eapply sim_bind; [one|]. intros _ _ _. eapply sim_bind with (Q := alike_metadatum) (S1 := P).
    - apply sim_choice. repeat apply Forall2_cons; [| | |constructor]; (eapply sim_map; [first [apply sim_same; one | apply sim_spn, sim_meta_key_value]|]); [|auto|auto].
      intros a a' [H _]. exact H.
    - intros x x' H. eapply sim_bind; [apply sim_eol|]. intros _ _ _. apply sim_ret. exact H.
  Qed.
  (** A line which is indented. *)
  Lemma sim_indented {A A'} (T : A -> A' -> Prop) (f : token -> parser A) (f' : token -> parser A') :
    sim P Q T (bind (just I T_Indent) f) (bind (just J T_Indent) f') -> sim Q Q T (bind (just I T_Indent) f) (bind (just J T_Indent) f').
  Proof.
    intros H i i' Qi. destruct (st_line _ _ _ _ _ Step _ _ Qi) as [Pi|[N N']]; [apply H; exact Pi|].
    assert (Z : forall I i, ~ tok I i T_Indent -> just I T_Indent i = Not []).
    { clear. intros I i N. unfold just, sel, select. destruct (nth_error (in_tokens I) i) as [[t r]|] eqn:X; [|reflexivity].
      destruct (token_eq_dec t T_Indent) as [->|Y]; [|reflexivity]. exfalso. apply N. exists r. exact X. }
    unfold bind. rewrite (Z _ _ N), (Z _ _ N'). reflexivity.
  Qed.
  Lemma sim_metadata : sim Q Q step_metadata (p_metadata E I po) (p_metadata E J po').
  Proof.
    unfold p_metadata. eapply sim_validate.
    - apply sim_rep. apply sim_indented. apply sim_metadatum_line.
    - intros l l' F. destruct (alike_collate_all _ _ F (empty_metadata, []) (empty_metadata, [])) as [A B]; [repeat constructor|reflexivity|]. split; [exact A|].
      unfold same_saids. rewrite B. apply Permutation_refl.
  Qed.
  Lemma sim_tags_links : sim P P alike_tags_links (p_tags_links E I) (p_tags_links E J).
  Proof.
    unfold p_tags_links. eapply sim_validate with (Q := Forall2 (fun x y => match x, y with inl a, inl b | inr a, inr b => same_item a b | _, _ => False end)).
    - apply sim_rep. apply sim_choice. repeat apply Forall2_cons; [| |constructor]; (eapply sim_map; [apply sim_same; one|]); auto.
    - intros l l' F.
      assert (H : forall s s' : list (spanned str) * list (spanned str) * list report, alike_tags_links (fst s) (fst s') -> same_said (snd s) (snd s') ->
        let f := fun '(tags, links, es) (x : spanned str + spanned str) => match x with
           | inl t => let (tags', es') := insert_once DuplicateTag (tags, es) t in (tags', links, es')
           | inr k => let (links', es') := insert_once DuplicateLink (links, es) k in (tags, links', es') end in
        alike_tags_links (fst (fold_left f l s)) (fst (fold_left f l' s')) /\ same_said (snd (fold_left f l s)) (snd (fold_left f l' s'))).
      { intros s s' A W f. revert s s' A W. induction F as [|x y l l' M F IH]; intros [[t k] es] [[t' k'] es'] [A B] W; [split; [split|]; assumption|].
        cbn [fold_left]. apply IH; cbn in A, B, W; unfold f; destruct x as [x|x], y as [y|y]; try contradiction.
        - pose proof (alike_insert_once DuplicateTag (t, es) (t', es') x y (conj A W) M) as [H1 H2].
          destruct (insert_once DuplicateTag (t, es) x), (insert_once DuplicateTag (t', es') y). split; assumption.
        - pose proof (alike_insert_once DuplicateLink (k, es) (k', es') x y (conj B W) M) as [H1 H2].
          destruct (insert_once DuplicateLink (k, es) x), (insert_once DuplicateLink (k', es') y). split; assumption.
        - pose proof (alike_insert_once DuplicateTag (t, es) (t', es') x y (conj A W) M) as [H1 H2].
          destruct (insert_once DuplicateTag (t, es) x), (insert_once DuplicateTag (t', es') y). assumption.
        - pose proof (alike_insert_once DuplicateLink (k, es) (k', es') x y (conj B W) M) as [H1 H2].
          destruct (insert_once DuplicateLink (k, es) x), (insert_once DuplicateLink (k', es') y). assumption. }
      destruct (H ([], [], []) ([], [], []) ltac:(repeat constructor) eq_refl) as [A B]. split; [exact A|]. unfold same_saids. rewrite B. apply Permutation_refl.
  Qed.

  Notation made := (spanned date * variant * (list (spanned str) * list (spanned str)) * spanned metadata)%type.
  Definition alike_made (x y : made) : Prop :=
    same_item (fst (fst (fst x))) (fst (fst (fst y))) /\ alike_variant (snd (fst (fst x))) (snd (fst (fst y))) /\
    alike_tags_links (snd (fst x)) (snd (fst y)) /\ step_metadata (item (snd x)) (item (snd y)).
  Lemma alike_make x y : alike_made x y -> alike (fst (make E x)) (fst (make E y)) /\ same_saids (snd (make E x)) (snd (make E y)).
  Proof.
    destruct x as [[[d v] tl] md], y as [[[d' v'] tl'] md']. intros (D & V & T & M). cbn in D, V, T, M. unfold make.
    pose proof (alike_merged E Go md md' tl tl' M T) as [A B]. destruct (merged E md tl), (merged E md' tl'). cbn in *. split; [constructor; assumption|exact B].
  Qed.

  (** ** Transactions *)
  Lemma sim_spanned_option {A} (T : A -> A -> Prop) p p' : sim P P T p p' -> sim P P (same_option (fun x y => T (item x) (item y))) (pmap spanned_option (spn I (opt p))) (pmap spanned_option (spn J (opt p'))).
  Proof.
    intro H. eapply sim_map; [apply sim_spn, sim_maybe; exact H|]. intros [a s] [a' s'] Ha. unfold spanned_option. cbn in *. destruct a, a'; exact Ha.
  Qed.
  Lemma sim_posting : sim P Q (fun x y => alike_posting (item x) (item y)) (p_posting E I po) (p_posting E J po').
  Proof.
    unfold p_posting. eapply sim_bind; [one|]. intros _ _ _.
    eapply sim_bind with (Q := fun x y : spanned (spanned metadata -> posting) => forall m m', step_metadata (item m) (item m') -> alike_posting (item x m) (item y m')) (S1 := P).
    - apply sim_spn with (T := fun x y : spanned metadata -> posting => forall m m', step_metadata (item m) (item m') -> alike_posting (x m) (y m')).
      eapply sim_bind; [apply sim_maybe, sim_same, sim_flag|]. intros f f' Hf. eapply sim_bind; [apply sim_same, sim_account|]. intros a a' Ha.
      eapply sim_bind; [apply sim_maybe, sim_same, sim_expr_value|]. intros n n' Hn. eapply sim_bind; [apply sim_maybe, sim_same, sim_currency|]. intros c c' Hc.
      eapply sim_bind; [apply sim_spanned_option, sim_cost_spec|]. intros k k' Hk. eapply sim_bind; [apply sim_spanned_option, sim_price_annotation|]. intros r r' Hr.
      apply sim_ret. intros m m' Hm. repeat split; try assumption; apply forall2_elements; apply Hm.
    - intros x x' Hx. eapply sim_bind; [apply sim_eol|]. intros _ _ _. eapply sim_bind; [apply sim_spn, sim_metadata|]. intros m m' Hm. apply sim_ret. cbn. apply Hx. exact Hm.
  Qed.
  Lemma alike_nonempty a b : same_option same_item a b -> same_option same_item (some_nonempty a) (some_nonempty b).
  Proof.
    destruct a as [[x s]|], b as [[y s']|]; cbn; intro H; try contradiction; auto. unfold same_item in H. cbn in H. subst y. destruct x; [exact Logic.I|reflexivity].
  Qed.
  Notation header := (spanned date * spanned flag * (option (spanned str) * option (spanned str)) * (list (spanned str) * list (spanned str)))%type.
  Definition alike_header (x y : header) : Prop :=
    same_item (fst (fst (fst x))) (fst (fst (fst y))) /\ same_item (snd (fst (fst x))) (snd (fst (fst y))) /\
    same_option same_item (fst (snd (fst x))) (fst (snd (fst y))) /\ same_option same_item (snd (snd (fst x))) (snd (snd (fst y))) /\
    alike_tags_links (snd x) (snd y).
  Lemma sim_transaction_header : sim P Q alike_header (p_transaction_header E I po) (p_transaction_header E J po').
  Proof.
    unfold p_transaction_header. eapply sim_bind; [apply sim_same, sim_date|]. intros d d' Hd. eapply sim_bind; [apply sim_same, sim_txn|]. intros f f' Hf.
    eapply sim_bind; [apply sim_maybe, sim_same, sim_string|]. intros s s' Hs. eapply sim_bind; [apply sim_maybe, sim_same, sim_string|]. intros t t' Ht.
    eapply sim_bind; [apply sim_tags_links|]. intros l l' Hl. eapply sim_bind; [apply sim_eol|]. intros _ _ _. apply sim_ret.
    split; [exact Hd|]. split; [exact Hf|]. cbn [fst snd]. destruct s, s'; cbn in Hs; try contradiction; destruct t, t'; cbn in Ht; try contradiction; cbn [fst snd];
      (split; [apply alike_nonempty; cbn; auto|]; split; [apply alike_nonempty; cbn; auto|exact Hl]).
  Qed.
  Lemma sim_transaction : sim P Q alike (p_transaction E I po) (p_transaction E J po').
  Proof.
    unfold p_transaction. eapply sim_validate; [|apply alike_make]. eapply sim_bind; [apply sim_transaction_header|]. intros h h' Hh.
    eapply sim_bind; [apply sim_spn, sim_metadata|]. intros m m' Hm.
    eapply sim_bind; [apply sim_rep; apply sim_indented; apply sim_posting|]. intros l l' Hl. apply sim_ret.
    destruct h as [[[d f] [p n]] tl], h' as [[[d' f'] [p' n']] tl'], Hh as (H1 & H2 & H3 & H4 & H5). cbn in *.
    split; [exact H1|]. split; [constructor; assumption|]. split; [exact H5|exact Hm].
  Qed.

  (** ** The other directives *)
  Lemma sim_line k v v' : sim P P alike_variant v v' -> sim P Q alike (p_line E I po k v) (p_line E J po' k v').
  Proof.
    intro H. unfold p_line. eapply sim_validate; [|apply alike_make]. eapply sim_bind; [apply sim_same, sim_date|]. intros d d' Hd. eapply sim_bind; [one|]. intros _ _ _.
    eapply sim_bind; [exact H|]. intros x x' Hx. eapply sim_bind; [apply sim_tags_links|]. intros l l' Hl. eapply sim_bind; [apply sim_eol|]. intros _ _ _.
    eapply sim_bind; [apply sim_spn, sim_metadata|]. intros m m' Hm. apply sim_ret. split; [exact Hd|]. split; [exact Hx|]. split; [exact Hl|exact Hm].
  Qed.
  Lemma sim_currency_list : sim P P (Forall2 same_item) (p_currency_list I) (p_currency_list J).
  Proof.
    unfold p_currency_list. eapply sim_map.
    - apply sim_maybe. eapply sim_validate with (Q := fun x y : spanned str * list (spanned str) => same_item (fst x) (fst y) /\ Forall2 same_item (snd x) (snd y)).
      + eapply sim_bind; [apply sim_same, sim_currency|]. intros c c' Hc. eapply sim_bind.
        * apply sim_rep with (T := same_item). eapply sim_bind; [one|]. intros _ _ _. apply sim_same, sim_currency.
        * intros l l' Hl. apply sim_ret. split; assumption.
      + intros [f l] [f' l'] [Hf Hl]. cbn in Hf, Hl.
        destruct (alike_insert_all DuplicateCurrency (l ++ [f]) (l' ++ [f'])) with (s := (@nil (spanned str), @nil report)) (s' := (@nil (spanned str), @nil report)) as [A B];
          [apply Forall2_app; auto|split; [constructor|reflexivity]|].
        split; [exact A|]. unfold same_saids. rewrite B. apply Permutation_refl.
    - intros [a|] [b|] H; cbn in H; try contradiction; [exact H|constructor].
  Qed.
  Lemma sim_others : Forall2 (sim P Q alike)
    [p_price E I po; p_balance E I po; p_open E I po; p_close E I po; p_commodity E I po; p_pad E I po; p_document E I po; p_note E I po; p_event E I po; p_query E I po; p_custom E I po]
    [p_price E J po'; p_balance E J po'; p_open E J po'; p_close E J po'; p_commodity E J po'; p_pad E J po'; p_document E J po'; p_note E J po'; p_event E J po'; p_query E J po'; p_custom E J po'].
  Proof.
    repeat apply Forall2_cons; [..|constructor].
    - apply sim_line. eapply sim_bind; [apply sim_same, sim_currency|]. intros c c' Hc. eapply sim_bind; [apply sim_spn, sim_amount|]. intros a a' Ha. apply sim_ret. constructor; assumption.
    - apply sim_line. eapply sim_bind; [apply sim_same, sim_account|]. intros c c' Hc. eapply sim_bind; [apply sim_spn, sim_amount_with_tolerance|]. intros a a' Ha. apply sim_ret. constructor; assumption.
    - apply sim_line. eapply sim_bind; [apply sim_same, sim_account|]. intros c c' Hc. eapply sim_bind; [apply sim_currency_list|]. intros l l' Hl.
      eapply sim_bind; [apply sim_maybe, sim_same, sim_booking|]. intros b b' Hb. apply sim_ret. constructor; [assumption|apply forall2_elements; assumption|assumption].
    - apply sim_line. eapply sim_map; [apply sim_same, sim_account|]. intros. constructor. assumption.
    - apply sim_line. eapply sim_map; [apply sim_same, sim_currency|]. intros. constructor. assumption.
    - apply sim_line. eapply sim_bind; [apply sim_same, sim_account|]. intros c c' Hc. eapply sim_bind; [apply sim_same, sim_account|]. intros a a' Ha. apply sim_ret. constructor; assumption.
    - apply sim_line. eapply sim_bind; [apply sim_same, sim_account|]. intros c c' Hc. eapply sim_bind; [apply sim_same, sim_string|]. intros a a' Ha. apply sim_ret. constructor; assumption.
    - apply sim_line. eapply sim_bind; [apply sim_same, sim_account|]. intros c c' Hc. eapply sim_bind; [apply sim_same, sim_string|]. intros a a' Ha. apply sim_ret. constructor; assumption.
    - apply sim_line. eapply sim_bind; [apply sim_same, sim_string|]. intros c c' Hc. eapply sim_bind; [apply sim_same, sim_string|]. intros a a' Ha. apply sim_ret. constructor; assumption.
    - apply sim_line. eapply sim_bind; [apply sim_same, sim_string|]. intros c c' Hc. eapply sim_bind; [apply sim_same, sim_string|]. intros a a' Ha. apply sim_ret. constructor; assumption.
    - unfold p_custom. eapply sim_bind; [apply sim_same, sim_date|]. intros d d' Hd. eapply sim_bind; [one|]. intros _ _ _. eapply sim_bind; [apply sim_same, sim_string|]. intros t t' Ht.
      eapply sim_bind; [apply sim_rep, sim_spn, sim_meta_value|]. intros l l' Hl. eapply sim_bind; [apply sim_eol|]. intros _ _ _.
      eapply sim_bind; [apply sim_spn, sim_metadata|]. intros m m' Hm. apply sim_ret. constructor; cbn; [exact Hd|apply step_alike; exact Hm|constructor; assumption].
  Qed.
  Lemma sim_directive : sim P Q alike (p_directive E I po) (p_directive E J po').
  Proof.
    unfold p_directive. apply sim_choice. repeat apply Forall2_cons; [apply sim_transaction| |constructor]. apply sim_choice. apply sim_others.
  Qed.

  (** ** Pragmas *)
  Lemma sim_pushtag : sim P P (alike_pragma K) (p_pushtag E I) (p_pushtag E J).
  Proof. eapply sim_map; [apply sim_same; eqs|]. intros. constructor. assumption. Qed.
  Lemma sim_poptag : sim P P (alike_pragma K) (p_poptag E I) (p_poptag E J).
  Proof. eapply sim_map; [apply sim_same; eqs|]. intros. constructor. assumption. Qed.
  Lemma sim_pushmeta : sim P P (alike_pragma K) (p_pushmeta E I po) (p_pushmeta E J po').
  Proof.
    eapply sim_map; [eapply sim_bind; [one|intros _ _ _; apply sim_meta_key_value]|]. intros a a' [A B]. constructor; assumption.
  Qed.
  Lemma sim_popmeta : sim P P (alike_pragma K) (p_popmeta E I) (p_popmeta E J).
  Proof. eapply sim_map; [apply sim_same; eqs|]. intros. constructor. assumption. Qed.
  Lemma sim_include : sim P P (alike_pragma K) (p_include I po) (p_include J po').
  Proof. eapply sim_map; [eapply sim_bind; [one|intros _ _ _; apply sim_same, sim_string]|]. intros. constructor. assumption. Qed.
  Lemma sim_plugin : sim P P (alike_pragma K) (p_plugin I po) (p_plugin J po').
  Proof.
    eapply sim_map with (Q := alike_plugin); [|intros; constructor; assumption]. eapply sim_bind; [one|]. intros _ _ _. eapply sim_bind; [apply sim_same, sim_string|]. intros m m' Hm.
    eapply sim_bind; [apply sim_maybe, sim_same, sim_string|]. intros c c' Hc. apply sim_ret. split; assumption.
  Qed.
  Lemma sim_option_tokens : sim P P (fun x y => same_item (fst x) (fst y) /\ same_item (snd x) (snd y)) (p_option_tokens I po) (p_option_tokens J po').
  Proof.
    unfold p_option_tokens. eapply sim_bind; [one|]. intros _ _ _. eapply sim_bind; [apply sim_same, sim_string|]. intros m m' Hm.
    eapply sim_bind; [apply sim_same, sim_string|]. intros c c' Hc. apply sim_ret. split; assumption.
  Qed.
End Grammar.
