(** * What the parsers read is what the specification says *)
From Coq Require Import String Ascii.
From Coq Require Import List NArith Arith Bool Lia Permutation.
From Verif Require Import Base BaseFacts Types SpecTypes TypesFacts P_Types Options Decimal SpecDecimal P_Expr Cost SpecCost P_Cost
  Token Peg Grammar SpecGrammar PegFacts ExprFacts DedupFacts.
Import ListNotations.
Local Open Scope nat_scope.

(** Take a successful run apart. *)
Ltac got_step :=
  match goal with
  | H : bind _ _ _ = Got _ _ _ _ |- _ =>
      let P := fresh "P" in let Q := fresh "Q" in
      apply bind_got in H; destruct H as (? & ? & ? & ? & ? & ? & P & Q & ? & ?)
  | H : pmap _ _ _ = Got _ _ _ _ |- _ => apply pmap_got in H; destruct H as (? & H & ?)
  | H : pmap_out _ _ _ = Got _ _ _ _ |- _ => apply pmap_out_got in H; destruct H as (? & H & ?)
  | H : try_map _ _ _ = Got _ _ _ _ |- _ => apply try_map_got in H; destruct H as (? & H & ?)
  | H : validate _ _ _ = Got _ _ _ _ |- _ => apply validate_got in H; destruct H as (? & ? & ? & H & ? & ?)
  | H : ret _ _ = Got _ _ _ _ |- _ => unfold ret in H; injection H; clear H; intros
  | H : just _ _ _ = Got _ _ _ _ |- _ => apply just_got in H; destruct H as (H & ? & ? & ? & ?)
  | H : keyword_ _ _ _ = Got _ _ _ _ |- _ => unfold keyword_ in H
  | H : opt _ _ = Got _ _ _ _ |- _ => apply opt_got in H; destruct H as [(? & H & ?)|(H & ? & ? & ?)]
  end.
Ltac got := repeat (got_step; subst).

(** The alternatives of a choice. *)
Ltac pick H := apply choice_got in H;
  let q := fresh "q" in let w := fresh "w" in let IN := fresh "IN" in
  destruct H as (q & w & IN & H); cbn [In] in IN;
  repeat (destruct IN as [<-|IN]; [|]); try contradiction.

Lemma select_tok {A} I (f : token -> option A) i a j ws es :
  sel I f i = Got a j ws es -> exists t, tok I i t /\ f t = Some a /\ j = S i /\ ws = [] /\ es = [].
Proof.
  intro H. apply select_got in H. destruct H as ((t & r & H & F) & -> & -> & ->).
  exists t. repeat split; auto. exists r. exact H.
Qed.

Section Sound.
  Context (E : grammar_env) (I : input) (po : parser_options) (names : account_type -> list N)
          (U_ok : unicode_ok (g_unicode E)) (Hn : named (po_names po) names)
          (Hl : forall t, account_type_name_lang (g_unicode E) (names t)).

  Definition sounds {A} (p : parser A) (R : nat -> nat -> A -> Prop) : Prop :=
    forall i a j ws es, p i = Got a j ws es -> silent R i j a es.

  Lemma spn_got {A} (p : parser A) i x j ws es : spn I p i = Got x j ws es ->
    p i = Got (item x) j ws es /\ span_of x = text I i j.
  Proof.
    unfold spn, sp, map_span. destruct (p i); try discriminate. intro H. injection H as <- <- <- <-. auto.
  Qed.

  Lemma spn_sounds {A} (p : parser A) R : sounds p R -> sounds (spn I p) (written I R).
  Proof.
    intros P i a j ws es H. apply spn_got in H. destruct H as [H T]. apply P in H. destruct H as [H ->].
    split; [split; assumption|reflexivity].
  Qed.

  Lemma eol_sounds i a j ws es : eol I i = Got a j ws es -> line_end I i j /\ es = [] /\ ws = [].
  Proof.
    intro H. unfold eol in H. cbn in H. apply alt_got in H. destruct H as [H|(w1 & w2 & N & H & ->)].
    - got. split; [constructor; assumption|auto].
    - unfold at_end in H. destruct (nth_error (in_tokens I) i) eqn:X; [discriminate|].
      injection H as <- <- <- <-. split; [apply line_end_input; exact X|]. split; [reflexivity|].
      unfold pmap, bind in N. unfold just, sel, select in N. rewrite X in N. injection N as <-. reflexivity.
  Qed.

  (** ** Leaves *)

  Ltac leaf := let H := fresh in intros i a j ws es H; got;
    match goal with H : sel _ _ _ = Got _ _ _ _ |- _ => apply select_tok in H; destruct H as (t & T & F & -> & -> & ->); destruct t; try discriminate; injection F as <- end;
    split; [|reflexivity].

  Lemma p_account_sounds : sounds (p_account E I po) (account_at E I names).
  Proof.
    unfold p_account. leaf. injection H0 as H0.
    apply (C16_account_new _ _ names _ _ U_ok Hn Hl) in H0. destruct H0 as (t & ws' & -> & F & ->). constructor; assumption.
  Qed.
  Lemma p_tag_sounds : sounds (p_tag E I) (tag_at E I).
  Proof. unfold p_tag. leaf. injection H0 as H0. apply C17_tag_link in H0. destruct H0 as [-> L]. constructor; assumption. Qed.
  Lemma p_link_sounds : sounds (p_link E I) (link_at E I).
  Proof. unfold p_link. leaf. injection H0 as H0. apply C17_tag_link in H0. destruct H0 as [-> L]. constructor; assumption. Qed.
  Lemma p_key_sounds : sounds (p_key E I) (key_at E I).
  Proof. unfold p_key. leaf. injection H0 as H0. apply C17_key in H0. destruct H0 as [-> L]. constructor; assumption. Qed.
  Lemma p_currency_sounds : sounds (p_currency I) (currency_at I).
  Proof. unfold p_currency. leaf. apply C18_accepts in H0. destruct H0 as [-> L]. constructor; assumption. Qed.
  Lemma p_date_sounds : sounds (p_date I) (date_at I).
  Proof. unfold p_date. leaf. constructor; assumption. Qed.
  Lemma p_decimal_sounds : sounds (p_decimal I) (number_at I).
  Proof. unfold p_decimal. leaf. constructor; assumption. Qed.
  Lemma p_string_sounds : sounds (p_string I po) (string_at I).
  Proof.
    intros i a j ws es H. unfold p_string in H.
    destruct (spn I _ i) as [x k w e| | |] eqn:S; try discriminate. injection H as <- <- <- <-.
    apply spn_got in S. destruct S as [S _]. apply select_tok in S. destruct S as (t & T & F & -> & -> & ->).
    destruct t; try discriminate. injection F as <-. split; [|reflexivity]. constructor. exact T.
  Qed.
  Lemma p_bool_sounds : sounds (p_bool I) (bool_at I).
  Proof. intros i a j ws es H. unfold p_bool in H. pick H; got; (split; [constructor; assumption|reflexivity]). Qed.
  Lemma p_flag_sounds : sounds (p_flag I) (flag_at I).
  Proof.
    intros i a j ws es H. unfold p_flag in H. pick H; got; try (split; [constructor; assumption|reflexivity]).
    apply select_tok in H. destruct H as (t & T & F & -> & -> & ->). destruct t; try discriminate. injection F as <-.
    split; [constructor; assumption|reflexivity].
  Qed.
  Lemma p_txn_sounds : sounds (p_txn I) (txn_at I).
  Proof.
    intros i a j ws es H. unfold p_txn in H. pick H; got; try (split; [constructor; assumption|reflexivity]).
    apply p_flag_sounds in H. destruct H as [H ->]. split; [constructor; assumption|reflexivity].
  Qed.
  Lemma booking_try_from_name s b : booking_try_from s = Some b <-> s = booking_name b.
  Proof.
    unfold booking_try_from. split.
    - intro H. apply lookup_In in H. destruct H as (k & Ik & Ek). apply str_eqb_eq in Ek. subst k.
      cbn in Ik. repeat (destruct Ik as [X|Ik]; [injection X as <- <-; reflexivity|]). destruct Ik.
    - intros ->. destruct b; vm_compute; reflexivity.
  Qed.
  Lemma p_booking_sounds : sounds (p_booking I po) (booking_at I).
  Proof.
    intros i a j ws es H. unfold p_booking in H. got. apply p_string_sounds in H. destruct H as [H ->].
    destruct (booking_try_from x) eqn:B; [|discriminate]. injection H0 as ->. apply booking_try_from_name in B. subst x.
    inversion H; subst. split; [constructor; assumption|reflexivity].
  Qed.

  (** ** Expressions and amounts *)

  Lemma expr_value_worth e v : expr_value_from (g_ops E) e = Fine v <-> worth (g_ops E) v /\ ev_expr v = e.
  Proof.
    rewrite C20_evaluates_tree. unfold worth. split.
    - intros (d & s & C & M & X & Y). split; [|exact Y]. exists d, s. rewrite Y. auto.
    - intros [(d & s & C & M & X) Y]. rewrite Y in *. exists d, s. auto.
  Qed.
  Lemma p_expr_value_sounds : sounds (p_expr_value E I) (value_at E I).
  Proof.
    intros i a j ws es H. unfold p_expr_value in H. got. pose proof (p_expr_plain I i) as Pl. rewrite H in Pl.
    apply p_expr_sound in H. apply expr_value_worth in H0. destruct H0 as [W X]. destruct Pl as [_ ->].
    split; [|reflexivity]. split; [rewrite X; exact H|exact W].
  Qed.

  Ltac use :=
    repeat match goal with
    | H : spn I (p_account E I po) _ = Got _ _ _ _ |- _ => apply (spn_sounds _ _ p_account_sounds) in H; destruct H as [H ?]
    | H : spn I (p_tag E I) _ = Got _ _ _ _ |- _ => apply (spn_sounds _ _ p_tag_sounds) in H; destruct H as [H ?]
    | H : spn I (p_link E I) _ = Got _ _ _ _ |- _ => apply (spn_sounds _ _ p_link_sounds) in H; destruct H as [H ?]
    | H : spn I (p_key E I) _ = Got _ _ _ _ |- _ => apply (spn_sounds _ _ p_key_sounds) in H; destruct H as [H ?]
    | H : spn I (p_currency I) _ = Got _ _ _ _ |- _ => apply (spn_sounds _ _ p_currency_sounds) in H; destruct H as [H ?]
    | H : spn I (p_date I) _ = Got _ _ _ _ |- _ => apply (spn_sounds _ _ p_date_sounds) in H; destruct H as [H ?]
    | H : spn I (p_decimal I) _ = Got _ _ _ _ |- _ => apply (spn_sounds _ _ p_decimal_sounds) in H; destruct H as [H ?]
    | H : spn I (p_string I po) _ = Got _ _ _ _ |- _ => apply (spn_sounds _ _ p_string_sounds) in H; destruct H as [H ?]
    | H : spn I (p_flag I) _ = Got _ _ _ _ |- _ => apply (spn_sounds _ _ p_flag_sounds) in H; destruct H as [H ?]
    | H : spn I (p_txn I) _ = Got _ _ _ _ |- _ => apply (spn_sounds _ _ p_txn_sounds) in H; destruct H as [H ?]
    | H : spn I (p_booking I po) _ = Got _ _ _ _ |- _ => apply (spn_sounds _ _ p_booking_sounds) in H; destruct H as [H ?]
    | H : spn I (p_expr_value E I) _ = Got _ _ _ _ |- _ => apply (spn_sounds _ _ p_expr_value_sounds) in H; destruct H as [H ?]
    | H : p_account E I po _ = Got _ _ _ _ |- _ => apply p_account_sounds in H; destruct H as [H ?]
    | H : p_tag E I _ = Got _ _ _ _ |- _ => apply p_tag_sounds in H; destruct H as [H ?]
    | H : p_link E I _ = Got _ _ _ _ |- _ => apply p_link_sounds in H; destruct H as [H ?]
    | H : p_key E I _ = Got _ _ _ _ |- _ => apply p_key_sounds in H; destruct H as [H ?]
    | H : p_currency I _ = Got _ _ _ _ |- _ => apply p_currency_sounds in H; destruct H as [H ?]
    | H : p_date I _ = Got _ _ _ _ |- _ => apply p_date_sounds in H; destruct H as [H ?]
    | H : p_decimal I _ = Got _ _ _ _ |- _ => apply p_decimal_sounds in H; destruct H as [H ?]
    | H : p_string I po _ = Got _ _ _ _ |- _ => apply p_string_sounds in H; destruct H as [H ?]
    | H : p_bool I _ = Got _ _ _ _ |- _ => apply p_bool_sounds in H; destruct H as [H ?]
    | H : p_expr_value E I _ = Got _ _ _ _ |- _ => apply p_expr_value_sounds in H; destruct H as [H ?]
    | H : eol I _ = Got _ _ _ _ |- _ => apply eol_sounds in H; destruct H as (H & ? & ?)
    end; subst.
  Ltac done := split; [econstructor; eassumption|reflexivity].

  Lemma p_amount_sounds : sounds (p_amount E I) (amount_at E I).
  Proof. intros i a j ws es H. unfold p_amount in H. got. use. done. Qed.

  Lemma p_amount_with_tolerance_sounds : sounds (p_amount_with_tolerance E I) (amount_tol_at E I).
  Proof.
    intros i a j ws es H. unfold p_amount_with_tolerance in H. pick H.
    - got. apply (spn_sounds _ _ p_amount_sounds) in H. destruct H as [H ->]. done.
    - unfold map_span in H. match type of H with match ?p with _ => _ end = _ => destruct p as [[[n t] c] k w' e| | |] eqn:P; try discriminate end.
      injection H as <- <- <- <-. got. use. split; [|reflexivity].
      change (span_at (in_source I) (in_tokens I) (in_len I) i k) with (text I i k). econstructor; eassumption.
  Qed.

  Lemma p_compound_expr_sounds : sounds (p_compound_expr E I) (compound_expr_at E I).
  Proof.
    intros i a j ws es H. unfold p_compound_expr in H. pick H; got; use.
    - done.
    - split; [|reflexivity]. apply compound_per_unit_hash; assumption.
    - split; [|reflexivity]. apply compound_per_unit; assumption.
    - split; [|reflexivity]. apply compound_total; assumption.
  Qed.

  Lemma p_compound_amount_sounds : sounds (p_compound_amount E I) (compound_amount_at E I).
  Proof.
    intros i a j ws es H. unfold p_compound_amount in H. pick H; got; use.
    - apply p_compound_expr_sounds in P. destruct P as [P ->]. done.
    - apply p_compound_expr_sounds in H. destruct H as [H ->]. split; [|reflexivity]. apply compound_bare; assumption.
    - split; [|reflexivity]. apply compound_hash_currency; assumption.
    - split; [|reflexivity]. apply compound_currency; assumption.
  Qed.

  Lemma p_price_annotation_sounds : sounds (p_price_annotation E I) (price_at E I).
  Proof.
    intros i a j ws es H. unfold p_price_annotation in H. got;
      match goal with H : choice _ _ = Got _ _ _ _ |- _ => pick H; got end; use; (split; [|reflexivity]);
      try (eapply price_both; [constructor; eassumption|eassumption|eassumption]);
      try (eapply price_amount; [constructor; eassumption|eassumption]);
      try (eapply price_currency; [constructor; eassumption|eassumption]);
      try (eapply price_bare; constructor; eassumption).
  Qed.

  Lemma p_cost_comp_sounds : sounds (p_cost_comp E I po) (cost_comp_at E I).
  Proof.
    intros i a j ws es H. unfold p_cost_comp in H. pick H; got; use; try done.
    apply p_compound_amount_sounds in H. destruct H as [H ->]. done.
  Qed.

  (** What [repeated] reads. *)
  Lemma rep_star {A} (p : parser A) (R : nat -> nat -> A -> list report -> Prop) i l k ws es :
    (forall i a j ws es, p i = Got a j ws es -> R i j a es) ->
    rep I p i = Got l k ws es -> star R i k l es.
  Proof.
    intros H M. unfold rep, many in M. apply many_n_got in M. destruct M as [M _].
    eapply star_impl; [|exact M]. intros i' j' a' es' [w X]. eapply H. exact X.
  Qed.
  Lemma star_silent {A} (R : nat -> nat -> A -> Prop) i j l es : star (silent R) i j l es -> es = [].
  Proof.
    induction 1 as [|i j k a l es es' [_ ->] _ IH]; [reflexivity|]. rewrite IH. reflexivity.
  Qed.
  Lemma rep_sounds {A} (p : parser A) R : sounds p R -> forall i l k ws es,
    rep I p i = Got l k ws es -> star (silent R) i k l [] /\ es = [].
  Proof.
    intros P i l k ws es H. apply (rep_star _ (silent R)) in H; [|exact P].
    pose proof (star_silent _ _ _ _ _ H) as ->. auto.
  Qed.

  (** Things with commas between them. *)
  Lemma comma_sounds {A} (p : parser A) R : sounds p R -> forall i l k ws es,
    rep I (just I T_Comma ;; p) i = Got l k ws es ->
    star (silent (fun i j a => tok I i T_Comma /\ R (S i) j a)) i k l [] /\ es = [].
  Proof.
    intros P i l k ws es H. apply rep_sounds with (R := fun i j a => tok I i T_Comma /\ R (S i) j a) in H; [exact H|].
    clear - P. intros i a j ws es H. got. apply P in Q. destruct Q as [Q ->]. split; [split; assumption|reflexivity].
  Qed.
  Lemma separated_of_star {A} (R : nat -> nat -> A -> Prop) : forall j k l es,
    star (silent (fun i j a => tok I i T_Comma /\ R (S i) j a)) j k l es ->
    forall i x, R i j x -> separated I R i k (x :: l).
  Proof.
    induction 1 as [j|i j k a l es es' [[T X] _] _ IH]; intros i0 x Hx.
    - constructor. exact Hx.
    - eapply separated_more; [exact Hx|exact T|]. apply IH. exact X.
  Qed.

  Lemma p_cost_spec_sounds : sounds (p_cost_spec E I po) (cost_at E I).
  Proof.
    intros i a j ws es H. unfold p_cost_spec in H. got.
    - injection H0 as H0. apply C24_accepts in H0. cbn [comps_of] in H0.
      match goal with H : spn I _ _ = Got _ _ _ _ |- _ => apply (spn_sounds _ _ p_cost_comp_sounds) in H; destruct H as [H ->] end.
      match goal with H : rep I _ _ = Got _ _ _ _ |- _ => apply (comma_sounds _ _ (spn_sounds _ _ p_cost_comp_sounds)) in H; destruct H as [H ->] end.
      split; [|reflexivity]. eapply cost_; [eassumption| |eassumption|exact H0].
      eapply separated_of_star; eassumption.
    - assert (C : cost_of None = Ok a) by congruence. apply C24_accepts in C. split; [|reflexivity]. apply cost_empty; assumption.
  Qed.

  (** ** Metadata *)

  Lemma p_simple_value_sounds : sounds (p_simple_value E I po) (simple_value_at E I names).
  Proof.
    intros i a j ws es H. unfold p_simple_value in H. pick H; got; use; done.
  Qed.
  Lemma p_meta_value_sounds : sounds (p_meta_value E I po) (meta_value_at E I names).
  Proof.
    intros i a j ws es H. unfold p_meta_value in H. pick H; got.
    - apply p_amount_sounds in H. destruct H as [H ->]. done.
    - apply p_simple_value_sounds in H. destruct H as [H ->]. split; [|reflexivity]. apply meta_simple. exact H.
  Qed.
  Lemma p_meta_key_value_sounds : sounds (p_meta_key_value E I po) (key_value_at E I names).
  Proof.
    intros i a j ws es H. unfold p_meta_key_value in H. got. use. apply spn_got in P1. destruct P1 as [P1 S]. got.
    - match goal with H : item _ = _ |- _ => rewrite H end. apply p_meta_value_sounds in P1. destruct P1 as [P1 ->]. split; [|reflexivity].
      eapply key_value_; [eassumption|eassumption|]. split; [exact P1|exact S].
    - match goal with H : item _ = _ |- _ => rewrite H end. split; [|reflexivity]. rewrite S. eapply key_null; eassumption.
  Qed.

  Lemma p_metadatum_line_sounds : sounds (p_metadatum_line E I po) (metadata_line E I names).
  Proof.
    intros i a j ws es H. unfold p_metadatum_line in H. got. use. pick P0; got; use.
    - apply (spn_sounds _ _ p_meta_key_value_sounds) in P0. destruct P0 as [P0 ->].
      split; [|reflexivity]. econstructor; [eassumption|apply metadatum_key_value; eassumption|eassumption].
    - split; [|reflexivity]. econstructor; [eassumption|apply metadatum_mark, mark_tag; eassumption|eassumption].
    - split; [|reflexivity]. econstructor; [eassumption|apply metadatum_mark, mark_link; eassumption|eassumption].
  Qed.

  Lemma p_metadata_sounds i a j ws es : spn I (p_metadata E I po) i = Got a j ws es -> metadata_at E I names i j a es.
  Proof.
    intro H. apply spn_got in H. destruct H as [H S]. unfold p_metadata in H. got.
    apply (rep_sounds _ _ p_metadatum_line_sounds) in H. destruct H as [H ->].
    destruct (fold_collects x) as (md & es & F & C). rewrite F in H0. injection H0 as -> ->.
    econstructor; eauto.
  Qed.

  (** ** Tags and links of the first line *)

  Definition mark_of_sum_at (i j : nat) (x : spanned (list N) + spanned (list N)) : Prop := mark_at E I i j (of_sum x).

  Lemma star_map {A B} (f : A -> B) (R : nat -> nat -> B -> Prop) i j l es :
    star (silent (fun i j a => R i j (f a))) i j l es -> star (silent R) i j (map f l) es.
  Proof.
    induction 1 as [|i j k a l es es' [H ->] _ IH]; cbn [map]; [constructor|].
    eapply star_cons; [split; [exact H|reflexivity]|exact IH].
  Qed.

  Lemma p_tags_links_sounds i a j ws es : p_tags_links E I i = Got a j ws es ->
    exists marks kept again, star (silent (mark_at E I)) i j marks [] /\
      dedup metadatum_label [] marks kept again /\ a = (tags_in kept, links_in kept) /\
      es = map (repeated metadatum_label metadatum_place) again.
  Proof.
    intro H. unfold p_tags_links in H. got.
    apply rep_sounds with (R := fun i j x => mark_at E I i j (of_sum x)) in H.
    - destruct H as [H ->]. apply star_map in H.
      destruct (dedup_total metadatum_label (map of_sum x) []) as (kept & again & D).
      exists (map of_sum x), kept, again. split; [exact H|]. split; [exact D|].
      pose proof (tags_links_fold x [] [] [] [] kept again D) as F. fold tags_links_step in H0. rewrite F in H0.
      + cbn [app] in H0. injection H0 as <- <-. auto.
      + intro p. cbn. tauto.
    - clear. intros i a j ws es H. pick H; got; use; (split; [constructor; assumption|reflexivity]).
  Qed.

  Context (order_ok : forall l, Permutation l (g_order E l)).

  Lemma nodup_order l : NoDup (map item l) -> NoDup (map item (g_order E l)).
  Proof. intro N. eapply Permutation_NoDup; [|exact N]. apply Permutation_map. apply order_ok. Qed.

  Lemma merged_joined md marks kept again : dedup metadatum_label [] marks kept again ->
    exists md' es, merged E md (tags_in kept, links_in kept) = (md', es) /\
      joined E md marks md' (map (repeated metadatum_label metadatum_place) again) es.
  Proof.
    intro D. destruct (dedup_kept _ _ _ _ _ D) as (N & _). unfold merged. cbn [fst snd].
    destruct (merges_fold DuplicateTag ltac:(congruence) (g_order E (tags_in kept)) (md_tags (item md))) as (t & e1 & F1 & M1).
    { apply nodup_order, tags_in_nodup. exact N. }
    destruct (merges_fold DuplicateLink ltac:(congruence) (g_order E (links_in kept)) (md_links (item md))) as (k & e2 & F2 & M2).
    { apply nodup_order, links_in_nodup. exact N. }
    rewrite F1, F2. do 2 eexists. split; [reflexivity|]. econstructor; eassumption.
  Qed.

  (** ** Postings *)

  Lemma opt_sounds {A} (p : parser A) R : sounds p R -> forall i a j ws es,
    opt p i = Got a j ws es -> maybe R i j a /\ es = [].
  Proof.
    intros P i a j ws es H. got.
    - apply P in H. destruct H as [H ->]. split; [constructor; exact H|reflexivity].
    - split; [constructor|reflexivity].
  Qed.
  Lemma spn_opt_sounds {A} (p : parser A) R : sounds p R -> forall i a j ws es,
    pmap spanned_option (spn I (opt p)) i = Got a j ws es -> maybe (written I R) i j a /\ es = [].
  Proof.
    intros P i a j ws es H. got. apply spn_got in H. destruct H as [H S]. unfold spanned_option. got; match goal with H : item _ = _ |- _ => rewrite H end.
    - apply P in H. destruct H as [H ->]. split; [|reflexivity]. constructor. split; [exact H|exact S].
    - split; [constructor|reflexivity].
  Qed.

  Ltac use' := use;
    repeat match goal with
    | H : opt (spn I (p_flag I)) _ = Got _ _ _ _ |- _ => apply (opt_sounds _ _ (spn_sounds _ _ p_flag_sounds)) in H; destruct H as [H ?]
    | H : opt (spn I (p_expr_value E I)) _ = Got _ _ _ _ |- _ => apply (opt_sounds _ _ (spn_sounds _ _ p_expr_value_sounds)) in H; destruct H as [H ?]
    | H : opt (spn I (p_currency I)) _ = Got _ _ _ _ |- _ => apply (opt_sounds _ _ (spn_sounds _ _ p_currency_sounds)) in H; destruct H as [H ?]
    | H : opt (spn I (p_booking I po)) _ = Got _ _ _ _ |- _ => apply (opt_sounds _ _ (spn_sounds _ _ p_booking_sounds)) in H; destruct H as [H ?]
    | H : pmap spanned_option (spn I (opt (p_cost_spec E I po))) _ = Got _ _ _ _ |- _ => apply (spn_opt_sounds _ _ p_cost_spec_sounds) in H; destruct H as [H ?]
    | H : pmap spanned_option (spn I (opt (p_price_annotation E I))) _ = Got _ _ _ _ |- _ => apply (spn_opt_sounds _ _ p_price_annotation_sounds) in H; destruct H as [H ?]
    | H : spn I (p_metadata E I po) _ = Got _ _ _ _ |- _ => apply p_metadata_sounds in H
    end; subst.

  (** Like [got], without looking into [opt] and [pmap]. *)
  Ltac seq := repeat match goal with
    | H : bind _ _ _ = Got _ _ _ _ |- _ =>
        apply bind_got in H; destruct H as (? & ? & ? & ? & ? & ? & ? & H & ? & ?); subst
    | H : ret _ _ = Got _ _ _ _ |- _ => unfold ret in H; injection H; clear H; intros; subst
    | H : just _ _ _ = Got _ _ _ _ |- _ => apply just_got in H; destruct H as (H & ? & ? & ? & ?); subst
    | H : keyword_ _ _ _ = Got _ _ _ _ |- _ => unfold keyword_ in H
    end.

  Lemma p_posting_sounds i a j ws es : p_posting E I po i = Got a j ws es -> posting_at E I names i j a es.
  Proof.
    intro H. unfold p_posting in H. seq.
    match goal with H : spn I (bind _ _) _ = Got _ _ _ _ |- _ => apply spn_got in H; destruct H as [H ->] end.
    seq. use'. cbn [app].
    match goal with H : _ = item _ |- _ => rewrite <- H end.
    rewrite ?app_nil_r. econstructor; eassumption.
  Qed.

  (** ** Directives *)

  Lemma some_nonempty_spec s : unless_empty s (some_nonempty (Some s)).
  Proof. unfold some_nonempty. destruct (item s) eqn:X; constructor; congruence. Qed.

  Lemma strings_sounds i s1 j w e s2 k w' e' :
    opt (spn I (p_string I po)) i = Got s1 j w e -> opt (spn I (p_string I po)) j = Got s2 k w' e' ->
    exists strings, star (silent (written I (string_at I))) i k strings [] /\
      titles strings
        (fst (let '(payee, narration) := match s1, s2 with Some s, None => (None, Some s) | _, _ => (s1, s2) end in
              (some_nonempty payee, some_nonempty narration)))
        (snd (let '(payee, narration) := match s1, s2 with Some s, None => (None, Some s) | _, _ => (s1, s2) end in
              (some_nonempty payee, some_nonempty narration))) /\ e = [] /\ e' = [].
  Proof.
    intros H1 H2.
    apply opt_got in H1. destruct H1 as [(a & H1 & ->)|(H1 & -> & -> & ->)];
    apply opt_got in H2; destruct H2 as [(b & H2 & ->)|(H2 & -> & -> & ->)]; cbn [fst snd].
    - apply (spn_sounds _ _ p_string_sounds) in H1, H2. destruct H1 as [H1 ->], H2 as [H2 ->].
      exists [a; b]. split; [|split; [constructor; apply some_nonempty_spec|auto]].
      apply (star_cons _ i j k a [b] [] []); [split; [exact H1|reflexivity]|].
      apply (star_cons _ j k k b [] [] []); [split; [exact H2|reflexivity]|constructor].
    - apply (spn_sounds _ _ p_string_sounds) in H1. destruct H1 as [H1 ->].
      exists [a]. split; [|split; [constructor; apply some_nonempty_spec|auto]].
      apply (star_cons _ i j j a [] [] []); [split; [exact H1|reflexivity]|constructor].
    - congruence.
    - exists []. split; [constructor|]. split; [constructor|auto].
  Qed.

  Lemma p_transaction_sounds i a j ws es : p_transaction E I po i = Got a j ws es -> directive_at E I names i j a es.
  Proof.
    intro H. unfold p_transaction in H. apply validate_got in H. destruct H as (x & es1 & es2 & H & F & ->).
    seq. unfold p_transaction_header in *. seq.
    match goal with H : p_tags_links E I _ = _ |- _ => apply p_tags_links_sounds in H;
      destruct H as (marks & kept & again & M & D & -> & ->) end.
    match goal with H : rep I (p_posting E I po) _ = _ |- _ => apply (rep_star _ (posting_at E I names)) in H; [|exact p_posting_sounds] end.
    match goal with H1 : opt (spn I (p_string I po)) ?x = Got _ ?y _ _, H2 : opt (spn I (p_string I po)) ?y = Got _ _ _ _ |- _ =>
      destruct (strings_sounds _ _ _ _ _ _ _ _ _ H1 H2) as (strings & St & T & -> & ->); clear H1 H2 end.
    use'.
    match goal with H : metadata_at E I names _ _ ?md _ |- _ => destruct (merged_joined md _ _ _ D) as (md' & es' & Mg & J) end.
    match type of F with context [match ?m with (payee, narration) => (some_nonempty payee, _) end] => destruct m as [p n] eqn:PN end.
    cbn [fst snd make] in F, T. rewrite Mg in F. injection F as <- <-. cbn [app]. rewrite ?app_nil_r, <- ?app_assoc.
    econstructor; eassumption.
  Qed.

  Lemma p_line_sounds k fields i a j ws es :
    (forall i v j ws es, fields i = Got v j ws es -> fields_at E I names i k j v es) ->
    p_line E I po k fields i = Got a j ws es -> directive_at E I names i j a es.
  Proof.
    intros Fs H. unfold p_line in H. apply validate_got in H. destruct H as (x & es1 & es2 & H & F & ->). seq.
    match goal with H : p_tags_links E I _ = _ |- _ => apply p_tags_links_sounds in H;
      destruct H as (marks & kept & again & M & D & -> & ->) end.
    match goal with H : fields _ = _ |- _ => apply Fs in H end. use'.
    match goal with H : metadata_at E I names _ _ ?md _ |- _ => destruct (merged_joined md _ _ _ D) as (md' & es' & Mg & J) end.
    cbn [make] in F. rewrite Mg in F. injection F as <- <-. cbn [app]. rewrite ?app_nil_r, <- ?app_assoc.
    eapply directive_line; eassumption.
  Qed.

  Lemma p_currency_list_sounds i a j ws es : p_currency_list I i = Got a j ws es -> currencies_at I i j a es.
  Proof.
    intro H. unfold p_currency_list in H. apply pmap_got in H. destruct H as (o & H & ->).
    apply opt_got in H. destruct H as [(l & H & ->)|(H & -> & -> & ->)]; [|constructor].
    apply validate_got in H. destruct H as ([first l'] & es1 & es2 & H & F & ->). seq. use.
    match goal with H : rep I _ _ = Got _ _ _ _ |- _ => apply (comma_sounds _ _ (spn_sounds _ _ p_currency_sounds)) in H; destruct H as [H ->] end.
    destruct (dedup_total (fun x => DuplicateCurrency (item x)) (l' ++ [first]) []) as (kept & again & D).
    rewrite (insert_once_fold DuplicateCurrency ltac:(congruence) _ [] [] [] kept again D) in F by (cbn; tauto).
    cbn [app] in F. injection F as <- <-. cbn [app]. econstructor; [|exact D]. eapply separated_of_star; eassumption.
  Qed.

  Lemma sum_starts :
    (forall i j e, sum I i j e -> exists t, tok I i t /\ match t with T_Number _ | T_Lparen | T_Plus | T_Minus => True | _ => False end) /\
    (forall i j e, product I i j e -> exists t, tok I i t /\ match t with T_Number _ | T_Lparen | T_Plus | T_Minus => True | _ => False end) /\
    (forall i j e, factor I i j e -> exists t, tok I i t /\ match t with T_Number _ | T_Lparen | T_Plus | T_Minus => True | _ => False end) /\
    (forall i j e, primary I i j e -> exists t, tok I i t /\ match t with T_Number _ | T_Lparen | T_Plus | T_Minus => True | _ => False end).
  Proof. apply expr_mutind; intros; try assumption; eexists; (split; [eassumption|exact Logic.I]). Qed.

  Lemma p_meta_value_longest i v j ws es : p_meta_value E I po i = Got v j ws es ->
    forall k b, meta_value_at E I names i k b -> k <= j.
  Proof.
    intros H k b M.
    assert (Hj : i < j).
    { apply p_meta_value_sounds in H. destruct H as [H _]. destruct H as [a [m [[H _] _] [C _]]|s S].
      - destruct (bounds I) as (B & _). apply B in H. inversion C; subst. lia.
      - inversion S; subst; try (match goal with H : _ i j _ |- _ => inversion H; subst end; lia); try lia.
        destruct H as [H _]. destruct (bounds I) as (B & _). apply B in H. lia. }
    destruct M as [a [m [[Sm Wv] Sp] [C Sc]]|s S].
    - (* an amount *)
      inversion C as [c T L Ec Ek]; subst.
      assert (X : p_expr I i = Got (ev_expr (item (am_number a))) m [] []).
      { apply p_expr_exact; [exact Sm|..]; intro X; pose proof (tok_fun _ _ _ _ T X); discriminate. }
      assert (Y : p_amount E I i = Got a (S m) [] []).
      { unfold p_amount, bind, spn, sp, map_span, p_expr_value, pmap_out. rewrite X.
        rewrite (proj2 (expr_value_worth _ (item (am_number a)))) by auto.
        unfold p_currency, try_map, sel, select. destruct T as [r T]. rewrite T.
        rewrite (proj2 (C18_accepts (item (am_currency a)) _)) by auto. unfold ret. cbn [app].
        destruct a as [[n sn] [c sc]]. cbn in *. subst. reflexivity. }
      unfold p_meta_value in H. cbn [choice] in H. unfold alt, pmap, bind at 1 in H. rewrite Y in H. cbn in H.
      injection H as _ <- _ _. lia.
    - inversion S; subst; try (match goal with H : _ i k _ |- _ => inversion H; subst end; lia); try lia.
      match goal with H : value_at E I i k _ |- _ => destruct H as [Sm Wv] end.
      destruct (p_expr_far I _ _ _ Sm) as (e' & m & X & Le & _).
      destruct (proj1 sum_starts _ _ _ Sm) as (t & T & Ht).
      unfold p_meta_value in H. pick H; got.
      + unfold p_amount in H. seq. repeat match goal with H : spn I _ _ = Got _ _ _ _ |- _ => apply spn_got in H; destruct H as [H _] end.
        match goal with H : p_expr_value E I i = _ |- _ => unfold p_expr_value, pmap_out in H; rewrite X in H;
          destruct (expr_value_from (g_ops E) e'); [|discriminate]; injection H as _ <- _ _ end.
        use. match goal with H : currency_at I m j _ |- _ => inversion H; subst end. lia.
      + unfold p_simple_value in H. pick H; got;
          match goal with
          | H : p_expr_value E I i = _ |- _ =>
              unfold p_expr_value, pmap_out in H; rewrite X in H;
              destruct (expr_value_from (g_ops E) e'); [|discriminate]; injection H as _ <- _ _; exact Le
          | _ => use; try match goal with H : _ i j _ |- _ => inversion H; subst end;
                 match goal with A : tok I i ?t', T : tok I i t |- _ => pose proof (tok_fun _ _ _ _ T A); subst t; destruct Ht end
          end.
  Qed.

  Lemma p_custom_sounds i a j ws es : p_custom E I po i = Got a j ws es -> directive_at E I names i j a es.
  Proof.
    intro H. unfold p_custom in H. seq. use'.
    match goal with H : rep I _ _ = _ |- _ => apply (rep_sounds _ (longest (written I (meta_value_at E I names)))) in H; [destruct H as [H ->]|] end.
    - cbn [app]. rewrite ?app_nil_r. econstructor; eassumption.
    - clear - U_ok Hn Hl. intros i a j ws es H. pose proof (spn_sounds _ _ p_meta_value_sounds _ _ _ _ _ H) as [W ->].
      split; [|reflexivity]. split; [exact W|]. apply spn_got in H. destruct H as [H _]. intros k b [B _].
      eapply p_meta_value_longest; eassumption.
  Qed.

  Theorem p_directive_sounds i a j ws es : p_directive E I po i = Got a j ws es -> directive_at E I names i j a es.
  Proof.
    intro H. unfold p_directive in H. pick H; [apply p_transaction_sounds in H; exact H|].
    pick H; try (apply p_custom_sounds in H; exact H);
      unfold p_price, p_balance, p_open, p_close, p_commodity, p_pad, p_document, p_note, p_event, p_query in H;
      (eapply p_line_sounds; [|exact H]); clear H; intros i0 v j0 ws0 es0 H; seq;
      repeat match goal with H : pmap _ _ _ = _ |- _ => apply pmap_got in H; destruct H as (? & H & ->) end;
      repeat match goal with
      | H : spn I (p_amount E I) _ = _ |- _ => apply (spn_sounds _ _ p_amount_sounds) in H; destruct H as [H ->]
      | H : spn I (p_amount_with_tolerance E I) _ = _ |- _ => apply (spn_sounds _ _ p_amount_with_tolerance_sounds) in H; destruct H as [H ->]
      | H : p_currency_list I _ = _ |- _ => apply p_currency_list_sounds in H
      end; use'; cbn [app]; rewrite ?app_nil_r; econstructor; eassumption.
  Qed.
End Sound.
