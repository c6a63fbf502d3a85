(** * What the specification says is what the parsers read *)
From Coq Require Import String Ascii.
From Coq Require Import List NArith Arith Bool Lia Permutation.
From Verif Require Import Base BaseFacts Types SpecTypes TypesFacts P_Types Options Decimal SpecDecimal P_Expr Cost SpecCost P_Cost
  Token Peg Grammar SpecGrammar PegFacts ExprFacts DedupFacts GrammarSound GrammarSafe.
Import ListNotations.
Local Open Scope nat_scope.

(** ** The warnings on the way *)

Definition limit_of (po : parser_options) : option (N * span) :=
  option_map (fun n => (item (sd_spanned n), src_value (sd_source n))) (po_maxlines po).

Lemma long_strings_nil limit I i : long_strings limit I i i = [].
Proof. unfold long_strings. rewrite Nat.sub_diag. reflexivity. Qed.
Lemma long_strings_app limit I i j k : i <= j -> j <= k ->
  long_strings limit I i k = long_strings limit I i j ++ long_strings limit I j k.
Proof.
  intros A B. unfold long_strings. rewrite <- flat_map_app. f_equal.
  replace (k - i) with ((j - i) + (k - j)) by lia. rewrite seq_app. do 2 f_equal. lia.
Qed.
Lemma long_strings_one limit I i t : tok I i t -> match t with T_String _ => False | _ => True end ->
  long_strings limit I i (S i) = [].
Proof.
  intros [r T] H. unfold long_strings. replace (S i - i) with 1 by lia. cbn [seq flat_map]. rewrite T.
  destruct t; try reflexivity. destruct H.
Qed.
Lemma long_strings_string po I i s r : nth_error (in_tokens I) i = Some (T_String s, r) ->
  long_strings (limit_of po) I i (S i) = string_warning po s (mk_span (in_source I) (fst r) (snd r)).
Proof.
  intro T. unfold long_strings. replace (S i - i) with 1 by lia. cbn [seq flat_map]. rewrite T. destruct r as [a b].
  rewrite app_nil_r. cbn [fst snd]. unfold string_warning, lines_of.
  assert (L : (N.of_nat (S (count_occ N.eq_dec s 10)) = N.of_nat (List.length (filter (N.eqb newline) s)) + 1)%N).
  { assert (X : List.length (filter (N.eqb newline) s) = count_occ N.eq_dec s 10%N).
    { clear. induction s as [|c s IH]; [reflexivity|]. cbn [filter count_occ]. change newline with 10%N.
      destruct (N.eq_dec c 10) as [->|Hc].
      - cbn. f_equal. exact IH.
      - destruct (N.eqb_spec 10 c) as [X|X]; [congruence|]. exact IH. }
    rewrite X. lia. }
  rewrite L. unfold too_long, allowed, limit_of. destruct (po_maxlines po) as [n|]; cbn [option_map].
  - rewrite N.leb_antisym. destruct (_ <? _)%N; reflexivity.
  - rewrite N.leb_antisym. destruct (_ <? _)%N; reflexivity.
Qed.

Section Complete.
  Context (E : grammar_env) (I : input) (po : parser_options) (names : account_type -> list N)
          (U_ok : unicode_ok (g_unicode E)) (Hn : named (po_names po) names)
          (Hl : forall t, account_type_name_lang (g_unicode E) (names t))
          (order_ok : forall l, Permutation l (g_order E l)).
  Notation toks := (in_tokens I).
  Let n := List.length (in_tokens I).
  Let W := long_strings (limit_of po) I.
  Notation Reads := (reads toks W).

  Let W_nil : forall i, W i i = [] := long_strings_nil (limit_of po) I.
  Let W_app : forall i j k, i <= j -> j <= k -> W i k = W i j ++ W j k := long_strings_app (limit_of po) I.

  Lemma reads_to {A B} (f : A -> B) p i j a b t es : Reads p i j a t es -> b = f a -> Reads (pmap f p) i j b t es.
  Proof. intros H ->. apply reads_pmap. exact H. Qed.

  (** Some token which is not one of these. *)
  Definition away (f : token -> bool) (i : nat) : Prop := forall t, tok I i t -> f t = false.
  Lemma away_tok f i t : tok I i t -> f t = false -> away f i.
  Proof. intros T F t' T'. rewrite <- (tok_fun _ _ _ _ T T'). exact F. Qed.
  Lemma away_finished f i : finished I i -> away f i.
  Proof. intros F t [r T]. unfold finished in F. congruence. Qed.
  Lemma away_weaken f g i : away f i -> (forall t, f t = false -> g t = false) -> away g i.
  Proof. intros A H t T. auto. Qed.

  Definition is_currency (t : token) := match t with T_Currency _ => true | _ => false end.
  Definition is_string (t : token) := match t with T_String _ => true | _ => false end.
  Definition is_mark (t : token) := match t with T_Tag _ | T_Link _ => true | _ => false end.
  Definition is_op (t : token) := match t with T_Plus | T_Minus | T_Asterisk | T_Slash => true | _ => false end.
  Definition is_start (t : token) := match t with T_Plus | T_Minus | T_Number _ | T_Lparen => true | _ => false end.
  Definition is_hash (t : token) := match t with T_Hash => true | _ => false end.
  Definition not_eol (t : token) := match t with T_Eol => false | _ => true end.

  Lemma line_end_away i j : line_end I i j -> away not_eol i.
  Proof. intros [i' T|i' F]; [apply (away_tok _ _ _ T); reflexivity|apply away_finished; exact F]. Qed.

  (** ** Failures without a trace *)

  Lemma sel_fails {A} (f : token -> option A) i : (forall t, tok I i t -> f t = None) -> fails (sel I f) i.
  Proof.
    intro H. unfold fails, sel, select. destruct (nth_error toks i) as [[t r]|] eqn:T; [|reflexivity].
    rewrite (H t); [reflexivity|]. exists r. exact T.
  Qed.
  Lemma just_fails t i : ~ tok I i t -> fails (just I t) i.
  Proof. apply just_not. Qed.
  Lemma p_currency_fails i : away is_currency i -> fails (p_currency I) i.
  Proof. intro A. apply fails_try_map, sel_fails. intros t T. apply A in T. destruct t; auto; discriminate. Qed.
  Lemma p_account_fails i : away (fun t => match t with T_Account _ => true | _ => false end) i -> fails (p_account E I po) i.
  Proof. intro A. apply fails_try_map, sel_fails. intros t T. apply A in T. destruct t; auto; discriminate. Qed.
  Lemma p_tag_fails i : away (fun t => match t with T_Tag _ => true | _ => false end) i -> fails (p_tag E I) i.
  Proof. intro A. apply fails_try_map, sel_fails. intros t T. apply A in T. destruct t; auto; discriminate. Qed.
  Lemma p_link_fails i : away (fun t => match t with T_Link _ => true | _ => false end) i -> fails (p_link E I) i.
  Proof. intro A. apply fails_try_map, sel_fails. intros t T. apply A in T. destruct t; auto; discriminate. Qed.
  Lemma p_key_fails i : away (fun t => match t with T_Key _ => true | _ => false end) i -> fails (p_key E I) i.
  Proof. intro A. apply fails_try_map, sel_fails. intros t T. apply A in T. destruct t; auto; discriminate. Qed.
  Lemma p_date_fails i : away (fun t => match t with T_Date _ => true | _ => false end) i -> fails (p_date I) i.
  Proof. intro A. apply sel_fails. intros t T. apply A in T. destruct t; auto; discriminate. Qed.
  Lemma p_string_fails i : away is_string i -> fails (p_string I po) i.
  Proof.
    intro A. unfold fails, p_string.
    assert (F : fails (spn I (sel I (fun t => match t with T_String s => Some s | _ => None end))) i).
    { apply fails_sp, sel_fails. intros t T. apply A in T. destruct t; auto; discriminate. }
    rewrite F. reflexivity.
  Qed.
  Lemma p_expr_fails i : away is_start i -> i <= n -> fails (p_expr I) i.
  Proof.
    intros A Hi. apply p_expr_not; [|exact Hi]. intros j e S. destruct (proj1 (sum_starts I) _ _ _ S) as (t & T & H).
    apply A in T. destruct t; try contradiction; discriminate.
  Qed.
  Lemma p_expr_value_fails i : away is_start i -> i <= n -> fails (p_expr_value E I) i.
  Proof. intros A Hi. apply fails_pmap_out, p_expr_fails; assumption. Qed.

  (** ** Leaves *)

  Lemma W_one i t : tok I i t -> is_string t = false -> W i (S i) = [].
  Proof. intros T H. apply (long_strings_one _ _ _ t T). destruct t; auto; discriminate. Qed.

  Lemma sel_reads {A} (f : token -> option A) i t a : tok I i t -> f t = Some a -> is_string t = false ->
    Reads (sel I f) i (S i) a [] [].
  Proof.
    intros T F S. split.
    - rewrite (W_one i t T S). unfold sel, select. destruct T as [r T]. rewrite T, F. reflexivity.
    - apply tok_lt in T. lia.
  Qed.
  Lemma just_reads i t : tok I i t -> is_string t = false -> Reads (just I t) i (S i) t [] [].
  Proof. intros T S. apply (sel_reads _ i t); auto. destruct (token_eq_dec t t); congruence. Qed.

  Lemma p_account_reads i j a : account_at E I names i j a -> Reads (p_account E I po) i j a [] [].
  Proof.
    intros [t ws T F]. eapply reads_try_map; [eapply sel_reads; [exact T|reflexivity|reflexivity]|].
    f_equal. apply (C16_account_new _ _ names _ _ U_ok Hn Hl). exists t, ws. auto.
  Qed.
  Lemma p_tag_reads i j a : tag_at E I i j a -> Reads (p_tag E I) i j a [] [].
  Proof.
    intros [s T L]. eapply reads_try_map; [eapply sel_reads; [exact T|reflexivity|reflexivity]|].
    f_equal. apply C17_tag_link. auto.
  Qed.
  Lemma p_link_reads i j a : link_at E I i j a -> Reads (p_link E I) i j a [] [].
  Proof.
    intros [s T L]. eapply reads_try_map; [eapply sel_reads; [exact T|reflexivity|reflexivity]|].
    f_equal. apply C17_tag_link. auto.
  Qed.
  Lemma p_key_reads i j a : key_at E I i j a -> Reads (p_key E I) i j a [] [].
  Proof.
    intros [s T L]. eapply reads_try_map; [eapply sel_reads; [exact T|reflexivity|reflexivity]|].
    f_equal. apply C17_key. auto.
  Qed.
  Lemma p_currency_reads i j a : currency_at I i j a -> Reads (p_currency I) i j a [] [].
  Proof.
    intros [s T L]. eapply reads_try_map; [eapply sel_reads; [exact T|reflexivity|reflexivity]|].
    apply C18_accepts. auto.
  Qed.
  Lemma p_date_reads i j a : date_at I i j a -> Reads (p_date I) i j a [] [].
  Proof. intros [d T]. eapply sel_reads; [exact T|reflexivity|reflexivity]. Qed.
  Lemma p_decimal_reads i j a : number_at I i j a -> Reads (p_decimal I) i j a [] [].
  Proof. intros [d T]. eapply sel_reads; [exact T|reflexivity|reflexivity]. Qed.
  Lemma p_string_reads i j a : string_at I i j a -> Reads (p_string I po) i j a [] [].
  Proof.
    intros [s T]. pose proof (tok_lt _ _ _ T) as L. destruct T as [r T]. split; [|fold n in L; lia].
    unfold W. rewrite (long_strings_string _ _ _ _ _ T). unfold p_string, spn, sp, map_span, sel, select. rewrite T.
    cbn [item span_of app]. unfold span_at, start_of, end_before. rewrite T. destruct r as [ra rb].
    rewrite app_nil_r. reflexivity.
  Qed.
  Lemma spn_reads {A} (p : parser A) (R : nat -> nat -> A -> Prop) i j x :
    written I R i j x -> (R i j (item x) -> Reads p i j (item x) [] []) -> Reads (spn I p) i j x [] [].
  Proof. intros [H S] P. apply reads_sp; [auto|exact S]. Qed.

  Lemma p_bool_reads i j a : bool_at I i j a -> Reads (p_bool I) i j a [] [].
  Proof.
    intros [T|T]; unfold p_bool.
    - apply reads_choice_here. eapply reads_to; [apply just_reads; [exact T|reflexivity]|reflexivity].
    - apply reads_choice_there.
      + apply fails_pmap, just_fails. intro X. pose proof (tok_fun _ _ _ _ T X). discriminate.
      + apply reads_choice_here. eapply reads_to; [apply just_reads; [exact T|reflexivity]|reflexivity].
  Qed.
  Ltac other_tok := let X := fresh in intro X;
    match goal with T : tok I ?i _, X : tok I ?i _ |- _ => pose proof (tok_fun _ _ _ _ T X); discriminate end.
  Lemma p_flag_reads i j a : flag_at I i j a -> Reads (p_flag I) i j a [] [].
  Proof.
    intros [f T|T|T]; unfold p_flag.
    - apply reads_choice_here. eapply sel_reads; [exact T|reflexivity|reflexivity].
    - apply reads_choice_there.
      + apply sel_fails. intros t X. rewrite <- (tok_fun _ _ _ _ T X). reflexivity.
      + apply reads_choice_here. eapply reads_to; [apply just_reads; [exact T|reflexivity]|reflexivity].
    - apply reads_choice_there.
      + apply sel_fails. intros t X. rewrite <- (tok_fun _ _ _ _ T X). reflexivity.
      + apply reads_choice_there; [apply fails_pmap, just_fails; other_tok|].
        apply reads_choice_here. eapply reads_to; [apply just_reads; [exact T|reflexivity]|reflexivity].
  Qed.
  Lemma p_txn_reads i j a : txn_at I i j a -> Reads (p_txn I) i j a [] [].
  Proof.
    intros [T|j' f F]; unfold p_txn.
    - apply reads_choice_here. eapply reads_to; [apply just_reads; [exact T|reflexivity]|reflexivity].
    - apply reads_choice_there; [|apply reads_choice_here, p_flag_reads; exact F].
      apply fails_pmap, just_fails. destruct F; other_tok.
  Qed.
  Lemma p_booking_reads i j a : booking_at I i j a -> Reads (p_booking I po) i j a [] [].
  Proof.
    intros [b T]. eapply reads_try_map; [apply p_string_reads; constructor; exact T|].
    rewrite (proj2 (booking_try_from_name _ b) eq_refl). reflexivity.
  Qed.
  Lemma eol_reads i j : line_end I i j -> i <= n -> Reads (eol I) i j tt [] [].
  Proof.
    intros [i' T|i' F] Hi; unfold eol.
    - apply reads_choice_here. eapply reads_to; [apply just_reads; [exact T|reflexivity]|reflexivity].
    - apply reads_choice_there.
      + apply fails_pmap, just_fails. intros [r T]. unfold finished in F. congruence.
      + cbn [choice]. split; [|lia]. unfold at_end. unfold finished in F. rewrite F, W_nil. reflexivity.
  Qed.

  (** ** Expressions and amounts *)

  Lemma W_join i j k : W i j = [] -> W j k = [] -> i <= j -> j <= k -> W i k = [].
  Proof. intros A B C D. rewrite (W_app i j k), A, B by assumption. reflexivity. Qed.

  Lemma W_expr :
    (forall i j e, sum I i j e -> W i j = []) /\ (forall i j e, product I i j e -> W i j = []) /\
    (forall i j e, factor I i j e -> W i j = []) /\ (forall i j e, primary I i j e -> W i j = []).
  Proof.
    destruct (bounds I) as (B1 & B2 & B3 & B4).
    apply expr_mutind; intros; auto.
    - pose proof (B1 _ _ _ s). pose proof (B2 _ _ _ p). apply (W_join i j k); try lia; auto.
      apply (W_join j (S j) k); try lia; auto. apply (W_one _ _ t). reflexivity.
    - pose proof (B1 _ _ _ s). pose proof (B2 _ _ _ p). apply (W_join i j k); try lia; auto.
      apply (W_join j (S j) k); try lia; auto. apply (W_one _ _ t). reflexivity.
    - pose proof (B2 _ _ _ p). pose proof (B3 _ _ _ f). apply (W_join i j k); try lia; auto.
      apply (W_join j (S j) k); try lia; auto. apply (W_one _ _ t). reflexivity.
    - pose proof (B2 _ _ _ p). pose proof (B3 _ _ _ f). apply (W_join i j k); try lia; auto.
      apply (W_join j (S j) k); try lia; auto. apply (W_one _ _ t). reflexivity.
    - pose proof (B4 _ _ _ p). apply (W_join i (S i) j); try lia; auto. apply (W_one _ _ t). reflexivity.
    - pose proof (B4 _ _ _ p). apply (W_join i (S i) j); try lia; auto. apply (W_one _ _ t). reflexivity.
    - apply (W_one _ _ t). reflexivity.
    - pose proof (B1 _ _ _ s). apply (W_join i (S i) (S j)); try lia; auto; [apply (W_one _ _ t); reflexivity|].
      apply (W_join (S i) j (S j)); try lia; auto. apply (W_one _ _ t0). reflexivity.
  Qed.

  Lemma value_lt i j v : value_at E I i j v -> i < j <= n.
  Proof. intros [S _]. destruct (bounds I) as (B & _). apply B in S. exact S. Qed.

  Lemma p_expr_value_reads i j v : value_at E I i j v -> away is_op j -> Reads (p_expr_value E I) i j v [] [].
  Proof.
    intros V A. pose proof (value_lt _ _ _ V) as B. destruct V as [S Wo].
    apply reads_pmap_out with (a := ev_expr v); [|apply expr_value_worth; auto].
    split; [|lia]. rewrite (proj1 W_expr _ _ _ S). apply p_expr_exact; [exact S|..]; intro X; apply A in X; discriminate.
  Qed.

  Ltac rbind := eapply reads_bind with (es1 := []) (es2 := []); [exact W_app| | |reflexivity].
  Ltac rbind' := eapply reads_bind with (es1 := []); [exact W_app| | |reflexivity].
  Ltac rret := apply reads_ret; [exact W_nil|].

  Lemma currency_lt i j c : currency_at I i j c -> j = S i /\ i < n /\ away is_op i /\ away is_start i /\ away is_hash i.
  Proof.
    intros [s T L]. pose proof (tok_lt _ _ _ T). repeat split; auto; apply (away_tok _ _ _ T); reflexivity.
  Qed.

  Lemma p_amount_reads i j a : amount_at E I i j a -> Reads (p_amount E I) i j a [] [].
  Proof.
    intros [m V C]. destruct (currency_lt _ _ _ (proj1 C)) as (-> & Hm & A & _). unfold p_amount.
    rbind; [apply (spn_reads _ _ _ _ _ V); intro; apply p_expr_value_reads; assumption|].
    rbind; [apply (spn_reads _ _ _ _ _ C); apply p_currency_reads|].
    destruct a. rret. fold n. lia.
  Qed.

  Lemma p_amount_fails i : away is_start i -> i <= n -> fails (p_amount E I) i.
  Proof. intros A Hi. apply fails_bind, fails_sp, p_expr_value_fails; assumption. Qed.

  (** A value, then no currency. *)
  Lemma p_amount_fails_after i j v : value_at E I i j v -> away is_op j -> away is_currency j -> fails (p_amount E I) i.
  Proof.
    intros V A C. unfold p_amount. eapply fails_bind_then with (t := []) (es := []).
    - apply (reads_sp (in_source I) toks (in_len I) W _ i j (mk_spanned v (text I i j))); [|reflexivity].
      apply p_expr_value_reads; assumption.
    - destruct V as [S _]. apply (proj1 W_expr _ _ _ S).
    - reflexivity.
    - apply fails_bind, fails_sp, p_currency_fails. exact C.
  Qed.

  Lemma p_amount_with_tolerance_reads i j a : amount_tol_at E I i j a -> Reads (p_amount_with_tolerance E I) i j a [] [].
  Proof.
    intros [x H|x t c m q V T D C]; unfold p_amount_with_tolerance.
    - apply reads_choice_here. eapply reads_to; [|reflexivity].
      apply (spn_reads _ _ _ _ _ H). apply p_amount_reads.
    - assert (Op : away is_op m) by (apply (away_tok _ _ _ T); reflexivity).
      apply reads_choice_there.
      + apply fails_pmap, fails_sp. apply (p_amount_fails_after i m (item x)); [apply V|exact Op|].
        apply (away_tok _ _ _ T). reflexivity.
      + apply reads_choice_here. destruct (currency_lt _ _ _ (proj1 C)) as (-> & Hm & _).
        apply (reads_map_span (in_source I) toks (in_len I) W
          (fun '(number, tolerance, currency) s => mk_amount_tol (mk_spanned (mk_amount number currency) s) (Some tolerance))
          _ i (S q) (x, t, c)).
        rbind; [apply (spn_reads _ _ _ _ _ V); intro; apply p_expr_value_reads; assumption|].
        rbind; [apply just_reads; [exact T|reflexivity]|].
        rbind; [apply (spn_reads _ _ _ _ _ D); apply p_decimal_reads|].
        rbind; [apply (spn_reads _ _ _ _ _ C); apply p_currency_reads|].
        rret. fold n. lia.
  Qed.

  (** ** Costs and prices *)

  (** What an expression with its hash may go on with. *)
  Definition goes_on (t : token) : bool := is_op t || is_start t || is_hash t.
  Lemma goes_on_op i : away goes_on i -> away is_op i.
  Proof. intros A. apply (away_weaken _ _ _ A). intro t. destruct t; auto. Qed.
  Lemma goes_on_start i : away goes_on i -> away is_start i.
  Proof. intros A. apply (away_weaken _ _ _ A). intro t. destruct t; auto; discriminate. Qed.
  Lemma goes_on_hash i : away goes_on i -> ~ tok I i T_Hash.
  Proof. intros A T. apply A in T. discriminate. Qed.

  (** Reading a value does not warn. *)
  Lemma fails_after_value {B} (f : expr_value -> parser B) i j v : value_at E I i j v -> away is_op j -> fails (f v) j ->
    fails (bind (p_expr_value E I) f) i.
  Proof.
    intros V A F. eapply fails_bind_then with (t := []) (es := []).
    - apply p_expr_value_reads; eassumption.
    - destruct V as [S _]. apply (proj1 W_expr _ _ _ S).
    - reflexivity.
    - exact F.
  Qed.
  Lemma fails_after_tok {B} (f : token -> parser B) i t : tok I i t -> is_string t = false -> fails (f t) (S i) ->
    fails (bind (just I t) f) i.
  Proof.
    intros T S F. eapply fails_bind_then with (t := []) (es := []).
    - apply just_reads; eassumption.
    - apply (W_one i t T S).
    - reflexivity.
    - exact F.
  Qed.

  Lemma p_compound_expr_reads i j a : compound_expr_at E I i j a -> away goes_on j -> Reads (p_compound_expr E I) i j a [] [].
  Proof.
    intros [m k p t P T Q|k p P|k p P T|k t T Q] A; unfold p_compound_expr.
    - apply reads_choice_here.
      assert (Op : away is_op m) by (apply (away_tok _ _ _ T); reflexivity).
      rbind; [apply p_expr_value_reads; eassumption|].
      rbind; [apply just_reads; [exact T|reflexivity]|].
      rbind; [apply p_expr_value_reads; [eassumption|apply goes_on_op; exact A]|].
      rret. apply value_lt in Q. fold n. lia.
    - apply reads_choice_there; [|apply reads_choice_there; [|apply reads_choice_here]].
      + apply (fails_after_value _ i k p P); [apply goes_on_op; exact A|]. apply fails_bind, just_fails, goes_on_hash. exact A.
      + apply (fails_after_value _ i k p P); [apply goes_on_op; exact A|]. apply fails_bind, just_fails, goes_on_hash. exact A.
      + eapply reads_to; [|reflexivity]. apply p_expr_value_reads; [exact P|apply goes_on_op; exact A].
    - assert (Op : away is_op k) by (apply (away_tok _ _ _ T); reflexivity). pose proof (tok_lt _ _ _ T).
      apply reads_choice_there; [|apply reads_choice_here].
      + apply (fails_after_value _ i k p P); [exact Op|]. apply (fails_after_tok _ _ _ T); [reflexivity|].
        apply fails_bind, p_expr_value_fails; [apply goes_on_start; exact A|]. unfold n. lia.
      + rbind; [apply p_expr_value_reads; eassumption|].
        rbind; [apply just_reads; [exact T|reflexivity]|]. rret. fold n. unfold n. lia.
    - assert (St : away is_start i) by (apply (away_tok _ _ _ T); reflexivity). pose proof (tok_lt _ _ _ T) as Lt.
      assert (Hi : i <= n) by (unfold n; lia).
      apply reads_choice_there; [|apply reads_choice_there; [|apply reads_choice_there; [|apply reads_choice_here]]].
      + apply fails_bind, p_expr_value_fails; assumption.
      + apply fails_bind, p_expr_value_fails; assumption.
      + apply fails_pmap, p_expr_value_fails; assumption.
      + rbind; [apply just_reads; [exact T|reflexivity]|].
        eapply reads_to; [|reflexivity]. apply p_expr_value_reads; [exact Q|apply goes_on_op; exact A].
  Qed.

  Lemma W_compound i j a : compound_expr_at E I i j a -> W i j = [] /\ i < j <= n.
  Proof.
    intros [m k p t P T Q|k p P|k p P T|k t T Q].
    - pose proof (value_lt _ _ _ P). pose proof (value_lt _ _ _ Q). split; [|lia].
      apply (W_join i m k); try lia; [apply (proj1 W_expr _ _ _ (proj1 P))|].
      apply (W_join m (S m) k); try lia; [apply (W_one _ _ T); reflexivity|apply (proj1 W_expr _ _ _ (proj1 Q))].
    - pose proof (value_lt _ _ _ P). split; [apply (proj1 W_expr _ _ _ (proj1 P))|lia].
    - pose proof (value_lt _ _ _ P). pose proof (tok_lt _ _ _ T). split; [|unfold n; lia].
      apply (W_join i k (S k)); try lia; [apply (proj1 W_expr _ _ _ (proj1 P))|apply (W_one _ _ T); reflexivity].
    - pose proof (value_lt _ _ _ Q). split; [|lia].
      apply (W_join i (S i) k); try lia; [apply (W_one _ _ T); reflexivity|apply (proj1 W_expr _ _ _ (proj1 Q))].
  Qed.

  Definition starts_compound (t : token) : bool := is_start t || is_hash t.
  Lemma p_compound_expr_fails i : away starts_compound i -> i <= n -> fails (p_compound_expr E I) i.
  Proof.
    intros A Hi. assert (S : away is_start i) by (apply (away_weaken _ _ _ A); intro t; destruct t; auto; discriminate).
    apply fails_choice. repeat constructor.
    - apply fails_bind, p_expr_value_fails; assumption.
    - apply fails_bind, p_expr_value_fails; assumption.
    - apply fails_pmap, p_expr_value_fails; assumption.
    - apply fails_bind, just_fails. intro T. apply A in T. discriminate.
  Qed.
  (** A hash with a currency. *)
  Lemma p_compound_expr_fails_hash i : tok I i T_Hash -> away is_start (S i) -> fails (p_compound_expr E I) i.
  Proof.
    intros T A. pose proof (tok_lt _ _ _ T).
    assert (S : away is_start i) by (apply (away_tok _ _ _ T); reflexivity).
    assert (Hi : i <= n) by (unfold n; lia). apply fails_choice. repeat constructor.
    - apply fails_bind, p_expr_value_fails; assumption.
    - apply fails_bind, p_expr_value_fails; assumption.
    - apply fails_pmap, p_expr_value_fails; assumption.
    - apply (fails_after_tok _ _ _ T); [reflexivity|]. apply fails_pmap, p_expr_value_fails; [exact A|]. unfold n. lia.
  Qed.

  Definition goes_on' (t : token) : bool := goes_on t || is_currency t.
  Lemma p_compound_amount_reads i j a : compound_amount_at E I i j a -> away goes_on' j -> Reads (p_compound_amount E I) i j a [] [].
  Proof.
    intros [m k e c P C|k e P|k c C|k c T C] A; unfold p_compound_amount.
    - apply reads_choice_here. destruct (currency_lt _ _ _ C) as (-> & Hm & O & S & H).
      rbind; [apply p_compound_expr_reads; [exact P|]|].
      { intros t T. apply O in T as X. apply S in T as Y. apply H in T. unfold goes_on. rewrite X, Y, T. reflexivity. }
      rbind; [apply p_currency_reads; exact C|]. rret. fold n. lia.
    - assert (G : away goes_on k) by (apply (away_weaken _ _ _ A); intros t X; unfold goes_on' in X; destruct (goes_on t); [discriminate|reflexivity]).
      apply reads_choice_there; [|apply reads_choice_here].
      + eapply fails_bind_then with (t := []) (es := []).
        * apply p_compound_expr_reads; eassumption.
        * apply (W_compound _ _ _ P).
        * reflexivity.
        * apply fails_bind, p_currency_fails. apply (away_weaken _ _ _ A). intros t X. unfold goes_on' in X.
          destruct (is_currency t); auto. destruct (goes_on t); discriminate.
      + eapply reads_to; [|reflexivity]. apply p_compound_expr_reads; assumption.
    - destruct (currency_lt _ _ _ C) as (-> & Hm & O & S & H).
      assert (X : away starts_compound i).
      { intros t T. apply S in T as Y. apply H in T. unfold starts_compound. rewrite Y, T. reflexivity. }
      assert (Hi : i <= n) by lia.
      apply reads_choice_there; [|apply reads_choice_there; [|apply reads_choice_here]].
      + apply fails_bind, p_compound_expr_fails; assumption.
      + apply fails_pmap, p_compound_expr_fails; assumption.
      + rbind.
        * apply reads_opt_none; [exact W_nil| |exact Hi]. apply just_fails. intro T. apply H in T. discriminate.
        * eapply reads_to; [|reflexivity]. apply p_currency_reads. exact C.
    - destruct (currency_lt _ _ _ C) as (-> & Hm & O & S & H).
      apply reads_choice_there; [|apply reads_choice_there; [|apply reads_choice_here]].
      + apply fails_bind, p_compound_expr_fails_hash; assumption.
      + apply fails_pmap, p_compound_expr_fails_hash; assumption.
      + rbind.
        * apply reads_opt_some. apply just_reads; [exact T|reflexivity].
        * eapply reads_to; [|reflexivity]. apply p_currency_reads. exact C.
  Qed.
  Lemma p_compound_amount_fails i : away (fun t => starts_compound t || is_currency t) i -> i <= n -> fails (p_compound_amount E I) i.
  Proof.
    intros A Hi. assert (S : away starts_compound i).
    { apply (away_weaken _ _ _ A). intros t X. destruct (starts_compound t); auto. }
    apply fails_choice. repeat constructor.
    - apply fails_bind, p_compound_expr_fails; assumption.
    - apply fails_pmap, p_compound_expr_fails; assumption.
    - eapply fails_bind_then with (t := []) (es := []).
      + apply reads_opt_none; [exact W_nil| |exact Hi]. apply just_fails. intro T. apply S in T. discriminate.
      + apply W_nil.
      + reflexivity.
      + apply fails_pmap, p_currency_fails. apply (away_weaken _ _ _ A). intros t X. destruct (starts_compound t); [discriminate|exact X].
  Qed.

  Definition goes_on_price (t : token) : bool := is_op t || is_start t || is_currency t.
  Lemma p_price_annotation_reads i j a : price_at E I i j a -> away goes_on_price j -> Reads (p_price_annotation E I) i j a [] [].
  Proof.
    intros H A.
    assert (Op : away is_op j) by (apply (away_weaken _ _ _ A); intro t; destruct t; auto).
    assert (St : away is_start j) by (apply (away_weaken _ _ _ A); intro t; destruct t; auto; discriminate).
    assert (Cu : away is_currency j) by (apply (away_weaken _ _ _ A); intro t; destruct t; auto; discriminate).
    assert (Sign : forall sc, price_sign I i sc -> exists b, (forall v, sc v = scope v b) /\ i < n /\
      Reads (choice [pmap (fun _ => false) (just I T_At); pmap (fun _ => true) (just I T_AtAt)]) i (S i) b [] []).
    { intros sc [T|T]; pose proof (tok_lt _ _ _ T) as L; [exists false|exists true]; (split; [reflexivity|]); (split; [exact L|]).
      - apply reads_choice_here. eapply reads_to; [apply just_reads; [exact T|reflexivity]|reflexivity].
      - apply reads_choice_there; [apply fails_pmap, just_fails; other_tok|]. apply reads_choice_here.
        eapply reads_to; [apply just_reads; [exact T|reflexivity]|reflexivity]. }
    destruct H as [sc S|sc k v S V|sc k c S C|sc m k v c S V C]; unfold p_price_annotation;
      destruct (Sign _ S) as (b & Hb & Hi & Rd).
    - rbind; [exact Rd|].
      rbind; [apply reads_opt_none; [exact W_nil|apply p_expr_value_fails; [exact St|lia]|fold n; lia]|].
      rbind; [apply reads_opt_none; [exact W_nil|apply p_currency_fails; exact Cu|fold n; lia]|].
      rret. fold n. lia.
    - pose proof (value_lt _ _ _ V). rbind; [exact Rd|].
      rbind; [apply reads_opt_some, p_expr_value_reads; eassumption|].
      rbind; [apply reads_opt_none; [exact W_nil|apply p_currency_fails; exact Cu|fold n; lia]|].
      rewrite Hb. rret. fold n. lia.
    - destruct (currency_lt _ _ _ C) as (-> & Hm & O & X & Y). rbind; [exact Rd|].
      rbind; [apply reads_opt_none; [exact W_nil|apply p_expr_value_fails; [exact X|lia]|fold n; lia]|].
      rbind; [apply reads_opt_some, p_currency_reads; exact C|]. rret. fold n. lia.
    - destruct (currency_lt _ _ _ C) as (-> & Hm & O & X & Y). rbind; [exact Rd|].
      rbind; [apply reads_opt_some, p_expr_value_reads; [exact V|exact O]|].
      rbind; [apply reads_opt_some, p_currency_reads; exact C|]. rewrite Hb. rret. fold n. lia.
  Qed.
  Lemma p_price_annotation_fails i : away (fun t => match t with T_At | T_AtAt => true | _ => false end) i ->
    fails (p_price_annotation E I) i.
  Proof.
    intro A. apply fails_bind, fails_choice. repeat constructor; apply fails_pmap, just_fails; intro T; apply A in T; discriminate.
  Qed.

  Definition comma_or_rcurl (t : token) : bool := match t with T_Comma | T_Rcurl => false | _ => true end.
  Lemma p_cost_comp_reads i j a : cost_comp_at E I i j a -> away comma_or_rcurl j -> Reads (p_cost_comp E I po) i j a [] [].
  Proof.
    intros [k x H|k d H|k s H|T] A; unfold p_cost_comp.
    - apply reads_choice_here. eapply reads_to; [|reflexivity]. apply p_compound_amount_reads; [exact H|].
      apply (away_weaken _ _ _ A). intro t. destruct t; auto; discriminate.
    - inversion H as [d' T]; subst. pose proof (tok_lt _ _ _ T).
      apply reads_choice_there; [|apply reads_choice_here].
      + apply fails_pmap, p_compound_amount_fails; [apply (away_tok _ _ _ T); reflexivity|unfold n; lia].
      + eapply reads_to; [|reflexivity]. apply p_date_reads. exact H.
    - inversion H as [s' T]; subst. pose proof (tok_lt _ _ _ T).
      apply reads_choice_there; [|apply reads_choice_there; [|apply reads_choice_here]].
      + apply fails_pmap, p_compound_amount_fails; [apply (away_tok _ _ _ T); reflexivity|unfold n; lia].
      + apply fails_pmap, p_date_fails. apply (away_tok _ _ _ T). reflexivity.
      + eapply reads_to; [|reflexivity]. apply p_string_reads. exact H.
    - pose proof (tok_lt _ _ _ T).
      apply reads_choice_there; [|apply reads_choice_there; [|apply reads_choice_there; [|apply reads_choice_here]]].
      + apply fails_pmap, p_compound_amount_fails; [apply (away_tok _ _ _ T); reflexivity|unfold n; lia].
      + apply fails_pmap, p_date_fails. apply (away_tok _ _ _ T). reflexivity.
      + apply fails_pmap, p_string_fails. apply (away_tok _ _ _ T). reflexivity.
      + eapply reads_to; [apply just_reads; [exact T|reflexivity]|reflexivity].
  Qed.
  (** A right brace starts no component. *)
  Lemma p_cost_comp_fails i : tok I i T_Rcurl -> fails (p_cost_comp E I po) i.
  Proof.
    intro T. pose proof (tok_lt _ _ _ T). apply fails_choice. repeat constructor; apply fails_pmap.
    - apply p_compound_amount_fails; [apply (away_tok _ _ _ T); reflexivity|unfold n; lia].
    - apply p_date_fails. apply (away_tok _ _ _ T). reflexivity.
    - apply p_string_fails. apply (away_tok _ _ _ T). reflexivity.
    - apply just_fails. other_tok.
  Qed.

  (** Things with commas between them; [f] is what may not follow one of them. *)
  Lemma separated_reads {A} (p : parser A) (R : nat -> nat -> A -> Prop) (f : token -> bool) :
    (forall i j a, R i j a -> away f j -> Reads p i j a [] []) -> f T_Comma = false ->
    (forall lo, steps toks lo p) ->
    forall i k l, separated I R i k l -> away f k -> ~ tok I k T_Comma ->
    exists x l', l = x :: l' /\ exists j, Reads p i j x [] [] /\ Reads (rep I (just I T_Comma ;; p)) j k l' [] [].
  Proof.
    intros P Fc St i k l H. induction H as [i j x H|i j k x l H T _ IH]; intros Ak C.
    - exists x, []. split; [reflexivity|]. exists j. pose proof (P _ _ _ H Ak) as Q. split; [exact Q|].
      destruct Q as [_ Q]. apply reads_many with (lo := 0); auto; try lia.
      + intros i0. apply steps_bind_l; [apply just_steps|]. intro. apply steps_safe, St.
      + constructor.
      + apply fails_bind, just_fails. exact C.
    - destruct (IH Ak C) as (y & l' & -> & j' & Y & Rest). exists x, (y :: l'). split; [reflexivity|].
      assert (Aj : away f j) by (apply (away_tok _ _ _ T); exact Fc).
      exists j. pose proof (P _ _ _ H Aj) as Q. split; [exact Q|]. destruct Q as [_ Q]. destruct Y as [Y Yb], Rest as [Rest Rb].
      split; [|lia]. unfold rep in *.
      assert (Stc : steps toks 0 (just I T_Comma ;; p)).
      { apply steps_bind_l; [apply just_steps|]. intro. apply steps_safe, St. }
      rewrite (many_unfold toks 0 _ _ Stc) by lia. unfold bind at 1. rewrite (just_at _ _ _ T), Y, Rest.
      rewrite !app_nil_r. cbn [app]. rewrite (W_app j j' k), (W_app j (S j) j'), (W_one j _ T eq_refl) by lia. reflexivity.
  Qed.

  Lemma p_cost_spec_reads i j a : cost_at E I i j a -> Reads (p_cost_spec E I po) i j a [] [].
  Proof.
    intros [c T1 T2 S|k l c T1 L T2 S]; unfold p_cost_spec.
    - apply reads_try_map with (a := None); [|f_equal; apply C24_accepts; exact S].
      pose proof (tok_lt _ _ _ T2). rbind; [apply just_reads; [exact T1|reflexivity]|].
      rbind; [apply reads_opt_none; [exact W_nil| |lia]; apply fails_bind, fails_sp, p_cost_comp_fails; exact T2|].
      rbind; [apply just_reads; [exact T2|reflexivity]|]. rret. lia.
    - pose proof (tok_lt _ _ _ T2).
      destruct (separated_reads (spn I (p_cost_comp E I po)) (written I (cost_comp_at E I)) comma_or_rcurl) with (3 := fun lo => spn_steps I lo _ (p_cost_comp_steps E I po lo)) (4 := L)
        as (x & l' & -> & m & X & Y).
      + intros i0 j0 a0 Hw Aw. apply (spn_reads _ _ _ _ _ Hw). intro. apply p_cost_comp_reads; assumption.
      + reflexivity.
      + apply (away_tok _ _ _ T2). reflexivity.
      + other_tok.
      + apply reads_try_map with (a := Some (x, l')); [|f_equal; apply C24_accepts; exact S].
        rbind; [apply just_reads; [exact T1|reflexivity]|].
        rbind; [apply reads_opt_some; rbind; [exact X|]; rbind; [exact Y|]; rret; lia|].
        rbind; [apply just_reads; [exact T2|reflexivity]|]. rret. lia.
  Qed.
  Lemma p_cost_spec_fails i : ~ tok I i T_Lcurl -> fails (p_cost_spec E I po) i.
  Proof. intro T. apply fails_try_map, fails_bind, just_fails. exact T. Qed.

  (** ** Metadata *)

  Definition no_value (t : token) : bool :=
    match t with
    | T_String _ | T_Currency _ | T_Account _ | T_Tag _ | T_Link _ | T_Date _ | T_True | T_False | T_Null => true
    | _ => is_start t
    end.
  Lemma p_simple_value_fails i : away no_value i -> i <= n -> fails (p_simple_value E I po) i.
  Proof.
    intros A Hi. apply fails_choice. repeat constructor; apply fails_pmap.
    - apply p_string_fails. apply (away_weaken _ _ _ A). intro t. destruct t; auto; discriminate.
    - apply p_currency_fails. apply (away_weaken _ _ _ A). intro t. destruct t; auto; discriminate.
    - apply p_account_fails. apply (away_weaken _ _ _ A). intro t. destruct t; auto; discriminate.
    - apply p_tag_fails. apply (away_weaken _ _ _ A). intro t. destruct t; auto; discriminate.
    - apply p_link_fails. apply (away_weaken _ _ _ A). intro t. destruct t; auto; discriminate.
    - apply p_date_fails. apply (away_weaken _ _ _ A). intro t. destruct t; auto; discriminate.
    - apply fails_choice. repeat constructor; apply fails_pmap, just_fails; intro T; apply A in T; discriminate.
    - apply just_fails. intro T; apply A in T; discriminate.
    - apply p_expr_value_fails; [|exact Hi]. apply (away_weaken _ _ _ A). intro t. destruct t; auto; discriminate.
  Qed.
  Lemma p_meta_value_fails i : away no_value i -> i <= n -> fails (p_meta_value E I po) i.
  Proof.
    intros A Hi. apply fails_choice. repeat constructor; apply fails_pmap; [|apply p_simple_value_fails; assumption].
    apply p_amount_fails; [|exact Hi]. apply (away_weaken _ _ _ A). intro t. destruct t; auto; discriminate.
  Qed.

  (** Fail at the token of [T]. *)
  Ltac no T := first
    [ apply p_string_fails; apply (away_tok _ _ _ T); reflexivity
    | apply p_currency_fails; apply (away_tok _ _ _ T); reflexivity
    | apply p_account_fails; apply (away_tok _ _ _ T); reflexivity
    | apply p_tag_fails; apply (away_tok _ _ _ T); reflexivity
    | apply p_link_fails; apply (away_tok _ _ _ T); reflexivity
    | apply p_key_fails; apply (away_tok _ _ _ T); reflexivity
    | apply p_date_fails; apply (away_tok _ _ _ T); reflexivity
    | apply fails_choice; repeat constructor; apply fails_pmap, just_fails; other_tok
    | apply just_fails; other_tok ].
  Ltac skip T := apply reads_choice_there; [apply fails_pmap; no T|].

  Lemma p_simple_value_reads i j a : simple_value_at E I names i j a ->
    (forall v, a = SV_Expr v -> Reads (p_expr_value E I) i j v [] []) -> Reads (p_simple_value E I po) i j a [] [].
  Proof.
    intros H X. unfold p_simple_value. destruct H as [k s H|k s H|k s H|k s H|k s H|k s H|k s H|T|k v V].
    - apply reads_choice_here. eapply reads_to; [|reflexivity]. apply p_string_reads. exact H.
    - inversion H as [s' T ?]; subst. skip T. apply reads_choice_here. eapply reads_to; [|reflexivity]. apply p_currency_reads. exact H.
    - inversion H as [t' ws' T ?]; subst. do 2 skip T. apply reads_choice_here. eapply reads_to; [|reflexivity]. apply p_account_reads. exact H.
    - inversion H as [s' T ?]; subst. do 3 skip T. apply reads_choice_here. eapply reads_to; [|reflexivity]. apply p_tag_reads. exact H.
    - inversion H as [s' T ?]; subst. do 4 skip T. apply reads_choice_here. eapply reads_to; [|reflexivity]. apply p_link_reads. exact H.
    - inversion H as [s' T]; subst. do 5 skip T. apply reads_choice_here. eapply reads_to; [|reflexivity]. apply p_date_reads. exact H.
    - inversion H as [T|T]; subst; do 6 skip T; apply reads_choice_here; (eapply reads_to; [|reflexivity]); apply p_bool_reads; exact H.
    - do 7 skip T. apply reads_choice_here. eapply reads_to; [|reflexivity]. apply just_reads; [exact T|reflexivity].
    - destruct (proj1 (sum_starts I) _ _ _ (proj1 V)) as (t & T & St).
      assert (Y : forall u, tok I i u -> u = t) by (intros u Tu; exact (tok_fun _ _ _ _ Tu T)).
      do 8 (apply reads_choice_there;
        [apply fails_pmap;
         first [apply p_string_fails|apply p_currency_fails|apply p_account_fails|apply p_tag_fails|apply p_link_fails|apply p_date_fails
               |apply fails_choice; repeat constructor; apply fails_pmap, just_fails; intro Z; apply Y in Z; subst t; exact St
               |apply just_fails; intro Z; apply Y in Z; subst t; exact St];
         apply (away_tok _ _ _ T); destruct t; try reflexivity; contradiction|]).
      cbn [choice]. eapply reads_to; [|reflexivity]. apply X. reflexivity.
  Qed.
  Lemma simple_value_first i j a : simple_value_at E I names i j a -> away is_start i \/ exists v, a = SV_Expr v /\ value_at E I i j v.
  Proof.
    intros H. destruct H as [k s H|k s H|k s H|k s H|k s H|k s H|k s H|T|k v V]; try (inversion H; subst); eauto;
      left; match goal with T : tok I i _ |- _ => apply (away_tok _ _ _ T); reflexivity end.
  Qed.
  Lemma simple_value_lt i j a : simple_value_at E I names i j a -> i < j <= n.
  Proof.
    intro H. destruct H as [k s H|k s H|k s H|k s H|k s H|k s H|k s H|T|k v V]; try (inversion H; subst);
      try (match goal with T : tok I i _ |- _ => apply tok_lt in T; fold n in T; lia end). eapply value_lt. exact V.
  Qed.
  Lemma amount_lt i j a : amount_at E I i j a -> i < j <= n.
  Proof.
    intros [m [V _] [C _]]. apply value_lt in V. destruct (currency_lt _ _ _ C) as (-> & Hm & _). lia.
  Qed.
  Lemma meta_value_lt i j a : meta_value_at E I names i j a -> i < j <= n.
  Proof. intros [x H|x H]; [apply amount_lt in H|apply simple_value_lt in H]; exact H. Qed.

  Lemma p_meta_value_reads i j a : meta_value_at E I names i j a ->
    (forall v, a = MV_Simple (SV_Expr v) -> Reads (p_expr_value E I) i j v [] [] /\ fails (p_amount E I) i) ->
    Reads (p_meta_value E I po) i j a [] [].
  Proof.
    intros [x H|x H] X; unfold p_meta_value.
    - apply reads_choice_here. eapply reads_to; [|reflexivity]. apply p_amount_reads. exact H.
    - pose proof (simple_value_lt _ _ _ H) as L. apply reads_choice_there.
      + apply fails_pmap. destruct (simple_value_first _ _ _ H) as [St|(v & -> & V)]; [apply p_amount_fails; [exact St|lia]|].
        apply (X v eq_refl).
      + cbn [choice]. eapply reads_to; [|reflexivity]. apply p_simple_value_reads; [exact H|]. intros v ->. apply (X v eq_refl).
  Qed.
  Lemma p_meta_value_reads_line i j a : meta_value_at E I names i j a -> away not_eol j -> Reads (p_meta_value E I po) i j a [] [].
  Proof.
    intros H A. apply p_meta_value_reads; [exact H|]. intros v ->.
    assert (V : value_at E I i j v) by (inversion H as [?|? S]; subst; inversion S; subst; assumption).
    assert (Op : away is_op j) by (apply (away_weaken _ _ _ A); intro t; destruct t; auto; discriminate).
    assert (Cu : away is_currency j) by (apply (away_weaken _ _ _ A); intro t; destruct t; auto; discriminate).
    split; [apply p_expr_value_reads; assumption|]. eapply p_amount_fails_after; eassumption.
  Qed.

  Lemma p_meta_key_value_reads i j a : key_value_at E I names i j a -> away not_eol j -> Reads (p_meta_key_value E I po) i j a [] [].
  Proof.
    intros [m k key v K T V|m key K T] A; unfold p_meta_key_value.
    - rbind; [apply (spn_reads _ _ _ _ _ K); apply p_key_reads|].
      rbind; [apply just_reads; [exact T|reflexivity]|].
      pose proof (meta_value_lt _ _ _ (proj1 V)).
      rbind.
      + eapply (reads_sp _ _ _ _ _ _ _ (mk_spanned (Some (item v)) (span_of v))); [|cbn; apply V].
        cbn [item]. apply reads_opt_some, p_meta_value_reads_line; [apply V|exact A].
      + cbn [item span_of]. destruct v. rret. fold n. lia.
    - rbind; [apply (spn_reads _ _ _ _ _ K); apply p_key_reads|].
      rbind; [apply just_reads; [exact T|reflexivity]|].
      apply tok_lt in T. fold n in T.
      rbind.
      + eapply reads_sp with (j := S m) (x := mk_spanned None (text I (S m) (S m))); [|reflexivity].
        cbn [item]. apply reads_opt_none; [exact W_nil| |fold n; lia]. apply p_meta_value_fails; [|lia].
        apply (away_weaken _ _ _ A). intro t. destruct t; auto; discriminate.
      + cbn [item span_of]. rret. fold n. lia.
  Qed.

  Lemma line_end_le i j : line_end I i j -> i <= n -> i <= j <= n.
  Proof. intros [i' T|i' F] H; [apply tok_lt in T; fold n in T|]; lia. Qed.
  Lemma key_value_lt i j a : key_value_at E I names i j a -> i < j <= n.
  Proof.
    intros [m k key v [K _] T [V _]|m key [K _] T]; inversion K; subst; apply tok_lt in T; fold n in T; [apply meta_value_lt in V|]; lia.
  Qed.
  Lemma mark_lt i j a : mark_at E I i j a -> i < j <= n.
  Proof. intros [t [H _]|t [H _]]; inversion H as [s T L]; subst; apply tok_lt in T; fold n in T; lia. Qed.
  Lemma metadatum_lt i j a : metadatum_at E I names i j a -> i < j <= n.
  Proof. intros [x [H _]|x H]; [apply key_value_lt in H|apply mark_lt in H]; exact H. Qed.

  Lemma p_metadatum_line_reads i j a : metadata_line E I names i j a -> Reads (p_metadatum_line E I po) i j a [] [].
  Proof.
    intros [m T H L]. pose proof (metadatum_lt _ _ _ H) as B. unfold p_metadatum_line.
    rbind; [apply just_reads; [exact T|reflexivity]|].
    pose proof (line_end_away _ _ L) as A. pose proof (line_end_le _ _ L (proj2 B)) as B'.
    rbind; [|rbind; [apply eol_reads; [exact L|apply B]|rret; fold n; lia]].
    destruct H as [kv H|x [t H|t H]].
    - apply reads_choice_here. eapply reads_to; [|reflexivity]. apply (spn_reads _ _ _ _ _ H).
      intro. apply p_meta_key_value_reads; assumption.
    - pose proof (proj1 H) as H'. assert (T' : exists s, tok I (S i) (T_Tag s)) by (inversion H'; eauto). destruct T' as [s T'].
      apply reads_choice_there; [apply fails_pmap, fails_sp, fails_bind, fails_sp; no T'|].
      apply reads_choice_here. eapply reads_to; [|reflexivity]. apply (spn_reads _ _ _ _ _ H). apply p_tag_reads.
    - pose proof (proj1 H) as H'. assert (T' : exists s, tok I (S i) (T_Link s)) by (inversion H'; eauto). destruct T' as [s T'].
      apply reads_choice_there; [apply fails_pmap, fails_sp, fails_bind, fails_sp; no T'|].
      apply reads_choice_there; [apply fails_pmap, fails_sp; no T'|].
      apply reads_choice_here. eapply reads_to; [|reflexivity]. apply (spn_reads _ _ _ _ _ H). apply p_link_reads.
  Qed.

  Lemma silent_reads {A} (p : parser A) (R : nat -> nat -> A -> Prop) i j l es : (forall i j a, R i j a -> Reads p i j a [] []) ->
    star (silent R) i j l es -> star (fun i j a es => Reads p i j a [] es) i j l es.
  Proof. intros P. apply star_impl. intros i0 j0 a es0 [H ->]. apply P. exact H. Qed.

  Lemma p_metadata_reads i j md es t : metadata_at E I names i j md es -> i <= n -> p_metadatum_line E I po j = Not t ->
    Reads (spn I (p_metadata E I po)) i j md t es.
  Proof.
    intros [l St C Sp] Hi Stop. apply reads_sp; [|exact Sp]. unfold p_metadata.
    eapply reads_validate with (es := []); [|apply collects_fold; exact C|reflexivity].
    apply (reads_many _ _ W_nil W_app 0); [apply p_metadatum_line_steps|lia|exact Hi| |exact Stop].
    eapply silent_reads; [|exact St]. apply p_metadatum_line_reads.
  Qed.

  (** ** Postings *)

  (** What a posting with its metadata may follow each part with. *)
  Lemma maybe_lt {A} (R : nat -> nat -> A -> Prop) i j a : (forall i j a, R i j a -> i < j <= n) -> maybe R i j a -> i <= n -> i <= j <= n.
  Proof. intros P [|k x H] Hi; [lia|]. apply P in H. lia. Qed.

  Lemma maybe_reads {A} (p : parser A) (R : nat -> nat -> A -> Prop) i j a : maybe R i j a ->
    (forall a, R i j a -> Reads p i j a [] []) -> (i = j -> fails p i) -> i <= n -> Reads (opt p) i j a [] [].
  Proof.
    intros [|k x H] P F Hi; [apply reads_opt_none; auto|]. apply reads_opt_some. apply P. exact H.
  Qed.
  Lemma spanned_option_reads {A} (p : parser A) (R : nat -> nat -> A -> Prop) i j a : maybe (written I R) i j a ->
    (forall a, R i j a -> Reads p i j a [] []) -> (i = j -> fails p i) -> i <= n ->
    Reads (pmap spanned_option (spn I (opt p))) i j a [] [].
  Proof.
    intros [|k x [H Sp]] P F Hi.
    - apply reads_to with (a := mk_spanned None (text I i i)); [|reflexivity].
      apply reads_sp; [apply reads_opt_none; auto|reflexivity].
    - apply reads_to with (a := mk_spanned (Some (item x)) (span_of x)); [|destruct x; reflexivity].
      apply reads_sp; [apply reads_opt_some; auto|exact Sp].
  Qed.

  (** The first token of something, or of what follows if there is nothing. *)
  Lemma maybe_away {A} (R : nat -> nat -> A -> Prop) f i j a :
    (forall i j a, R i j a -> exists t, tok I i t /\ f t = false) -> maybe R i j a -> away f j -> away f i.
  Proof. intros P [|k x H] Aj; [exact Aj|]. destruct (P _ _ _ H) as (t & T & F). exact (away_tok _ _ _ T F). Qed.

  Lemma value_first i j v : written I (value_at E I) i j v -> exists t, tok I i t /\ is_start t = true.
  Proof. intros [[S _] _]. destruct (proj1 (sum_starts I) _ _ _ S) as (t & T & H). exists t. split; [exact T|]. destruct t; auto; contradiction. Qed.
  Lemma currency_first i j v : written I (currency_at I) i j v -> exists t, tok I i t /\ is_currency t = true.
  Proof. intros [[s T _] _]. exists (T_Currency s). auto. Qed.
  Lemma cost_first i j v : written I (cost_at E I) i j v -> exists t, tok I i t /\ t = T_Lcurl.
  Proof. intros [H _]. destruct H; eauto. Qed.
  Lemma price_first i j v : written I (price_at E I) i j v -> exists t, tok I i t /\ (t = T_At \/ t = T_AtAt).
  Proof. intros [H _]. destruct H as [? S|? ? ? S ?|? ? ? S ?|? ? ? ? ? S ? ?]; destruct S; eauto. Qed.
  Lemma account_first i j v : account_at E I names i j v -> exists s, tok I i (T_Account s).
  Proof. intros [t ws T _]. eauto. Qed.
  Lemma flag_first i j v : flag_at I i j v -> exists t, tok I i t /\ match t with T_Flag _ | T_Asterisk | T_Hash => true | _ => false end = true.
  Proof. intros [f T|T|T]; eauto. Qed.

  Lemma compound_amount_lt i j a : compound_amount_at E I i j a -> i < j <= n.
  Proof.
    intros [m k e c P C|k e P|k c C|k c T C]; try (apply W_compound in P); try (apply currency_lt in C as (-> & ? & _)); lia.
  Qed.
  Lemma cost_comp_lt i j a : cost_comp_at E I i j a -> i < j <= n.
  Proof.
    intros [k c H|k c H|k c H|H]; [apply compound_amount_lt in H; lia|inversion H as [x T]|inversion H as [x T]|pose proof H as T];
      apply tok_lt in T; fold n in T; lia.
  Qed.
  Lemma separated_lt {A} (R : nat -> nat -> A -> Prop) i j l : (forall i j a, R i j a -> i < j <= n) -> separated I R i j l -> i < j <= n.
  Proof. intros P H. induction H as [i j x H|i j k x l H T _ IH]; apply P in H; lia. Qed.
  Lemma cost_lt i j a : cost_at E I i j a -> i < j <= n.
  Proof.
    intros [c T1 T2 S|k l c T1 L T2 S]; apply tok_lt in T2; fold n in T2; [lia|].
    apply separated_lt in L; [lia|]. intros x y z [H _]. eapply cost_comp_lt. exact H.
  Qed.
  Lemma price_lt i j a : price_at E I i j a -> i < j <= n.
  Proof.
    intro H. destruct H as [sc S|sc k v S V|sc k c S C|sc m k v c S V C];
      (assert (i < n) by (destruct S as [T|T]; apply tok_lt in T; exact T)); try (inversion C as [s T L]; subst; apply tok_lt in T; fold n in T);
      try (apply value_lt in V); lia.
  Qed.
  Lemma flag_lt i j a : flag_at I i j a -> i < j <= n.
  Proof. intros [f T|T|T]; apply tok_lt in T; fold n in T; lia. Qed.
  Lemma account_lt i j a : account_at E I names i j a -> i < j <= n.
  Proof. intros [t ws T _]. apply tok_lt in T. fold n in T. lia. Qed.
  Lemma currency_lt' i j a : currency_at I i j a -> i < j <= n.
  Proof. intros [s T _]. apply tok_lt in T. fold n in T. lia. Qed.

  (** A metadata line does not start where a posting does. *)
  Lemma posting_no_metadata i j a es : posting_at E I names i j a es -> fails (p_metadatum_line E I po) i.
  Proof.
    intros [a1 b c d e f g k flag account amount currency cost price md es' T F A _ _ _ _ _ _].
    assert (First : exists t, tok I (S i) t /\ match t with T_Flag _ | T_Asterisk | T_Hash | T_Account _ => true | _ => false end = true).
    { destruct F as [|a1 x [F _]].
      - destruct (account_first _ _ _ (proj1 A)) as (s & T'). eauto.
      - destruct (flag_first _ _ _ F) as (t & T' & X). exists t. split; [exact T'|]. destruct t; auto; discriminate. }
    destruct First as (t & T' & X). unfold p_metadatum_line. apply (fails_after_tok _ _ _ T); [reflexivity|].
    apply fails_bind, fails_choice. repeat constructor; apply fails_pmap, fails_sp.
    - apply fails_bind, fails_sp, p_key_fails, (away_tok _ _ _ T'). destruct t; auto; discriminate.
    - apply p_tag_fails, (away_tok _ _ _ T'). destruct t; auto; discriminate.
    - apply p_link_fails, (away_tok _ _ _ T'). destruct t; auto; discriminate.
  Qed.

  Lemma star_le {A} (R : nat -> nat -> A -> list report -> Prop) i j l es :
    (forall i j a es, R i j a es -> i <= n -> i <= j <= n) -> star R i j l es -> i <= n -> i <= j <= n.
  Proof.
    intros P H. induction H as [i|i j k a l es es' H _ IH]; intro Hi; [lia|]. specialize (P _ _ _ _ H Hi). lia.
  Qed.
  Lemma metadata_le i j md es : metadata_at E I names i j md es -> i <= n -> i <= j <= n.
  Proof.
    intros [l St _ _]. eapply star_le; [|exact St]. intros x y z e [[m T H L] _] Hx.
    pose proof (metadatum_lt _ _ _ H). pose proof (line_end_le _ _ L). lia.
  Qed.
  Lemma posting_lt i j a es : posting_at E I names i j a es -> i < j <= n.
  Proof.
    intros [a1 b c d e f g k flag account amount currency cost price md es' T F A Am Cu Co Pr L M].
    pose proof (tok_lt _ _ _ T) as B. fold n in B.
    assert (B1 : S i <= a1 <= n) by (destruct F as [|a1 x [F _]]; [lia|]; apply flag_lt in F; lia).
    pose proof (account_lt _ _ _ (proj1 A)) as B2.
    assert (B3 : b <= c <= n) by (destruct Am as [|x y [X _]]; [lia|]; apply value_lt in X; lia).
    assert (B4 : c <= d <= n) by (destruct Cu as [|x y [X _]]; [lia|]; apply currency_lt' in X; lia).
    assert (B5 : d <= e <= n) by (destruct Co as [|x y [X _]]; [lia|]; apply cost_lt in X; lia).
    assert (B6 : e <= f <= n) by (destruct Pr as [|x y [X _]]; [lia|]; apply price_lt in X; lia).
    pose proof (line_end_le _ _ L). pose proof (metadata_le _ _ _ _ M). lia.
  Qed.

  Lemma p_posting_reads i j a es t : posting_at E I names i j a es -> p_metadatum_line E I po j = Not t ->
    Reads (p_posting E I po) i j a t es.
  Proof.
    intros [a1 b c d e f g k flag account amount currency cost price md es' T F A Am Cu Co Pr L M] Stop.
    pose proof (tok_lt _ _ _ T) as B. fold n in B.
    assert (B1 : S i <= a1 <= n) by (destruct F as [|a1 x [F _]]; [lia|]; apply flag_lt in F; lia).
    pose proof (account_lt _ _ _ (proj1 A)) as B2.
    assert (B3 : b <= c <= n) by (destruct Am as [|x y [X _]]; [lia|]; apply value_lt in X; lia).
    assert (B4 : c <= d <= n) by (destruct Cu as [|x y [X _]]; [lia|]; apply currency_lt' in X; lia).
    assert (B5 : d <= e <= n) by (destruct Co as [|x y [X _]]; [lia|]; apply cost_lt in X; lia).
    assert (B6 : e <= f <= n) by (destruct Pr as [|x y [X _]]; [lia|]; apply price_lt in X; lia).
    pose proof (line_end_le _ _ L) as B7.
    pose proof (line_end_away _ _ L) as Af.
    (* what comes next *)
    assert (Ae : away (fun t => match t with T_Eol | T_At | T_AtAt => false | _ => true end) e).
    { destruct Pr as [|y x P].
      - apply (away_weaken _ _ _ Af). intro u. destruct u; auto.
      - destruct (price_first _ _ _ P) as (u & U & [->| ->]); apply (away_tok _ _ _ U); reflexivity. }
    assert (Ad : away (fun t => match t with T_Eol | T_At | T_AtAt | T_Lcurl => false | _ => true end) d).
    { destruct Co as [|y x P].
      - apply (away_weaken _ _ _ Ae). intro u. destruct u; auto.
      - destruct (cost_first _ _ _ P) as (u & U & ->); apply (away_tok _ _ _ U); reflexivity. }
    assert (Ac : away (fun t => match t with T_Eol | T_At | T_AtAt | T_Lcurl | T_Currency _ => false | _ => true end) c).
    { destruct Cu as [|y x P].
      - apply (away_weaken _ _ _ Ad). intro u. destruct u; auto.
      - destruct (currency_first _ _ _ P) as (u & U & X); apply (away_tok _ _ _ U). destruct u; auto; discriminate. }
    unfold p_posting. rbind'; [apply just_reads; [exact T|reflexivity]|].
    eapply reads_bind with (j := f) (a := mk_spanned (mk_posting flag account amount currency cost price) (text I (S i) f))
      (es1 := []) (es2 := es'); [exact W_app| | |reflexivity].
    - apply reads_sp; [|reflexivity]. cbn [item].
      rbind.
      { eapply maybe_reads; [exact F| | |lia].
        - intros x X. apply (spn_reads _ _ _ _ _ X). apply p_flag_reads.
        - intros <-. apply fails_sp. destruct (account_first _ _ _ (proj1 A)) as (s & T'). unfold p_flag. apply fails_choice.
          repeat constructor; [apply sel_fails; intros u U; rewrite <- (tok_fun _ _ _ _ T' U); reflexivity|
            apply fails_pmap, just_fails; other_tok ..]. }
      rbind; [apply (spn_reads _ _ _ _ _ A); apply p_account_reads|].
      rbind.
      { eapply maybe_reads; [exact Am| | |lia].
        - intros x X. apply (spn_reads _ _ _ _ _ X). intro. apply p_expr_value_reads; [assumption|].
          apply (away_weaken _ _ _ Ac). intro u. destruct u; auto; discriminate.
        - intros <-. apply fails_sp, p_expr_value_fails; [|lia]. apply (away_weaken _ _ _ Ac). intro u. destruct u; auto; discriminate. }
      rbind.
      { eapply maybe_reads; [exact Cu| | |lia].
        - intros x X. apply (spn_reads _ _ _ _ _ X). apply p_currency_reads.
        - intros <-. apply fails_sp, p_currency_fails. apply (away_weaken _ _ _ Ad). intro u. destruct u; auto; discriminate. }
      rbind.
      { eapply spanned_option_reads; [exact Co| | |lia].
        - intros x X. apply p_cost_spec_reads. exact X.
        - intros <-. apply p_cost_spec_fails. intro X. apply Ae in X. discriminate. }
      rbind.
      { eapply spanned_option_reads; [exact Pr| | |lia].
        - intros x X. apply p_price_annotation_reads; [exact X|]. apply (away_weaken _ _ _ Af). intro u. destruct u; auto; discriminate.
        - intros <-. apply p_price_annotation_fails. apply (away_weaken _ _ _ Af). intro u. destruct u; auto; discriminate. }
      rret. fold n. lia.
    - eapply reads_bind with (es1 := []) (es2 := es'); [exact W_app|apply eol_reads; [exact L|lia]| |reflexivity].
      change (Reads (pmap (fun md => mk_spanned (mk_posting flag account amount currency cost price md) (text I (S i) f))
        (spn I (p_metadata E I po))) g k (mk_spanned (mk_posting flag account amount currency cost price md) (text I (S i) f)) t es').
      eapply reads_to; [apply p_metadata_reads; [exact M|lia|exact Stop]|reflexivity].
  Qed.

  (** All of them, up to a place where neither a metadata line nor a posting starts. *)
  Lemma postings_read i j l es t1 t2 : star (posting_at E I names) i j l es -> i <= n ->
    p_metadatum_line E I po j = Not t1 -> p_posting E I po j = Not t2 ->
    exists t0 t, p_metadatum_line E I po i = Not t0 /\ Reads (rep I (p_posting E I po)) i j l t es /\
      t0 ++ (W i j ++ t) = W i j ++ (t1 ++ t2).
  Proof.
    intros H Hi Stop1 Stop2. revert Hi.
    induction H as [i|i j k a l es es' P H IH]; intro Hi.
    - exists t1, t2. split; [exact Stop1|]. split; [|rewrite W_nil; reflexivity].
      apply (reads_many _ _ W_nil W_app 0); [apply p_posting_steps|lia|exact Hi|constructor|exact Stop2].
    - pose proof (posting_lt _ _ _ _ P) as B. destruct (IH Stop1 Stop2) as (t0 & t & M & [Q Qb] & X); [lia|].
      exists [], (t1 ++ t2). split; [eapply posting_no_metadata; exact P|]. split; [|reflexivity].
      destruct (p_posting_reads _ _ _ _ _ P M) as [R _]. split; [|lia]. unfold rep in *.
      rewrite (many_unfold toks 0 _ _ (p_posting_steps E I po 0)) by (fold n; lia). rewrite R, Q.
      rewrite (W_app i j k), <- !app_assoc, X by lia. reflexivity.
  Qed.
End Complete.
