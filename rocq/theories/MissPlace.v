(** * Where failing parsers say that they failed *)
From Coq Require Import String Ascii.
From Coq Require Import List NArith ZArith Arith Bool Lia.
From Verif Require Import Base Types Options Decimal Cost Token Peg Grammar Messages Miss MissGrammar SpecMiss.
Import ListNotations.
Local Open Scope nat_scope.

Section Place.
  (** The options in force at some time, and those in force now. *)
  Context (E : grammar_env) (I : input) (F : parser_options -> Prop) (po : parser_options) (F_po : F po).
  Let toks := in_tokens I.
  Let n := List.length toks.

  Definition fit (i : nat) (x : miss) : Prop :=
    i <= ms_at x <= n /\ ms_span x = place I (ms_at x) /\
    (forall c, ms_custom x = Some c -> exists t r po', nth_error toks (ms_at x) = Some (t, r) /\ F po' /\ refused E (po_names po') t c).
  Definition fits (i : nat) (m : misses) : Prop := forall x, m = Some x -> fit i x.

  Lemma fits_none i : fits i None.
  Proof. discriminate. Qed.
  Lemma fits_from i j m : i <= j -> fits j m -> fits i m.
  Proof. intros L H x X. destruct (H x X) as ((A & B) & D). split; [lia|exact D]. Qed.
  Lemma fits_further i a b : fits i a -> fits i b -> fits i (further a b).
  Proof.
    intros A B x. destruct a as [a|]; [|exact (B x)]. destruct b as [b|]; [|exact (A x)]. cbn [further].
    specialize (A a eq_refl). specialize (B b eq_refl).
    destruct (Nat.compare (ms_at a) (ms_at b)) eqn:Q; intro X; injection X as <-; [|exact B|exact A].
    apply Nat.compare_eq in Q. destruct A as (A1 & A2 & A3), B as (B1 & B2 & B3). split; [exact A1|]. split; [exact A2|].
    cbn [ms_custom ms_at]. intros c Hc. destruct (ms_custom a) as [c'|].
    - apply A3. exact Hc.
    - rewrite Q. apply B3. exact Hc.
  Qed.
  Lemma further_some a b : a <> None \/ b <> None -> further a b <> None.
  Proof.
    destruct a as [a|], b as [b|]; cbn [further]; try (intros [H|H]; congruence).
    intros _. destruct (Nat.compare (ms_at a) (ms_at b)); discriminate.
  Qed.

  Lemma end_place i : nth_error toks i = None -> i <= n ->
    span_at (in_source I) toks (in_len I) i i = place I i.
  Proof.
    intros N L. apply nth_error_None in N. fold n in N. assert (i = n) by lia. subst i.
    unfold span_at, place. fold toks.
    assert (X : nth_error toks n = None) by (apply nth_error_None; fold n; lia).
    unfold start_of. rewrite X. f_equal. unfold end_before. subst n.
    destruct (rev toks) as [|[t [a b]] l] eqn:R; pose proof (rev_involutive toks) as V; rewrite R in V; cbn [rev] in V; rewrite <- V; [reflexivity|].
    rewrite app_length. cbn [List.length]. rewrite Nat.add_1_r. rewrite nth_error_app2 by lia. rewrite Nat.sub_diag. reflexivity.
  Qed.
  Lemma token_place i : i < n -> span_at (in_source I) toks (in_len I) i (S i) = place I i.
  Proof.
    intros L. unfold span_at, place, start_of, end_before. fold toks. destruct (nth_error toks i) as [[t [a b]]|] eqn:N; [reflexivity|].
    apply nth_error_None in N. fold n in N. lia.
  Qed.
  Lemma fits_missed i : i <= n -> fits i (missed (in_source I) toks (in_len I) i).
  Proof.
    intros L x X. unfold missed in X. injection X as <-. split; [cbn; lia|]. split; [|discriminate]. cbn [ms_span ms_at].
    destruct (nth_error toks i) as [t|] eqn:N.
    - apply token_place. apply nth_error_Some. congruence.
    - apply end_place; assumption.
  Qed.

  Definition placed {A} (q : mparser A) : Prop := forall i, i <= n ->
    match q i with
    | (Got _ j _ _, m) => i <= j <= n /\ fits i m
    | (Not _, m) => m <> None /\ fits i m
    | _ => True
    end.

  Lemma placed_ret {A} (a : A) : placed (mret a).
  Proof. intros i L. split; [lia|apply fits_none]. Qed.
  Lemma placed_bind {A B} (q : mparser A) (g : A -> mparser B) : placed q -> (forall a, placed (g a)) -> placed (mbind q g).
  Proof.
    intros Q G i L. specialize (Q i L). unfold mbind. destruct (q i) as [[a j ws es|ws| |] m]; try exact Q.
    destruct Q as [[Q1 Q2] Q3]. specialize (G a j Q2). destruct (g a j) as [[b k ws' es'|ws'| |] m']; try exact Logic.I.
    - destruct G as [G1 G2]. split; [lia|]. apply fits_further; [exact Q3|]. apply fits_from with (j := j); assumption.
    - destruct G as [G1 G2]. split; [apply further_some; right; exact G1|].
      apply fits_further; [exact Q3|]. apply fits_from with (j := j); assumption.
  Qed.
  Lemma placed_map {A B} (f : A -> B) q : placed q -> placed (mmap f q).
  Proof. intro Q. apply placed_bind; [exact Q|]. intro a. apply placed_ret. Qed.
  Lemma placed_map_out {A B} (f : A -> outcome B) q : placed q -> placed (mmap_out f q).
  Proof.
    intros Q i L. specialize (Q i L). unfold mmap_out. destruct (q i) as [[a j ws es|ws| |] m]; try exact Q.
    destruct (f a); [exact Q|exact Logic.I].
  Qed.
  Lemma placed_validate {A B} (f : A -> B * list report) q : placed q -> placed (mvalidate f q).
  Proof.
    intros Q i L. specialize (Q i L). unfold mvalidate. destruct (q i) as [[a j ws es|ws| |] m]; try exact Q.
    destruct (f a); exact Q.
  Qed.
  Lemma placed_alt {A} (q q' : mparser A) : placed q -> placed q' -> placed (malt q q').
  Proof.
    intros Q Q' i L. specialize (Q i L). specialize (Q' i L). unfold malt. destruct (q i) as [[a j ws es|ws| |] m]; try exact Q.
    destruct (q' i) as [[a j ws' es|ws'| |] m']; try exact Logic.I; destruct Q as [Q1 Q2], Q' as [Q3 Q4].
    - split; [exact Q3|]. apply fits_further; assumption.
    - split; [apply further_some; left; exact Q1|]. apply fits_further; assumption.
  Qed.
  Lemma placed_choice_one {A} (q : mparser A) : placed q -> placed (mchoice [q]).
  Proof. exact (fun H => H). Qed.
  Lemma placed_choice_cons {A} (q q' : mparser A) qs : placed q -> placed (mchoice (q' :: qs)) -> placed (mchoice (q :: q' :: qs)).
  Proof. apply placed_alt. Qed.
  Lemma placed_opt {A} (q : mparser A) : placed q -> placed (mopt q).
  Proof.
    intros Q i L. specialize (Q i L). unfold mopt. destruct (q i) as [[a j ws es|ws| |] m]; try exact Q.
    split; [lia|exact (proj2 Q)].
  Qed.
  Lemma placed_many_n {A} f (q : mparser A) : placed q -> placed (mmany_n f q).
  Proof.
    intro Q. induction f as [|f IH]; intros i L; [exact Logic.I|]. cbn [mmany_n]. specialize (Q i L).
    destruct (q i) as [[a j ws es|ws| |] m]; try exact Logic.I.
    - destruct Q as [[Q1 Q2] Q3]. specialize (IH j Q2). destruct (mmany_n f q j) as [[b k ws' es'|ws'| |] m']; try exact Logic.I.
      + destruct IH as [G1 G2]. split; [lia|]. apply fits_further; [exact Q3|]. apply fits_from with (j := j); assumption.
      + destruct IH as [G1 G2]. split; [apply further_some; right; exact G1|].
        apply fits_further; [exact Q3|]. apply fits_from with (j := j); assumption.
    - split; [lia|exact (proj2 Q)].
  Qed.
  Lemma placed_rep {A} (q : mparser A) : placed q -> placed (mrep I q).
  Proof. intros Q i L. apply (placed_many_n _ q Q i L). Qed.
  Lemma placed_foldl {A B} (q : mparser A) (q' : mparser B) f : placed q -> placed q' -> placed (mfoldl toks q q' f).
  Proof.
    intros Q Q'. apply placed_bind; [exact Q|]. intro a. apply placed_bind; [exact (placed_rep _ Q')|]. intro l. apply placed_ret.
  Qed.
  Lemma placed_map_span {A B} (f : A -> span -> B) q : placed q -> placed (mmap_span (in_source I) toks (in_len I) f q).
  Proof.
    intros Q i L. specialize (Q i L). unfold mmap_span. destruct (q i) as [[a j ws es|ws| |] m]; exact Q.
  Qed.
  Lemma placed_spn {A} (q : mparser A) : placed q -> placed (mspn I q).
  Proof. apply placed_map_span. Qed.
  Lemma placed_sel {A} (f : token -> option A) : placed (msel I f).
  Proof.
    intros i L. unfold msel, mselect. fold toks. destruct (nth_error toks i) as [[t r]|] eqn:N.
    - assert (i < n) by (apply nth_error_Some; congruence). destruct (f t); [split; [lia|apply fits_none]|].
      split; [discriminate|apply fits_missed; exact L].
    - split; [discriminate|apply fits_missed; exact L].
  Qed.
  Lemma placed_just t : placed (mjust I t).
  Proof. apply placed_sel. Qed.
  Lemma placed_keyword k : placed (mkeyword I k).
  Proof. apply placed_sel. Qed.
  Lemma placed_at_end : placed (mat_end (in_source I) toks (in_len I)).
  Proof.
    intros i L. unfold mat_end. destruct (nth_error toks i) eqn:N; split; [discriminate|apply fits_missed; exact L|lia|apply fits_none].
  Qed.

  (** [try_map] of a parser of one token. *)
  Definition takes {A} (q : mparser A) (f : token -> option A) : Prop := forall i, i <= n ->
    match q i with
    | (Got a j _ _, m) => j = S i /\ m = None /\ exists t r, nth_error toks i = Some (t, r) /\ f t = Some a
    | (Not _, m) => m = missed (in_source I) toks (in_len I) i
    | _ => True
    end.
  Lemma takes_sel {A} (f : token -> option A) : takes (msel I f) f.
  Proof.
    intros i L. unfold msel, mselect. fold toks. destruct (nth_error toks i) as [[t r]|] eqn:N; [|reflexivity].
    destruct (f t) eqn:F'; [|reflexivity]. split; [reflexivity|]. split; [reflexivity|]. exists t, r. auto.
  Qed.
  Lemma placed_try {A B X} (show : X -> str) (f : A -> outcome (result B X)) (q : mparser A) (g : token -> option A) :
    takes q g ->
    (forall t a e, g t = Some a -> f a = Fine (Err e) -> refused E (po_names po) t (show e)) ->
    placed (mtry I show f q).
  Proof.
    intros T R i L. specialize (T i L). unfold mtry, mtry_map. fold toks. destruct (q i) as [[a j ws es|ws| |] m]; try exact Logic.I.
    - destruct T as (-> & -> & t & r & N & G). assert (L' : i < n) by (apply nth_error_Some; congruence).
      destruct (f a) as [[b|e]|] eqn:F'; try exact Logic.I.
      + split; [lia|apply fits_none].
      + split; [discriminate|]. cbn [further]. intros x X'. injection X' as <-. split; [cbn; lia|]. split; [apply token_place; exact L'|].
        cbn [ms_custom ms_at]. intros c Hc. injection Hc as <-. exists t, r, po. split; [exact N|]. split; [exact F_po|]. exact (R t a e G F').
    - subst m. split; [discriminate|apply fits_missed; exact L].
  Qed.
  (** [try_map] of a parser which has seen more. *)
  Lemma placed_try_seen {A B X} (show : X -> str) (f : A -> outcome (result B X)) (q : mparser A) :
    placed q ->
    (forall i, i <= n -> match q i with (Got _ _ _ _, m) => exists x, m = Some x /\ i < ms_at x | _ => True end) ->
    placed (mtry I show f q).
  Proof.
    intros Q H i L. specialize (Q i L). specialize (H i L). unfold mtry, mtry_map. fold toks. destruct (q i) as [[a j ws es|ws| |] m]; try exact Q.
    destruct H as (x & -> & Lx). destruct (f a) as [[b|e]|]; [exact Q| |exact Logic.I].
    split; [apply further_some; left; discriminate|]. cbn [further ms_at].
    replace (Nat.compare (ms_at x) i) with Gt by (symmetry; apply Nat.compare_gt_iff; exact Lx). exact (proj2 Q).
  Qed.

  Ltac placed :=
    repeat first
      [ solve [eauto 2 with placed] | apply placed_ret | apply placed_just | apply placed_keyword | apply placed_sel | apply placed_at_end
      | apply placed_bind; [|intro] | apply placed_map | apply placed_map_out | apply placed_validate | apply placed_opt
      | apply placed_rep | apply placed_spn | apply placed_map_span | apply placed_alt
      | apply placed_choice_one | apply placed_choice_cons | apply placed_foldl ].

  Create HintDb placed.
  Lemma placed_eol : placed (meol I).
  Proof. unfold meol. placed. Qed.
  Lemma placed_account : placed (q_account E I po).
  Proof.
    eapply placed_try; [apply takes_sel|]. intros t a e G F'. destruct t; try discriminate. injection G as <-. injection F' as F'.
    now constructor.
  Qed.
  Lemma placed_tag : placed (q_tag E I).
  Proof.
    eapply placed_try; [apply takes_sel|]. intros t a e G F'. destruct t; try discriminate. injection G as <-. injection F' as F'.
    now constructor.
  Qed.
  Lemma placed_link : placed (q_link E I).
  Proof.
    eapply placed_try; [apply takes_sel|]. intros t a e G F'. destruct t; try discriminate. injection G as <-. injection F' as F'.
    now constructor.
  Qed.
  Lemma placed_key : placed (q_key E I).
  Proof.
    eapply placed_try; [apply takes_sel|]. intros t a e G F'. destruct t; try discriminate. injection G as <-. injection F' as F'.
    now constructor.
  Qed.
  Lemma placed_currency : placed (q_currency I).
  Proof.
    eapply placed_try; [apply takes_sel|]. intros t a e G F'. destruct t; try discriminate. injection G as <-.
    now constructor.
  Qed.
  Lemma placed_date : placed (q_date I).
  Proof. apply placed_sel. Qed.
  Lemma placed_decimal : placed (q_decimal I).
  Proof. apply placed_sel. Qed.
  Lemma takes_string : takes (q_string I po) (fun t => match t with T_String s => Some s | _ => None end).
  Proof.
    intros i L. unfold q_string, mspn, msp, mmap_span. fold toks.
    pose proof (takes_sel (fun t => match t with T_String s => Some s | _ => None end) i L) as T.
    destruct (msel I (fun t => match t with T_String s => Some s | _ => None end) i) as [[a j ws es|ws| |] m]; exact T.
  Qed.
  Lemma placed_string : placed (q_string I po).
  Proof.
    intros i L. pose proof (takes_string i L) as T. destruct (q_string I po i) as [[a j ws es|ws| |] m]; try exact Logic.I.
    - destruct T as (-> & -> & t & r & N & _). assert (i < n) by (apply nth_error_Some; congruence). split; [lia|apply fits_none].
    - subst m. split; [discriminate|apply fits_missed; exact L].
  Qed.
  Lemma placed_booking : placed (q_booking I po).
  Proof.
    eapply placed_try; [apply takes_string|]. intros t a e G F'. destruct t; try discriminate. injection G as <-.
    destruct (booking_try_from s) eqn:B; [discriminate|]. now constructor.
  Qed.
  Hint Resolve placed_eol placed_account placed_tag placed_link placed_key placed_currency placed_date placed_decimal placed_string placed_booking : placed.
  Lemma placed_bool : placed (q_bool I).
  Proof. unfold q_bool. placed. Qed.
  Lemma placed_flag : placed (q_flag I).
  Proof. unfold q_flag. placed. Qed.
  Hint Resolve placed_bool placed_flag : placed.
  Lemma placed_txn : placed (q_txn I).
  Proof. unfold q_txn. placed. Qed.
  Hint Resolve placed_txn : placed.
  Lemma placed_factor q : placed q -> placed (q_factor I q).
  Proof. intro H. unfold q_factor, q_primary. placed. Qed.
  Lemma placed_product q : placed q -> placed (q_product I q).
  Proof. intro H. unfold q_product, q_product_rest. placed; apply placed_factor; exact H. Qed.
  Lemma placed_sum q : placed q -> placed (q_sum I q).
  Proof. intro H. unfold q_sum, q_sum_rest. placed; apply placed_product; exact H. Qed.
  Lemma placed_expr_n f : placed (mexpr_n I f).
  Proof. induction f as [|f IH]; [intros i L; exact Logic.I|]. exact (placed_sum _ IH). Qed.
  Lemma placed_expr : placed (q_expr I).
  Proof. intros i L. apply (placed_expr_n _ i L). Qed.
  Hint Resolve placed_expr : placed.
  Lemma placed_expr_value : placed (q_expr_value E I).
  Proof. unfold q_expr_value. placed. Qed.
  Hint Resolve placed_expr_value : placed.
  Lemma placed_amount : placed (q_amount E I).
  Proof. unfold q_amount. placed. Qed.
  Hint Resolve placed_amount : placed.
  Lemma placed_amount_tol : placed (q_amount_with_tolerance E I).
  Proof. unfold q_amount_with_tolerance. placed. Qed.
  Lemma placed_compound_expr : placed (q_compound_expr E I).
  Proof. unfold q_compound_expr. placed. Qed.
  Hint Resolve placed_amount_tol placed_compound_expr : placed.
  Lemma placed_compound_amount : placed (q_compound_amount E I).
  Proof. unfold q_compound_amount. placed. Qed.
  Lemma placed_price_annotation : placed (q_price_annotation E I).
  Proof. unfold q_price_annotation. placed. Qed.
  Hint Resolve placed_compound_amount placed_price_annotation : placed.
  Lemma placed_cost_comp : placed (q_cost_comp E I po).
  Proof. unfold q_cost_comp. placed. Qed.
  Hint Resolve placed_cost_comp : placed.

  (** Parsers which look at a token more than those they read. *)
  Definition seen {A} (q : mparser A) : Prop := forall i, i <= n ->
    match q i with (Got _ _ _ _, m) => m <> None | _ => True end.
  Lemma seen_bind_l {A B} (q : mparser A) (g : A -> mparser B) : seen q -> seen (mbind q g).
  Proof.
    intros S' i L. specialize (S' i L). unfold mbind. destruct (q i) as [[a j ws es|ws| |] m]; try exact Logic.I.
    destruct (g a j) as [[b k ws' es'|ws'| |] m']; try exact Logic.I. apply further_some. left. exact S'.
  Qed.
  Lemma seen_bind_r {A B} (q : mparser A) (g : A -> mparser B) : placed q -> (forall a, seen (g a)) -> seen (mbind q g).
  Proof.
    intros Q G i L. specialize (Q i L). unfold mbind. destruct (q i) as [[a j ws es|ws| |] m]; try exact Logic.I.
    specialize (G a j (proj2 (proj1 Q))).
    destruct (g a j) as [[b k ws' es'|ws'| |] m']; try exact Logic.I. apply further_some. right. exact G.
  Qed.
  Lemma seen_many_n {A} f (q : mparser A) : placed q -> seen (mmany_n f q).
  Proof.
    intro Q. induction f as [|f IH]; intros i L; [exact Logic.I|]. cbn [mmany_n]. specialize (Q i L).
    destruct (q i) as [[a j ws es|ws| |] m]; try exact Logic.I.
    - specialize (IH j (proj2 (proj1 Q))). destruct (mmany_n f q j) as [[b k ws' es'|ws'| |] m']; try exact Logic.I.
      apply further_some. right. exact IH.
    - exact (proj1 Q).
  Qed.
  Lemma seen_rep {A} (q : mparser A) : placed q -> seen (mrep I q).
  Proof. intros Q i L. apply (seen_many_n _ q Q i L). Qed.
  Lemma seen_opt {A} (q : mparser A) : placed q -> seen q -> seen (mopt q).
  Proof.
    intros Q S' i L. specialize (Q i L). specialize (S' i L). unfold mopt. destruct (q i) as [[a j ws es|ws| |] m]; try exact Logic.I.
    - exact S'.
    - exact (proj1 Q).
  Qed.
  Lemma seen_after {A} t (q : mparser A) : placed q -> seen q -> forall i, i <= n ->
    match mbind (mjust I t) (fun _ => q) i with (Got _ _ _ _, m) => exists x, m = Some x /\ i < ms_at x | _ => True end.
  Proof.
    intros Q S' i L. unfold mbind. pose proof (takes_sel (fun x => if token_eq_dec x t then Some x else None) i L) as T.
    change (msel I (fun x => if token_eq_dec x t then Some x else None)) with (mjust I t) in T.
    destruct (mjust I t i) as [[a j ws es|ws| |] m]; try exact Logic.I. destruct T as (-> & -> & t' & r & N & _).
    assert (L' : S i <= n) by (apply nth_error_Some; congruence). specialize (Q (S i) L'). specialize (S' (S i) L').
    destruct (q (S i)) as [[b k ws' es'|ws'| |] m']; try exact Logic.I. cbn [further]. destruct m' as [x|]; [|now destruct S'].
    exists x. split; [reflexivity|]. destruct Q as [_ Q]. destruct (Q x eq_refl) as [[Q1 _] _]. exact Q1.
  Qed.

  Lemma placed_cost_spec : placed (q_cost_spec E I po).
  Proof.
    apply placed_try_seen; [placed|]. apply seen_after; [placed|].
    apply seen_bind_l. apply seen_opt; [placed|]. apply seen_bind_r; [placed|]. intro h. apply seen_bind_l. apply seen_rep. placed.
  Qed.
  Hint Resolve placed_cost_spec : placed.
  Lemma placed_simple_value : placed (q_simple_value E I po).
  Proof. unfold q_simple_value. placed. Qed.
  Hint Resolve placed_simple_value : placed.
  Lemma placed_meta_value : placed (q_meta_value E I po).
  Proof. unfold q_meta_value. placed. Qed.
  Hint Resolve placed_meta_value : placed.
  Lemma placed_meta_key_value : placed (q_meta_key_value E I po).
  Proof. unfold q_meta_key_value. placed. Qed.
  Hint Resolve placed_meta_key_value : placed.
  Lemma placed_metadatum_line : placed (q_metadatum_line E I po).
  Proof. unfold q_metadatum_line. placed. Qed.
  Hint Resolve placed_metadatum_line : placed.
  Lemma placed_metadata : placed (q_metadata E I po).
  Proof. unfold q_metadata. placed. Qed.
  Lemma placed_tags_links : placed (q_tags_links E I).
  Proof. unfold q_tags_links. placed. Qed.
  Hint Resolve placed_metadata placed_tags_links : placed.
  Lemma placed_posting : placed (q_posting E I po).
  Proof. unfold q_posting. placed. Qed.
  Lemma placed_transaction_header : placed (q_transaction_header E I po).
  Proof. unfold q_transaction_header. placed. Qed.
  Hint Resolve placed_posting placed_transaction_header : placed.
  Lemma placed_transaction : placed (q_transaction E I po).
  Proof. unfold q_transaction. placed. Qed.
  Lemma placed_line k q : placed q -> placed (q_line E I po k q).
  Proof. intro H. unfold q_line. placed. Qed.
  Lemma placed_currency_list : placed (q_currency_list I).
  Proof. unfold q_currency_list. placed. Qed.
  Hint Resolve placed_transaction placed_currency_list : placed.
  Lemma placed_directive : placed (q_directive E I po).
  Proof.
    unfold q_directive.
    unfold q_price, q_balance, q_open, q_close, q_commodity, q_pad, q_document, q_note, q_event, q_query, q_custom.
    repeat first [apply placed_line | progress placed].
  Qed.
  Lemma placed_pushtag : placed (q_pushtag E I).
  Proof. unfold q_pushtag. placed. Qed.
  Lemma placed_poptag : placed (q_poptag E I).
  Proof. unfold q_poptag. placed. Qed.
  Lemma placed_pushmeta : placed (q_pushmeta E I po).
  Proof. unfold q_pushmeta. placed. Qed.
  Lemma placed_popmeta : placed (q_popmeta E I).
  Proof. unfold q_popmeta. placed. Qed.
  Lemma placed_include : placed (q_include I po).
  Proof. unfold q_include. placed. Qed.
  Lemma placed_plugin : placed (q_plugin I po).
  Proof. unfold q_plugin. placed. Qed.
  Lemma placed_option_tokens : placed (q_option_tokens I po).
  Proof. unfold q_option_tokens. placed. Qed.
End Place.
