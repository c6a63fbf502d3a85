(** * The grammar with misses gives the same results as that without *)
From Coq Require Import String Ascii.
From Coq Require Import List NArith ZArith Arith Bool Lia.
From Verif Require Import Base Types Options Decimal Cost Token Peg Grammar Miss MissGrammar.
Import ListNotations.
Local Open Scope nat_scope.

Definition same {A} (p : parser A) (q : mparser A) : Prop := forall i, fst (q i) = p i.

Lemma same_ret {A} (a : A) : same (ret a) (mret a).
Proof. intro i. reflexivity. Qed.
Lemma same_bind {A B} (p : parser A) q (f : A -> parser B) g :
  same p q -> (forall a, same (f a) (g a)) -> same (bind p f) (mbind q g).
Proof.
  intros H F i. specialize (H i). unfold bind, mbind. destruct (q i) as [r m]. cbn in H. rewrite <- H.
  destruct r as [a j ws es|ws| |]; try reflexivity. specialize (F a j). destruct (g a j) as [r' m']. cbn in F. rewrite <- F. reflexivity.
Qed.
Lemma same_map {A B} (f : A -> B) p q : same p q -> same (pmap f p) (mmap f q).
Proof. intro H. apply same_bind; [exact H|]. intro a. apply same_ret. Qed.
Lemma same_map_out {A B} (f : A -> outcome B) p q : same p q -> same (pmap_out f p) (mmap_out f q).
Proof. intros H i. specialize (H i). unfold pmap_out, mmap_out. destruct (q i) as [r m]. cbn in H. rewrite <- H. reflexivity. Qed.
Lemma same_validate {A B} (f : A -> B * list report) p q : same p q -> same (validate f p) (mvalidate f q).
Proof. intros H i. specialize (H i). unfold validate, mvalidate. destruct (q i) as [r m]. cbn in H. rewrite <- H. reflexivity. Qed.
Lemma same_alt {A} (p p' : parser A) q q' : same p q -> same p' q' -> same (alt p p') (malt q q').
Proof.
  intros H H' i. specialize (H i). specialize (H' i). unfold alt, malt. destruct (q i) as [r m]. cbn in H. rewrite <- H.
  destruct r as [a j ws es|ws| |]; try reflexivity. destruct (q' i) as [r' m']. cbn in H'. rewrite <- H'. reflexivity.
Qed.
Lemma same_choice_nil {A} : same (choice (A := A) []) (mchoice []).
Proof. intro i. reflexivity. Qed.
Lemma same_choice_one {A} (p : parser A) q : same p q -> same (choice [p]) (mchoice [q]).
Proof. exact (fun H => H). Qed.
Lemma same_choice_cons {A} (p p' : parser A) q q' ps qs :
  same p q -> same (choice (p' :: ps)) (mchoice (q' :: qs)) -> same (choice (p :: p' :: ps)) (mchoice (q :: q' :: qs)).
Proof. intros H H'. apply same_alt; assumption. Qed.
Lemma same_opt {A} (p : parser A) q : same p q -> same (opt p) (mopt q).
Proof. intros H i. specialize (H i). unfold opt, mopt. destruct (q i) as [r m]. cbn in H. rewrite <- H. reflexivity. Qed.
Lemma same_many_n {A} n (p : parser A) q : same p q -> same (many_n n p) (mmany_n n q).
Proof.
  intro H. induction n as [|n IH]; intro i; [reflexivity|]. cbn [many_n mmany_n]. specialize (H i). destruct (q i) as [r m]. cbn in H. rewrite <- H.
  destruct r as [a j ws es|ws| |]; try reflexivity. specialize (IH j). destruct (mmany_n n q j) as [r' m']. cbn in IH. rewrite <- IH. reflexivity.
Qed.

Section Grammar.
  Context (E : grammar_env) (I : input) (po : parser_options).

  Lemma same_sel {A} (f : token -> option A) : same (sel I f) (msel I f).
  Proof.
    intro i. unfold sel, msel, select, mselect. destruct (nth_error (in_tokens I) i) as [[t r]|]; [|reflexivity]. now destruct (f t).
  Qed.
  Lemma same_just t : same (just I t) (mjust I t).
  Proof. apply same_sel. Qed.
  Lemma same_keyword k : same (keyword_ I k) (mkeyword I k).
  Proof. apply same_sel. Qed.
  Lemma same_rep {A} (p : parser A) q : same p q -> same (rep I p) (mrep I q).
  Proof. intros H i. apply same_many_n. exact H. Qed.
  Lemma same_map_span {A B} (f : A -> span -> B) p q : same p q ->
    same (map_span (in_source I) (in_tokens I) (in_len I) f p) (mmap_span (in_source I) (in_tokens I) (in_len I) f q).
  Proof. intros H i. specialize (H i). unfold map_span, mmap_span. destruct (q i) as [r m]. cbn in H. rewrite <- H. reflexivity. Qed.
  Lemma same_spn {A} (p : parser A) q : same p q -> same (spn I p) (mspn I q).
  Proof. apply same_map_span. Qed.
  Lemma same_try {A B X} (show : X -> str) (f : A -> outcome (result B X)) p q : same p q -> same (try_map f p) (mtry I show f q).
  Proof.
    intros H i. specialize (H i). unfold try_map, mtry, mtry_map. destruct (q i) as [r m]. cbn in H. rewrite <- H.
    destruct r as [a j ws es|ws| |]; try reflexivity. destruct (f a) as [[b|e]|]; reflexivity.
  Qed.
  Lemma same_at_end : same (at_end (in_tokens I)) (mat_end (in_source I) (in_tokens I) (in_len I)).
  Proof. intro i. unfold at_end, mat_end. now destruct (nth_error (in_tokens I) i). Qed.
  Lemma same_foldl {A B} (p : parser A) (q : parser B) p' q' f : same p p' -> same q q' ->
    same (foldl (in_tokens I) p q f) (mfoldl (in_tokens I) p' q' f).
  Proof.
    intros H H'. apply same_bind; [exact H|]. intro a. apply same_bind; [|intro l; apply same_ret].
    exact (same_rep _ _ H').
  Qed.

  Create HintDb same.
  Ltac same :=
    repeat first
      [ solve [eauto 2 with same] | apply same_ret | apply same_just | apply same_keyword | apply same_sel | apply same_at_end
      | apply same_bind; [|intro] | apply same_map | apply same_map_out | apply same_validate | apply same_opt
      | apply same_rep | apply same_spn | apply same_map_span | apply same_try | apply same_alt
      | apply same_choice_one | apply same_choice_cons | apply same_foldl ].

  Lemma same_eol : same (eol I) (meol I).
  Proof. unfold eol, meol. same. Qed.
  Hint Resolve same_eol : same.
  Lemma same_account : same (p_account E I po) (q_account E I po).
  Proof. unfold p_account, q_account. same. Qed.
  Lemma same_tag : same (p_tag E I) (q_tag E I).
  Proof. unfold p_tag, q_tag. same. Qed.
  Lemma same_link : same (p_link E I) (q_link E I).
  Proof. unfold p_link, q_link. same. Qed.
  Lemma same_key : same (p_key E I) (q_key E I).
  Proof. unfold p_key, q_key. same. Qed.
  Lemma same_currency : same (p_currency I) (q_currency I).
  Proof. unfold p_currency, q_currency. same. Qed.
  Lemma same_date : same (p_date I) (q_date I).
  Proof. unfold p_date, q_date. same. Qed.
  Lemma same_decimal : same (p_decimal I) (q_decimal I).
  Proof. unfold p_decimal, q_decimal. same. Qed.
  Lemma same_string : same (p_string I po) (q_string I po).
  Proof.
    intro i. unfold p_string, q_string.
    pose proof (same_spn _ _ (same_sel (fun t => match t with T_String s => Some s | _ => None end)) i) as H.
    destruct (mspn I (msel I (fun t => match t with T_String s => Some s | _ => None end)) i) as [r m]. cbn in H. rewrite <- H. reflexivity.
  Qed.
  Lemma same_bool : same (p_bool I) (q_bool I).
  Proof. unfold p_bool, q_bool. same. Qed.
  Lemma same_flag : same (p_flag I) (q_flag I).
  Proof. unfold p_flag, q_flag. same. Qed.
  Hint Resolve same_account same_tag same_link same_key same_currency same_date same_decimal same_string same_bool same_flag : same.
  Lemma same_txn : same (p_txn I) (q_txn I).
  Proof. unfold p_txn, q_txn. same. Qed.
  Lemma same_booking : same (p_booking I po) (q_booking I po).
  Proof. unfold p_booking, q_booking. same. Qed.
  Hint Resolve same_txn same_booking : same.

  Lemma same_factor p q : same p q -> same (p_factor I p) (q_factor I q).
  Proof. intro H. unfold p_factor, q_factor, p_primary, q_primary. same. Qed.
  Lemma same_product p q : same p q -> same (p_product I p) (q_product I q).
  Proof. intro H. unfold p_product, q_product, p_product_rest, q_product_rest. same; apply same_factor; exact H. Qed.
  Lemma same_sum p q : same p q -> same (p_sum I p) (q_sum I q).
  Proof. intro H. unfold p_sum, q_sum, p_sum_rest, q_sum_rest. same; apply same_product; exact H. Qed.
  Lemma same_expr_n n : same (expr_n I n) (mexpr_n I n).
  Proof. induction n as [|n IH]; [intro i; reflexivity|]. exact (same_sum _ _ IH). Qed.
  Lemma same_expr : same (p_expr I) (q_expr I).
  Proof. intro i. apply same_expr_n. Qed.
  Hint Resolve same_expr : same.
  Lemma same_expr_value : same (p_expr_value E I) (q_expr_value E I).
  Proof. unfold p_expr_value, q_expr_value. same. Qed.
  Hint Resolve same_expr_value : same.
  Lemma same_amount : same (p_amount E I) (q_amount E I).
  Proof. unfold p_amount, q_amount. same. Qed.
  Hint Resolve same_amount : same.
  Lemma same_amount_tol : same (p_amount_with_tolerance E I) (q_amount_with_tolerance E I).
  Proof. unfold p_amount_with_tolerance, q_amount_with_tolerance. same. Qed.
  Lemma same_compound_expr : same (p_compound_expr E I) (q_compound_expr E I).
  Proof. unfold p_compound_expr, q_compound_expr. same. Qed.
  Hint Resolve same_amount_tol same_compound_expr : same.
  Lemma same_compound_amount : same (p_compound_amount E I) (q_compound_amount E I).
  Proof. unfold p_compound_amount, q_compound_amount. same. Qed.
  Lemma same_price_annotation : same (p_price_annotation E I) (q_price_annotation E I).
  Proof. unfold p_price_annotation, q_price_annotation. same. Qed.
  Hint Resolve same_compound_amount same_price_annotation : same.
  Lemma same_cost_comp : same (p_cost_comp E I po) (q_cost_comp E I po).
  Proof. unfold p_cost_comp, q_cost_comp. same. Qed.
  Hint Resolve same_cost_comp : same.
  Lemma same_cost_spec : same (p_cost_spec E I po) (q_cost_spec E I po).
  Proof. unfold p_cost_spec, q_cost_spec. same. Qed.
  Lemma same_simple_value : same (p_simple_value E I po) (q_simple_value E I po).
  Proof. unfold p_simple_value, q_simple_value. same. Qed.
  Hint Resolve same_cost_spec same_simple_value : same.
  Lemma same_meta_value : same (p_meta_value E I po) (q_meta_value E I po).
  Proof. unfold p_meta_value, q_meta_value. same. Qed.
  Hint Resolve same_meta_value : same.
  Lemma same_meta_key_value : same (p_meta_key_value E I po) (q_meta_key_value E I po).
  Proof. unfold p_meta_key_value, q_meta_key_value. same. Qed.
  Hint Resolve same_meta_key_value : same.
  Lemma same_metadatum_line : same (p_metadatum_line E I po) (q_metadatum_line E I po).
  Proof. unfold p_metadatum_line, q_metadatum_line. same. Qed.
  Hint Resolve same_metadatum_line : same.
  Lemma same_metadata : same (p_metadata E I po) (q_metadata E I po).
  Proof. unfold p_metadata, q_metadata. same. Qed.
  Lemma same_tags_links : same (p_tags_links E I) (q_tags_links E I).
  Proof. unfold p_tags_links, q_tags_links. same. Qed.
  Hint Resolve same_metadata same_tags_links : same.
  Lemma same_posting : same (p_posting E I po) (q_posting E I po).
  Proof. unfold p_posting, q_posting. same. Qed.
  Lemma same_transaction_header : same (p_transaction_header E I po) (q_transaction_header E I po).
  Proof. unfold p_transaction_header, q_transaction_header. same. Qed.
  Hint Resolve same_posting same_transaction_header : same.
  Lemma same_transaction : same (p_transaction E I po) (q_transaction E I po).
  Proof. unfold p_transaction, q_transaction. same. Qed.
  Lemma same_line k f g : same f g -> same (p_line E I po k f) (q_line E I po k g).
  Proof. intro H. unfold p_line, q_line. same. Qed.
  Lemma same_currency_list : same (p_currency_list I) (q_currency_list I).
  Proof. unfold p_currency_list, q_currency_list. same. Qed.
  Hint Resolve same_transaction same_currency_list : same.
  Lemma same_directive : same (p_directive E I po) (q_directive E I po).
  Proof.
    unfold p_directive, q_directive.
    unfold p_price, q_price, p_balance, q_balance, p_open, q_open, p_close, q_close, p_commodity, q_commodity, p_pad, q_pad,
      p_document, q_document, p_note, q_note, p_event, q_event, p_query, q_query, p_custom, q_custom.
    repeat first [apply same_line | progress same].
  Qed.
  Lemma same_pushtag : same (p_pushtag E I) (q_pushtag E I).
  Proof. unfold p_pushtag, q_pushtag. same. Qed.
  Lemma same_poptag : same (p_poptag E I) (q_poptag E I).
  Proof. unfold p_poptag, q_poptag. same. Qed.
  Lemma same_pushmeta : same (p_pushmeta E I po) (q_pushmeta E I po).
  Proof. unfold p_pushmeta, q_pushmeta. same. Qed.
  Lemma same_popmeta : same (p_popmeta E I) (q_popmeta E I).
  Proof. unfold p_popmeta, q_popmeta. same. Qed.
  Lemma same_include : same (p_include I po) (q_include I po).
  Proof. unfold p_include, q_include. same. Qed.
  Lemma same_plugin : same (p_plugin I po) (q_plugin I po).
  Proof. unfold p_plugin, q_plugin. same. Qed.
  Lemma same_option_tokens : same (p_option_tokens I po) (q_option_tokens I po).
  Proof. unfold p_option_tokens, q_option_tokens. same. Qed.
End Grammar.
