(** * The parsers end, move on, and panic only where arithmetic does *)
From Coq Require Import String Ascii.
From Coq Require Import List NArith Arith Bool Lia Permutation.
From Verif Require Import Base BaseFacts Types SpecTypes TypesFacts P_Types Options Decimal SpecDecimal P_Expr Cost SpecCost P_Cost
  Token Peg Grammar SpecGrammar PegFacts ExprFacts DedupFacts GrammarSound.
Import ListNotations.
Local Open Scope nat_scope.

Section Safe.
  Context (E : grammar_env) (I : input) (po : parser_options).
  Notation toks := (in_tokens I).

  Lemma sel_steps {A} lo (f : token -> option A) : steps toks lo (sel I f).
  Proof. apply steps_select. Qed.
  Lemma spn_steps {A} lo (p : parser A) : steps toks lo p -> steps toks lo (spn I p).
  Proof. apply steps_sp. Qed.
  Lemma spn_safe {A} lo (p : parser A) : safe toks lo p -> safe toks lo (spn I p).
  Proof. apply safe_sp. Qed.
  Lemma rep_safe {A} lo (p : parser A) : steps toks lo p -> safe toks lo (rep I p).
  Proof. apply safe_many. Qed.
  Lemma keyword_steps lo k : steps toks lo (keyword_ I k).
  Proof. apply just_steps. Qed.
  Lemma p_string_steps lo : steps toks lo (p_string I po).
  Proof.
    intros i Lo Hi. unfold p_string.
    pose proof (spn_steps lo _ (sel_steps lo (fun t => match t with T_String s => Some s | _ => None end)) i Lo Hi) as S.
    destruct (spn I _ i); auto.
  Qed.
  Lemma eol_safe lo : safe toks lo (eol I).
  Proof. apply safe_choice. repeat constructor; [apply safe_pmap, steps_safe, just_steps|apply safe_at_end]. Qed.
  Lemma p_expr_value_steps lo : steps toks lo (p_expr_value E I).
  Proof. apply steps_pmap_out, p_expr_steps. Qed.

  (** One step of the search for a proof that a parser is safe or steps. *)
  Ltac go :=
    lazymatch goal with
    | |- forall _, _ => intro; go
    | |- Forall _ [] => constructor
    | |- Forall _ (_ :: _) => constructor; go
    | |- steps _ _ (sel _ _) => apply sel_steps
    | |- steps _ _ (just _ _) => apply just_steps
    | |- steps _ _ (keyword_ _ _) => apply keyword_steps
    | |- steps _ _ (spn _ _) => apply spn_steps; go
    | |- steps _ _ (pmap _ _) => apply steps_pmap; go
    | |- steps _ _ (pmap_out _ _) => apply steps_pmap_out; go
    | |- steps _ _ (try_map _ _) => apply steps_try_map; go
    | |- steps _ _ (validate _ _) => apply steps_validate; go
    | |- steps _ _ (map_span _ _ _ _ _) => apply steps_map_span; go
    | |- steps _ _ (alt _ _) => apply steps_alt; go
    | |- steps _ _ (choice _) => apply steps_choice; go
    | |- steps _ _ (p_string _ _) => apply p_string_steps
    | |- steps _ _ (p_expr_value _ _) => apply p_expr_value_steps
    | |- steps _ _ (bind (opt _) _) => apply steps_bind_r; go
    | |- steps _ _ (bind _ _) => apply steps_bind_l; go
    | |- safe _ _ (ret _) => apply safe_ret
    | |- safe _ _ (opt _) => apply safe_opt; go
    | |- safe _ _ (rep _ _) => apply rep_safe; go
    | |- safe _ _ (eol _) => apply eol_safe
    | |- safe _ _ (bind _ _) => apply safe_bind; go
    | |- safe _ _ (pmap _ _) => apply safe_pmap; go
    | |- safe _ _ (validate _ _) => apply safe_validate; go
    | |- safe _ _ (try_map _ _) => apply safe_try_map; go
    | |- safe _ _ (spn _ _) => apply spn_safe; go
    | |- safe _ _ _ => first [solve [eauto 2 with peg] | apply steps_safe; go]
    | |- steps _ _ _ => solve [eauto 2 with peg]
    end.
  Hint Resolve p_expr_value_steps p_string_steps : peg.

  Lemma p_account_steps lo : steps toks lo (p_account E I po). Proof. unfold p_account. go. Qed.
  Lemma p_tag_steps lo : steps toks lo (p_tag E I). Proof. unfold p_tag. go. Qed.
  Lemma p_link_steps lo : steps toks lo (p_link E I). Proof. unfold p_link. go. Qed.
  Lemma p_key_steps lo : steps toks lo (p_key E I). Proof. unfold p_key. go. Qed.
  Lemma p_currency_steps lo : steps toks lo (p_currency I). Proof. unfold p_currency. go. Qed.
  Lemma p_date_steps lo : steps toks lo (p_date I). Proof. unfold p_date. go. Qed.
  Lemma p_decimal_steps lo : steps toks lo (p_decimal I). Proof. unfold p_decimal. go. Qed.
  Lemma p_bool_steps lo : steps toks lo (p_bool I). Proof. unfold p_bool. go. Qed.
  Lemma p_flag_steps lo : steps toks lo (p_flag I). Proof. unfold p_flag. go. Qed.
  Hint Resolve p_account_steps p_tag_steps p_link_steps p_key_steps p_currency_steps p_date_steps p_decimal_steps
    p_bool_steps p_flag_steps : peg.
  Lemma p_txn_steps lo : steps toks lo (p_txn I). Proof. unfold p_txn. go. Qed.
  Lemma p_booking_steps lo : steps toks lo (p_booking I po). Proof. unfold p_booking. go. Qed.
  Lemma p_amount_steps lo : steps toks lo (p_amount E I). Proof. unfold p_amount. go. Qed.
  Hint Resolve p_txn_steps p_booking_steps p_amount_steps : peg.
  Lemma p_amount_with_tolerance_steps lo : steps toks lo (p_amount_with_tolerance E I).
  Proof. unfold p_amount_with_tolerance. go. Qed.
  Lemma p_compound_expr_steps lo : steps toks lo (p_compound_expr E I).
  Proof. unfold p_compound_expr. go. Qed.
  Hint Resolve p_amount_with_tolerance_steps p_compound_expr_steps : peg.
  Lemma p_compound_amount_steps lo : steps toks lo (p_compound_amount E I).
  Proof. unfold p_compound_amount. go. Qed.
  Lemma p_price_annotation_steps lo : steps toks lo (p_price_annotation E I).
  Proof. unfold p_price_annotation. go. Qed.
  Hint Resolve p_compound_amount_steps p_price_annotation_steps : peg.
  Lemma p_cost_comp_steps lo : steps toks lo (p_cost_comp E I po). Proof. unfold p_cost_comp. go. Qed.
  Hint Resolve p_cost_comp_steps : peg.
  Lemma p_cost_spec_steps lo : steps toks lo (p_cost_spec E I po). Proof. unfold p_cost_spec. go. Qed.
  Lemma p_simple_value_steps lo : steps toks lo (p_simple_value E I po). Proof. unfold p_simple_value. go. Qed.
  Hint Resolve p_cost_spec_steps p_simple_value_steps : peg.
  Lemma p_meta_value_steps lo : steps toks lo (p_meta_value E I po). Proof. unfold p_meta_value. go. Qed.
  Hint Resolve p_meta_value_steps : peg.
  Lemma p_meta_key_value_steps lo : steps toks lo (p_meta_key_value E I po). Proof. unfold p_meta_key_value. go. Qed.
  Hint Resolve p_meta_key_value_steps : peg.
  Lemma p_metadatum_line_steps lo : steps toks lo (p_metadatum_line E I po). Proof. unfold p_metadatum_line. go. Qed.
  Hint Resolve p_metadatum_line_steps : peg.
  Lemma p_metadata_safe lo : safe toks lo (p_metadata E I po). Proof. unfold p_metadata. go. Qed.
  Lemma p_tags_links_safe lo : safe toks lo (p_tags_links E I). Proof. unfold p_tags_links. go. Qed.
  Hint Resolve p_metadata_safe p_tags_links_safe : peg.
  Lemma p_posting_steps lo : steps toks lo (p_posting E I po). Proof. unfold p_posting. go. Qed.
  Lemma p_currency_list_safe lo : safe toks lo (p_currency_list I). Proof. unfold p_currency_list. go. Qed.
  Lemma p_transaction_header_steps lo : steps toks lo (p_transaction_header E I po).
  Proof. unfold p_transaction_header. go. Qed.
  Hint Resolve p_posting_steps p_currency_list_safe p_transaction_header_steps : peg.
  Lemma p_transaction_steps lo : steps toks lo (p_transaction E I po). Proof. unfold p_transaction. go. Qed.
  Lemma p_line_steps lo k f : safe toks lo f -> steps toks lo (p_line E I po k f).
  Proof. intro F. unfold p_line. go. Qed.
  Lemma p_custom_steps lo : steps toks lo (p_custom E I po). Proof. unfold p_custom. go. Qed.
  Lemma p_directive_steps lo : steps toks lo (p_directive E I po).
  Proof.
    unfold p_directive. apply steps_choice. constructor; [apply p_transaction_steps|]. constructor; [|constructor].
    apply steps_choice.
    unfold p_price, p_balance, p_open, p_close, p_commodity, p_pad, p_document, p_note, p_event, p_query.
    repeat (apply Forall_cons; [first [apply p_custom_steps | apply p_line_steps; go]|]). constructor.
  Qed.
  Lemma p_pushtag_steps lo : steps toks lo (p_pushtag E I). Proof. unfold p_pushtag. go. Qed.
  Lemma p_poptag_steps lo : steps toks lo (p_poptag E I). Proof. unfold p_poptag. go. Qed.
  Lemma p_pushmeta_steps lo : steps toks lo (p_pushmeta E I po). Proof. unfold p_pushmeta. go. Qed.
  Lemma p_popmeta_steps lo : steps toks lo (p_popmeta E I). Proof. unfold p_popmeta. go. Qed.
  Lemma p_include_steps lo : steps toks lo (p_include I po). Proof. unfold p_include. go. Qed.
  Lemma p_plugin_steps lo : steps toks lo (p_plugin I po). Proof. unfold p_plugin. go. Qed.
  Lemma p_option_tokens_steps lo : steps toks lo (p_option_tokens I po). Proof. unfold p_option_tokens. go. Qed.

  (** ** Panics *)

  (** The currencies are ASCII, and every expression has a value. *)
  Context (Hc : forall i s, tok I i (T_Currency s) -> Forall ascii s)
          (He : forall i j e, may_start I i -> longest (sum I) i j e -> exists v, worth (g_ops E) v /\ ev_expr v = e).

  Lemma rep_quiet {A} (p : parser A) : quiet p -> quiet (rep I p).
  Proof. apply quiet_many. Qed.
  Lemma spn_quiet {A} (p : parser A) : quiet p -> quiet (spn I p).
  Proof. apply quiet_sp. Qed.
  Lemma sel_quiet {A} (f : token -> option A) : quiet (sel I f).
  Proof. apply quiet_select. Qed.
  Lemma just_quiet t : quiet (just I t).
  Proof. apply quiet_select. Qed.
  Lemma eol_quiet : quiet (eol I).
  Proof. apply quiet_choice. repeat constructor; [apply quiet_pmap, just_quiet|apply quiet_at_end]. Qed.
  Lemma p_string_quiet : quiet (p_string I po).
  Proof.
    intro i. unfold p_string. pose proof (spn_quiet _ (sel_quiet (fun t => match t with T_String s => Some s | _ => None end)) i) as S.
    destruct (spn I _ i); congruence.
  Qed.
  Lemma p_currency_quiet : quiet (p_currency I).
  Proof.
    intro i. unfold p_currency, try_map. pose proof (fun s => Hc i s) as H. unfold sel, select, tok in *.
    destruct (nth_error toks i) as [[t r]|]; [|discriminate]. destruct t; try discriminate.
    specialize (H s (ex_intro _ r eq_refl)). destruct (currency_try_from s) as [[|]|] eqn:C; try discriminate.
    apply C18_panics in C. exfalso. apply Exists_exists in C. destruct C as (c & Hin & N). rewrite Forall_forall in H. auto.
  Qed.

  (** *** Where expressions are looked for *)

  Definition good (i : nat) : Prop := may_start I i \/ forall j e, ~ sum I i j e.
  Definition quiet_from {A} (p : parser A) : Prop := forall i, good i -> p i <> Crash.
  Definition ends {A} (p : parser A) : Prop := forall i a j ws es, p i = Got a j ws es -> good j.

  Lemma from_quiet {A} (p : parser A) : quiet p -> quiet_from p.
  Proof. intros P i _. apply P. Qed.
  Lemma from_bind {A B} (p : parser A) (f : A -> parser B) : quiet_from p -> (forall a, quiet (f a)) -> quiet_from (bind p f).
  Proof.
    intros P F i G. unfold bind. specialize (P i G). destruct (p i) as [a j w e|w| |]; try discriminate; [|congruence].
    specialize (F a j). destruct (f a j); congruence.
  Qed.
  Lemma quiet_bind_ends {A B} (p : parser A) (f : A -> parser B) : quiet p -> ends p -> (forall a, quiet_from (f a)) -> quiet (bind p f).
  Proof.
    intros P En F i. unfold bind. specialize (P i). specialize (En i). destruct (p i) as [a j w e|w| |]; try discriminate; [|congruence].
    specialize (F a j (En _ _ _ _ eq_refl)). destruct (f a j); congruence.
  Qed.
  Lemma from_pmap {A B} (f : A -> B) p : quiet_from p -> quiet_from (pmap f p).
  Proof. intro H. apply from_bind; [exact H|]. intro a. apply quiet_ret. Qed.
  Lemma from_spn {A} (p : parser A) : quiet_from p -> quiet_from (spn I p).
  Proof. intros P i G. unfold spn, sp, map_span. specialize (P i G). destruct (p i); congruence. Qed.
  Lemma from_map_span {A B} (f : A -> span -> B) p : quiet_from p -> quiet_from (map_span (in_source I) toks (in_len I) f p).
  Proof. intros P i G. unfold map_span. specialize (P i G). destruct (p i); congruence. Qed.
  Lemma from_opt {A} (p : parser A) : quiet_from p -> quiet_from (opt p).
  Proof. intros P i G. unfold opt. specialize (P i G). destruct (p i); congruence. Qed.
  Lemma from_choice {A} (ps : list (parser A)) : Forall quiet_from ps -> quiet_from (choice ps).
  Proof.
    induction 1 as [|p ps P F IH]; [intros i _; cbn; discriminate|]. destruct ps as [|q ps]; [exact P|].
    intros i G. change (choice (p :: q :: ps)) with (alt p (choice (q :: ps))). unfold alt. specialize (P i G). specialize (IH i G).
    destruct (p i); try congruence. destruct (choice (q :: ps) i); congruence.
  Qed.
  Lemma from_rep {A} (p : parser A) : quiet_from p -> ends p -> quiet_from (rep I p).
  Proof.
    intros P En i. unfold rep, many. generalize (S (List.length toks - i)). intro f. revert i.
    induction f as [|f IH]; intros i G; cbn [many_n]; [discriminate|]. specialize (P i G). pose proof (En i) as X.
    destruct (p i) as [a j w e|w| |]; try congruence. specialize (IH j (X _ _ _ _ eq_refl)). destruct (many_n f p j); congruence.
  Qed.

  Lemma ends_pmap {A B} (f : A -> B) p : ends p -> ends (pmap f p).
  Proof. intros P i b j ws es H. apply pmap_got in H. destruct H as (a & H & _). eapply P. exact H. Qed.
  Lemma ends_try_map {A B X} (f : A -> outcome (result B X)) p : ends p -> ends (try_map f p).
  Proof. intros P i b j ws es H. apply try_map_got in H. destruct H as (a & H & _). eapply P. exact H. Qed.
  Lemma ends_spn {A} (p : parser A) : ends p -> ends (spn I p).
  Proof. intros P i b j ws es H. apply spn_got in H. destruct H as [H _]. eapply P. exact H. Qed.
  Lemma ends_choice {A} (ps : list (parser A)) : Forall ends ps -> ends (choice ps).
  Proof.
    intros F i a j ws es H. apply choice_got in H. destruct H as (p & w & Hin & H). rewrite Forall_forall in F. eapply F; eassumption.
  Qed.
  Lemma ends_bind {A B} (p : parser A) (f : A -> parser B) : (forall a, ends (f a)) -> ends (bind p f).
  Proof. intros F i b k ws es H. apply bind_got in H. destruct H as (a & m & ? & ? & ? & ? & _ & H & _ & _). eapply F. exact H. Qed.
  Lemma ends_bind_ret {A B} (p : parser A) (f : A -> B) : ends p -> ends (bind p (fun a => ret (f a))).
  Proof. apply ends_pmap. Qed.

  (** After such a token there is no expression going on. *)
  Definition apart_from (t : token) : Prop := ~ In t [T_Plus; T_Minus; T_Asterisk; T_Slash; T_Lparen] /\ ~ ends_expr t.
  Lemma good_after i t : tok I i t -> apart_from t -> good (S i).
  Proof.
    intros T [A B]. left. intros k t' X T'. injection X as <-. pose proof (tok_fun _ _ _ _ T T') as ->. split; [exact A|]. contradiction.
  Qed.
  Lemma ends_sel {A} (f : token -> option A) : (forall t a, f t = Some a -> apart_from t) -> ends (sel I f).
  Proof.
    intros F i a j ws es H. apply select_got in H. destruct H as ((t & r & N & X) & -> & _). eapply good_after; [exists r; exact N|]. eapply F. exact X.
  Qed.
  Ltac parts := split; [intros X'; repeat (destruct X' as [X'|X']; [discriminate X'|]); exact X'|intros [X'|[? X']]; discriminate X'].
  Ltac ends_tok := apply ends_sel; let t := fresh "t" in let a := fresh "a" in let X := fresh "X" in
    intros t a X; destruct t; try discriminate X; parts.
  Lemma ends_just t : apart_from t -> ends (just I t).
  Proof. intro P. apply ends_sel. intros x a X. destruct (token_eq_dec x t) as [->|]; [exact P|discriminate]. Qed.
  Lemma ends_currency : ends (p_currency I). Proof. apply ends_try_map. ends_tok. Qed.
  Lemma ends_account : ends (p_account E I po). Proof. apply ends_try_map. ends_tok. Qed.
  Lemma ends_tag : ends (p_tag E I). Proof. apply ends_try_map. ends_tok. Qed.
  Lemma ends_link : ends (p_link E I). Proof. apply ends_try_map. ends_tok. Qed.
  Lemma ends_date : ends (p_date I). Proof. ends_tok. Qed.
  Lemma ends_string : ends (p_string I po).
  Proof.
    intros i a j ws es H. unfold p_string in H. destruct (spn I _ i) as [s k w e|w| |] eqn:X; try discriminate. injection H as <- <- <- <-.
    revert X. apply ends_spn. ends_tok.
  Qed.
  Lemma ends_bool : ends (p_bool I).
  Proof. apply ends_choice. constructor; [|constructor; [|constructor]]; apply ends_pmap, ends_just; parts. Qed.

  (** *** Expressions *)

  Lemma expr_last :
    (forall i j e, sum I i j e -> exists k t, j = S k /\ tok I k t /\ ends_expr t) /\
    (forall i j e, product I i j e -> exists k t, j = S k /\ tok I k t /\ ends_expr t) /\
    (forall i j e, factor I i j e -> exists k t, j = S k /\ tok I k t /\ ends_expr t) /\
    (forall i j e, primary I i j e -> exists k t, j = S k /\ tok I k t /\ ends_expr t).
  Proof.
    apply expr_mutind; intros; auto.
    - exists i, (T_Number d). split; [reflexivity|]. split; [assumption|]. right. eauto.
    - exists j, T_Rparen. split; [reflexivity|]. split; [assumption|]. left. reflexivity.
  Qed.
  Lemma expr_signed i : tok I i T_Plus \/ tok I i T_Minus ->
    (forall a b e, sum I a b e -> a = i -> exists m e', product I (S i) m e' /\ i < m) /\
    (forall a b e, product I a b e -> a = i -> exists m e', product I (S i) m e' /\ i < m) /\
    (forall a b e, factor I a b e -> a = i -> exists m e', product I (S i) m e' /\ i < m) /\
    (forall a b e, primary I a b e -> a = i -> exists m e', product I (S i) m e' /\ i < m).
  Proof.
    intro T. destruct (bounds I) as (_ & _ & _ & Bp).
    apply expr_mutind; intros; subst; auto.
    - exists j, e. split; [constructor; constructor; assumption|]. match goal with H : primary I (S i) j e |- _ => apply Bp in H; lia end.
    - exists j, e. split; [constructor; constructor; assumption|]. match goal with H : primary I (S i) j e |- _ => apply Bp in H; lia end.
    - exfalso. destruct T as [T|T]; match goal with H : tok I i (T_Number _) |- _ => pose proof (tok_fun _ _ _ _ T H) end; discriminate.
    - exfalso. destruct T as [T|T]; match goal with H : tok I i T_Lparen |- _ => pose proof (tok_fun _ _ _ _ T H) end; discriminate.
  Qed.
  Lemma token_at i t : {tok I i t} + {~ tok I i t}.
  Proof.
    unfold tok. destruct (nth_error toks i) as [[t' r]|]; [|right; intros [r X]; discriminate].
    destruct (token_eq_dec t' t) as [->|N]; [left; eauto|right]. intros [r' X]. injection X as X _. contradiction.
  Qed.
  Lemma good_after_expr i j e : longest (sum I) i j e -> good j.
  Proof.
    intros [S L]. destruct (proj1 expr_last _ _ _ S) as (k & t & -> & T & Et).
    assert (Sg : (tok I (Datatypes.S k) T_Plus \/ tok I (Datatypes.S k) T_Minus) \/ (~ tok I (Datatypes.S k) T_Plus /\ ~ tok I (Datatypes.S k) T_Minus)).
    { destruct (token_at (Datatypes.S k) T_Plus); [auto|]. destruct (token_at (Datatypes.S k) T_Minus); auto. }
    destruct Sg as [Sg|[Np Nm]].
    - right. intros m f F. destruct (proj1 (expr_signed _ Sg) _ _ _ F eq_refl) as (m' & e' & P & Lt).
      destruct Sg as [Sg|Sg].
      + pose proof (L _ _ (sum_add I _ _ _ _ _ S Sg P)). lia.
      + pose proof (L _ _ (sum_sub I _ _ _ _ _ S Sg P)). lia.
    - left. intros k' t' X T'. injection X as <-. pose proof (tok_fun _ _ _ _ T T') as <-. split; [|auto].
      intro Hin. destruct Et as [->|[d ->]]; cbn in Hin; repeat (destruct Hin as [Hin|Hin]; [discriminate|]); contradiction.
  Qed.
  Lemma p_expr_longest i e j ws es : p_expr I i = Got e j ws es -> longest (sum I) i j e.
  Proof. intro H. pose proof (p_expr_plain I i) as P. rewrite H in P. destruct P as [-> ->]. apply p_expr_iff in H. exact H. Qed.
  Lemma expr_value_here i e j ws es : good i -> p_expr I i = Got e j ws es -> exists v, expr_value_from (g_ops E) e = Fine v.
  Proof.
    intros G X. apply p_expr_longest in X. destruct G as [G|G]; [|exfalso; exact (G _ _ (proj1 X))].
    destruct (He _ _ _ G X) as (v & V). exists v. apply expr_value_worth. exact V.
  Qed.
  Lemma p_expr_value_from : quiet_from (p_expr_value E I).
  Proof.
    intros i G. unfold p_expr_value, pmap_out. pose proof (p_expr_plain I i) as P.
    destruct (p_expr I i) as [e j w x| | |] eqn:X; try discriminate; [|contradiction].
    destruct (expr_value_here _ _ _ _ _ G X) as [v ->]. discriminate.
  Qed.
  Lemma ends_expr_value : ends (p_expr_value E I).
  Proof. intros i v j ws es H. apply pmap_out_got in H. destruct H as (e & H & _). eapply good_after_expr, p_expr_longest. exact H. Qed.

  Ltac qu :=
    lazymatch goal with
    | |- forall _, _ => intro; qu
    | |- Forall _ [] => constructor
    | |- Forall _ (_ :: _) => constructor; qu
    | |- apart_from _ => parts
    | |- quiet (ret _) => apply quiet_ret
    | |- quiet (sel _ _) => apply sel_quiet
    | |- quiet (just _ _) => apply just_quiet
    | |- quiet (keyword_ _ _) => apply just_quiet
    | |- quiet (spn _ _) => apply spn_quiet; qu
    | |- quiet (pmap _ _) => apply quiet_pmap; qu
    | |- quiet (validate _ _) => apply quiet_validate; qu
    | |- quiet (map_span _ _ _ _ _) => apply quiet_map_span; qu
    | |- quiet (alt _ _) => apply quiet_alt; qu
    | |- quiet (choice _) => apply quiet_choice; qu
    | |- quiet (opt _) => apply quiet_opt; qu
    | |- quiet (rep _ _) => apply rep_quiet; qu
    | |- quiet (bind _ _) => first [apply quiet_bind; solve [qu] | apply quiet_bind_ends; solve [qu]]
    | |- quiet (p_string _ _) => apply p_string_quiet
    | |- quiet (eol _) => apply eol_quiet
    | |- quiet (p_currency _) => apply p_currency_quiet
    | |- quiet (p_expr_value _ _) => fail
    | |- quiet (try_map _ _) => apply quiet_try_map; [qu|intro; discriminate]
    | |- quiet (?f E I po) => unfold f; qu
    | |- quiet (?f E I) => unfold f; qu
    | |- quiet (?f I po) => unfold f; qu
    | |- quiet (?f I) => unfold f; qu
    | |- quiet_from (p_expr_value _ _) => apply p_expr_value_from
    | |- quiet_from (spn _ _) => apply from_spn; qu
    | |- quiet_from (opt _) => apply from_opt; qu
    | |- quiet_from (pmap _ _) => apply from_pmap; qu
    | |- quiet_from (map_span _ _ _ _ _) => apply from_map_span; qu
    | |- quiet_from (choice _) => apply from_choice; qu
    | |- quiet_from (rep _ _) => apply from_rep; qu
    | |- quiet_from (bind _ _) => first [apply from_bind; solve [qu] | apply from_quiet; qu]
    | |- quiet_from (p_string _ _) => apply from_quiet, p_string_quiet
    | |- quiet_from (sel _ _) => apply from_quiet, sel_quiet
    | |- quiet_from (just _ _) => apply from_quiet, just_quiet
    | |- quiet_from (try_map _ _) => apply from_quiet; qu
    | |- quiet_from (?f E I po) => unfold f; qu
    | |- quiet_from (?f E I) => unfold f; qu
    | |- quiet_from (?f I) => apply from_quiet; qu
    | |- ends (p_expr_value _ _) => apply ends_expr_value
    | |- ends (p_currency _) => apply ends_currency
    | |- ends (p_account _ _ _) => apply ends_account
    | |- ends (p_tag _ _) => apply ends_tag
    | |- ends (p_link _ _) => apply ends_link
    | |- ends (p_date _) => apply ends_date
    | |- ends (p_string _ _) => apply ends_string
    | |- ends (p_bool _) => apply ends_bool
    | |- ends (just _ _) => apply ends_just; qu
    | |- ends (keyword_ _ _) => apply ends_just; qu
    | |- ends (pmap _ _) => apply ends_pmap; qu
    | |- ends (spn _ _) => apply ends_spn; qu
    | |- ends (choice _) => apply ends_choice; qu
    | |- ends (bind _ (fun _ => ret _)) => apply ends_bind_ret; qu
    | |- ends (bind _ _) => apply ends_bind; qu
    | |- ends (?f E I po) => unfold f; qu
    | |- ends (?f E I) => unfold f; qu
    end.

  Lemma p_meta_value_from : quiet_from (p_meta_value E I po). Proof. qu. Qed.
  Lemma ends_meta_value : ends (p_meta_value E I po). Proof. qu. Qed.
  Lemma p_meta_key_value_quiet : quiet (p_meta_key_value E I po). Proof. qu. Qed.
  Lemma p_metadatum_line_quiet : quiet (p_metadatum_line E I po). Proof. qu. Qed.
  Lemma p_metadata_quiet : quiet (p_metadata E I po). Proof. qu. Qed.
  Lemma p_price_annotation_quiet : quiet (p_price_annotation E I). Proof. qu. Qed.
  Lemma p_cost_spec_quiet : quiet (p_cost_spec E I po). Proof. qu. Qed.
  Lemma p_posting_quiet : quiet (p_posting E I po). Proof. qu. Qed.
  Lemma p_tags_links_quiet : quiet (p_tags_links E I). Proof. qu. Qed.
  Lemma p_directive_quiet : quiet (p_directive E I po).
  Proof.
    unfold p_directive, p_transaction, p_price, p_balance, p_open, p_close, p_commodity, p_pad, p_document, p_note, p_event, p_query,
      p_custom, p_line. qu.
  Qed.
  Lemma p_pushtag_quiet : quiet (p_pushtag E I). Proof. qu. Qed.
  Lemma p_poptag_quiet : quiet (p_poptag E I). Proof. qu. Qed.
  Lemma p_pushmeta_quiet : quiet (p_pushmeta E I po). Proof. qu. Qed.
  Lemma p_popmeta_quiet : quiet (p_popmeta E I). Proof. qu. Qed.
  Lemma p_include_quiet : quiet (p_include I po). Proof. qu. Qed.
  Lemma p_plugin_quiet : quiet (p_plugin I po). Proof. qu. Qed.
  Lemma p_option_tokens_quiet : quiet (p_option_tokens I po). Proof. qu. Qed.
End Safe.
