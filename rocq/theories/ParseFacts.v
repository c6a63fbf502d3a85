(** * Facts about the parsing of files *)
From Coq Require Import String Ascii.
From Coq Require Import List NArith ZArith Arith Bool Lia Permutation.
From Verif Require Import Base BaseFacts Path Types SpecTypes TypesFacts P_Types Options SpecOptions OptionsFacts P_Options Decimal SpecDecimal
  Cost SpecCost Token Peg Grammar SpecGrammar PegFacts ExprFacts DedupFacts GrammarSound GrammarSafe GrammarComplete GrammarDirectives
  SpecDirective DirectiveFacts P_Grammar Parse SpecParse.
Import ListNotations.
Local Open Scope nat_scope.

Lemma account_type_dec (a b : account_type) : {a = b} + {a <> b}.
Proof. decide equality. Defined.

Section ParseFacts.
  Context (E : grammar_env) (I : input) (path_ : option path) (En : environment_ok E).
  Notation n := (List.length (in_tokens I)).

  Lemma obeys_set po r : obeys E po r -> well_set E po (rl_names r).
  Proof. intros [A B C]. destruct En as [U O]. constructor; assumption. Qed.

  (** ** Options *)

  Lemma ascii_dec x : {ascii x} + {~ ascii x}.
  Proof. unfold ascii. destruct (N.ltb x 128) eqn:L; [left|right]; [apply N.ltb_lt|apply N.ltb_ge in L; lia]; exact L. Qed.

  Lemma option_reads_fun name value v v' :
    SpecOptions.reads (g_unicode E) (g_decimal E) path_ name value v ->
    SpecOptions.reads (g_unicode E) (g_decimal E) path_ name value v' -> v = v'.
  Proof.
    destruct En as [U _]. intros H H'. apply (C49_option_value _ _ _ _ _ _ U) in H. apply (C49_option_value _ _ _ _ _ _ U) in H'. congruence.
  Qed.

  Lemma option_read_effect po r name value : obeys E po r ->
    option_value (g_unicode E) (g_decimal E) (item name) (item value) path_ <> Panic ->
    exists o es r' po', option_read E path_ po name value = Fine (o, po', map C_Report es) /\
      option_effect E path_ r name value o es r' /\ obeys E po' r'.
  Proof.
    intros Ob NP. pose proof Ob as [A B C]. pose proof En as [U _].
    unfold option_read. unfold option_parse, mapr.
    destruct (option_value (g_unicode E) (g_decimal E) (item name) (item value) path_) as [[v|e]|] eqn:V; [| |congruence].
    - pose proof V as R. apply (C49_option_value _ _ _ _ _ _ U) in R. unfold po_assimilate. cbn [opt_variant opt_source].
      assert (Other : match v with O_AccountTypeName _ _ | O_LongStringMaxlines _ => False | _ => True end ->
        exists o es r' po', Fine (mk_option (mk_source (span_of name) (span_of value)) v, po, []) = Fine (o, po', map C_Report es) /\
          option_effect E path_ r name value o es r' /\ obeys E po' r').
      { intro X. exists (mk_option (mk_source (span_of name) (span_of value)) v), [], r, po.
        split; [reflexivity|]. split; [|exact Ob]. apply effect_none; assumption. }
      destruct v as [a1|ty s|a1 a2|a1|a1 a2|a1|a1|a1|a1|a1|m|a1|a1| |]; try (apply Other; exact Logic.I).
      + clear Other.
        destruct (existsb (fun t' => negb (account_type_eqb t' ty) && str_eqb (rl_names r t') s) [Assets; Liabilities; Equity; Income; Expenses]) eqn:X.
        * apply existsb_exists in X. destruct X as (t' & _ & X). apply andb_prop in X. destruct X as [X Y].
          assert (D : t' <> ty).
          { intros ->. rewrite (proj2 (account_type_eqb_eq ty ty) eq_refl) in X. discriminate. }
          apply str_eqb_eq in Y.
          rewrite (C15_update_rejects _ _ ty t' s A D Y).
          exists option_ignored, [mk_report (NameInUse t') (span_of value) []], r, po.
          split; [reflexivity|]. split; [|exact Ob]. eapply effect_name_taken; eassumption.
        * assert (F : forall t', t' <> ty -> rl_names r t' <> s).
          { intros t' D Y. enough (T : existsb (fun t' => negb (account_type_eqb t' ty) && str_eqb (rl_names r t') s) [Assets; Liabilities; Equity; Income; Expenses] = true) by congruence.
            apply existsb_exists. exists t'. split; [destruct t'; cbn; tauto|].
            apply andb_true_intro. split; [|apply str_eqb_eq; exact Y].
            destruct (account_type_eqb t' ty) eqn:Z; [|reflexivity]. apply account_type_eqb_eq in Z. contradiction. }
          destruct (C15_update_accepts _ _ ty s A F) as (names' & -> & N').
          exists (mk_option (mk_source (span_of name) (span_of value)) O_Assimilated), [],
            (mk_rules (set_name (rl_names r) ty s) (rl_limit r)), (mk_parser_options names' (po_maxlines po)).
          split; [reflexivity|]. split; [eapply effect_name; eassumption|]. constructor; cbn [po_names rl_names rl_limit].
          -- exact N'.
          -- intro t'. unfold set_name. destruct (account_type_eqb t' ty); [|apply B]. inversion R; assumption.
          -- exact C.
      + clear Other.
        exists (mk_option (mk_source (span_of name) (span_of value)) O_Assimilated), [],
          (mk_rules (rl_names r) (Some (m, span_of value))), (mk_parser_options (po_names po) (Some (new_sourced m (mk_source (span_of name) (span_of value))))).
        split; [reflexivity|]. split; [apply effect_limit; exact R|]. constructor; cbn [po_names rl_names rl_limit]; [exact A|exact B|reflexivity].
    - destruct e as [|e].
      + exists option_ignored, [mk_report UnknownOption (span_of name) []], r, po. split; [reflexivity|]. split; [|exact Ob].
        apply effect_unknown. apply C49_unknown_option in V. exact V.
      + exists option_ignored, [mk_report (BadOptionValue e) (span_of value) []], r, po. split; [reflexivity|]. split; [|exact Ob].
        apply effect_bad. apply (C49_wrong_value _ _ path_) in V. exact V.
  Qed.

  Lemma reads_known name value v : SpecOptions.reads (g_unicode E) (g_decimal E) path_ name value v -> In name option_names.
  Proof.
    destruct En as [U _]. intro H. destruct (in_dec (list_eq_dec N.eq_dec) name option_names) as [X|X]; [exact X|].
    apply C49_unknown_option with (U := g_unicode E) (dp := g_decimal E) (sp := path_) (v := value) in X.
    apply (C49_option_value _ _ _ _ _ _ U) in H. congruence.
  Qed.

  Lemma reads_wrong name value v e : SpecOptions.reads (g_unicode E) (g_decimal E) path_ name value v ->
    wrong (g_unicode E) (g_decimal E) name value e -> False.
  Proof.
    destruct En as [U _]. intros R W. apply (C49_option_value _ _ _ _ _ _ U) in R.
    apply (C49_wrong_value _ _ path_) in W. congruence.
  Qed.

  Lemma wrong_known name value e : wrong (g_unicode E) (g_decimal E) name value e -> In name option_names.
  Proof.
    intro W. destruct (in_dec (list_eq_dec N.eq_dec) name option_names) as [X|X]; [exact X|].
    apply C49_unknown_option with (U := g_unicode E) (dp := g_decimal E) (sp := path_) (v := value) in X.
    apply (C49_wrong_value _ _ path_) in W. congruence.
  Qed.

  Lemma wrong_fun name value e e' : wrong (g_unicode E) (g_decimal E) name value e ->
    wrong (g_unicode E) (g_decimal E) name value e' -> e = e'.
  Proof. intros W W'. apply (C49_wrong_value _ _ path_) in W, W'. congruence. Qed.

  Lemma option_effect_fun r name value o es r1 o' es' r2 : (forall t t', rl_names r t = rl_names r t' -> t = t') ->
    option_effect E path_ r name value o es r1 -> option_effect E path_ r name value o' es' r2 ->
    o = o' /\ es = es' /\ r1 = r2.
  Proof.
    intros Inj H H'.
    destruct H as [t s R F|t t' s R D T|m R|v R V|U|e W];
    inversion H' as [t2 s2 R2 F2|t2 t2' s2 R2 D2 T2|m2 R2|v2 R2 V2|U2|e2 W2]; subst; clear H';
      try (pose proof (option_reads_fun _ _ _ _ R R2) as X; try discriminate X; try (injection X; intros; subst));
      try (exfalso; subst; exact V); try (exfalso; subst; exact V2);
      try (apply reads_known in R; contradiction); try (apply reads_known in R2; contradiction);
      try (exfalso; exact (reads_wrong _ _ _ _ R W2)); try (exfalso; exact (reads_wrong _ _ _ _ R2 W));
      try (apply wrong_known in W; contradiction); try (apply wrong_known in W2; contradiction);
      try (rewrite (wrong_fun _ _ _ _ W W2)); try contradiction; auto.
    - exfalso. match goal with D : ?x <> t2 |- _ => exact (F x D eq_refl) end.
    - exfalso. match goal with D : ?x <> t2 |- _ => exact (F2 x D eq_refl) end.
    - rewrite (Inj t' t2'); auto.
    - rewrite X; auto.
  Qed.

  Lemma obeys_inj po r : obeys E po r -> forall t t', rl_names r t = rl_names r t' -> t = t'.
  Proof. intros [A _ _] t t'. apply (named_inj _ _ _ _ A). Qed.

  (** ** Pragmas *)
  Section One.
    Context (po : parser_options) (r : rules) (Ob : obeys E po r).
    Let W := long_strings (limit_of po) I.
    Notation Reads := (PegFacts.reads (in_tokens I) W).
    Let W_nil : forall i, W i i = [] := long_strings_nil (limit_of po) I.
    Let W_app : forall i j k, i <= j -> j <= k -> W i k = W i j ++ W j k := long_strings_app (limit_of po) I.
    Ltac rbind := eapply reads_bind with (es1 := []); [exact W_app| | |reflexivity].
    Ltac rret := apply reads_ret; [exact W_nil|].

    Lemma string_written_reads i j s : written I (string_at I) i j s -> Reads (spn I (p_string I po)) i j s [] [].
    Proof. intro H. eapply spn_reads; [exact H|]. apply p_string_reads. Qed.

    Lemma tok_lt i t : tok I i t -> i < n.
    Proof. intros [x T]. apply nth_error_Some. congruence. Qed.

    Lemma spn_text {A} (p : parser A) i j a t es : Reads p i j a t es -> Reads (spn I p) i j (mk_spanned a (text I i j)) t es.
    Proof. intro H. apply reads_sp; [exact H|reflexivity]. Qed.

    Lemma keyword_reads i k : tok I i (T_Keyword k) -> Reads (keyword_ I k) i (S i) (T_Keyword k) [] [].
    Proof. intro T. apply just_reads; [exact T|reflexivity]. Qed.
    Lemma keyword_fails i k k' : tok I i (T_Keyword k) -> k <> k' -> fails (keyword_ I k') i.
    Proof. intros T D. apply just_fails. intro X. pose proof (tok_fun _ _ _ _ T X). congruence. Qed.

    Lemma p_pushtag_reads i j t : tok I i (T_Keyword K_Pushtag) -> tag_at E I (S i) j t ->
      Reads (p_pushtag E I) i j (P_Pushtag (mk_spanned t (text I i j))) [] [].
    Proof.
      intros T H. eapply reads_to; [|reflexivity]. apply spn_text. rbind; [apply keyword_reads, T|]. apply p_tag_reads. exact H.
    Qed.
    Lemma p_poptag_reads i j t : tok I i (T_Keyword K_Poptag) -> tag_at E I (S i) j t ->
      Reads (p_poptag E I) i j (P_Poptag (mk_spanned t (text I i j))) [] [].
    Proof.
      intros T H. eapply reads_to; [|reflexivity]. apply spn_text. rbind; [apply keyword_reads, T|]. apply p_tag_reads. exact H.
    Qed.
    Lemma p_pushmeta_reads i j kv : tok I i (T_Keyword K_Pushmeta) -> key_value_at E I (rl_names r) (S i) j kv -> away I not_eol j ->
      Reads (p_pushmeta E I po) i j (P_Pushmeta kv) [] [].
    Proof.
      intros T H A. destruct (obeys_set _ _ Ob) as [U Nm Nl O]. eapply reads_to; [|reflexivity].
      rbind; [apply keyword_reads, T|]. eapply p_meta_key_value_reads; eassumption.
    Qed.
    Lemma p_popmeta_reads i j k : tok I i (T_Keyword K_Popmeta) -> key_at E I (S i) j k -> tok I j T_Colon ->
      Reads (p_popmeta E I) i (S j) (P_Popmeta (mk_spanned k (text I i (S j)))) [] [].
    Proof.
      intros T H A. eapply reads_to; [|reflexivity]. apply spn_text. rbind; [apply keyword_reads, T|].
      rbind; [apply p_key_reads, H|]. rbind; [apply just_reads; [exact A|reflexivity]|]. rret. apply tok_lt in A. lia.
    Qed.
    Lemma p_include_reads i j s : tok I i (T_Keyword K_Include) -> written I (string_at I) (S i) j s ->
      Reads (p_include I po) i j (P_Include s) [] [].
    Proof.
      intros T H. eapply reads_to; [|reflexivity]. rbind; [apply keyword_reads, T|]. apply string_written_reads. exact H.
    Qed.
    Lemma p_plugin_reads i j k m c : tok I i (T_Keyword K_Plugin) -> written I (string_at I) (S i) j m ->
      maybe (written I (string_at I)) j k c -> away I not_eol k -> Reads (p_plugin I po) i k (P_Plugin (mk_plugin m c)) [] [].
    Proof.
      intros T H M A. eapply reads_to; [|reflexivity]. rbind; [apply keyword_reads, T|].
      rbind; [apply string_written_reads, H|].
      assert (J : j <= n) by (destruct H as [[s X] _]; apply tok_lt in X; lia).
      assert (K : k <= n) by (destruct M as [|k' x [[s X] _]]; [exact J|apply tok_lt in X; lia]).
      rbind; [|rret; exact K].
      eapply maybe_reads; [exact M| | |exact J].
      - intros a X. apply string_written_reads. exact X.
      - intros ->. apply fails_sp, p_string_fails. eapply away_weaken; [exact A|]. intros [] X; try discriminate; reflexivity.
    Qed.
    Lemma p_option_tokens_reads i a b name value : tok I i (T_Keyword K_Option) ->
      written I (string_at I) (S i) a name -> written I (string_at I) a b value -> Reads (p_option_tokens I po) i b (name, value) [] [].
    Proof.
      intros T H V. rbind; [apply keyword_reads, T|]. rbind; [apply string_written_reads, H|].
      rbind; [apply string_written_reads, V|]. rret. destruct V as [[s X] _]. apply tok_lt in X. lia.
    Qed.

    (** *** What they read *)
    Lemma spn_string_got i a j ws es : spn I (p_string I po) i = Got a j ws es -> written I (string_at I) i j a /\ es = [] .
    Proof. intro H. apply (spn_sounds I _ _ (p_string_sounds I po)) in H. exact H. Qed.

    Lemma p_pushtag_sounds : sounds (p_pushtag E I) (fun i j p => pragma_at E I (rl_names r) i j p).
    Proof.
      intros i a j ws es H. unfold p_pushtag in H. got. apply spn_got in H. destruct H as [H X]. got.
      apply p_tag_sounds in Q. destruct Q as [Q ->]. split; [|reflexivity]. destruct x as [x s]. cbn in *. subst. constructor; assumption.
    Qed.
    Lemma p_poptag_sounds : sounds (p_poptag E I) (fun i j p => pragma_at E I (rl_names r) i j p).
    Proof.
      intros i a j ws es H. unfold p_poptag in H. got. apply spn_got in H. destruct H as [H X]. got.
      apply p_tag_sounds in Q. destruct Q as [Q ->]. split; [|reflexivity]. destruct x as [x s]. cbn in *. subst. constructor; assumption.
    Qed.
    Lemma p_pushmeta_sounds : sounds (p_pushmeta E I po) (fun i j p => pragma_at E I (rl_names r) i j p).
    Proof.
      intros i a j ws es H. destruct (obeys_set _ _ Ob) as [U Nm Nl O]. unfold p_pushmeta in H. got.
      apply (p_meta_key_value_sounds E I po (rl_names r) U Nm Nl) in Q. destruct Q as [Q ->]. split; [|reflexivity]. constructor; assumption.
    Qed.
    Lemma p_popmeta_sounds : sounds (p_popmeta E I) (fun i j p => pragma_at E I (rl_names r) i j p).
    Proof.
      intros i a j ws es H. unfold p_popmeta in H. got. apply spn_got in H. destruct H as [H X]. got.
      match goal with H : p_key _ _ _ = Got _ _ _ _ |- _ => apply p_key_sounds in H; destruct H as [H ->] end.
      split; [|reflexivity]. destruct x as [x s]. cbn in *. subst. constructor; assumption.
    Qed.
    Lemma p_include_sounds : sounds (p_include I po) (fun i j p => pragma_at E I (rl_names r) i j p).
    Proof.
      intros i a j ws es H. unfold p_include in H. got. apply spn_string_got in Q. destruct Q as [Q ->].
      split; [|reflexivity]. constructor; assumption.
    Qed.
    Lemma p_plugin_sounds : sounds (p_plugin I po) (fun i j p => pragma_at E I (rl_names r) i j p).
    Proof.
      intros i a j ws es H. unfold p_plugin in H. got;
        repeat match goal with H : spn I (p_string I po) _ = Got _ _ _ _ |- _ => apply spn_string_got in H; destruct H as [H ->] end;
        (split; [|reflexivity]); econstructor; try eassumption; constructor; assumption.
    Qed.
    Lemma p_option_tokens_sounds i name value j ws es : p_option_tokens I po i = Got (name, value) j ws es ->
      exists a, tok I i (T_Keyword K_Option) /\ written I (string_at I) (S i) a name /\ written I (string_at I) a j value /\ es = [].
    Proof.
      intro H. unfold p_option_tokens in H. got.
      repeat match goal with H : spn I (p_string I po) _ = Got _ _ _ _ |- _ => apply spn_string_got in H; destruct H as [H ->] end.
      eauto 6.
    Qed.
  End One.
End ParseFacts.
