(** * What is parsed is where its span says *)
From Coq Require Import String Ascii.
From Coq Require Import List NArith ZArith Arith Bool Lia Permutation.
From Verif Require Import Base BaseFacts Types SpecTypes Decimal SpecDecimal Cost SpecCost Token SpecOptions Options LexPost SpecLex LexFacts P_Lex Lexer SpecLexer LexerFacts P_Lexer
  Path Sources SpecSources Peg Grammar SpecExpr PegFacts ExprFacts Pragma SpecGrammar SpecDirective Parse SpecParse SpecPlaces DisplayParsed.
Import ListNotations.
Local Open Scope nat_scope.

(** ** The text of a token *)
Definition means (L : lexer_env) (m : str) (t : token) : Prop :=
  match t with
  | T_Account s | T_Currency s | T_Key s => m = s
  | T_Tag s => m = 35%N :: s
  | T_Link s => m = 94%N :: s
  | T_Date d => date_spelling d m
  | T_Number d => number_spelling L d m
  | T_String s => string_spelling L s m
  | T_Flag f => flag_spelling f m
  | T_Asterisk => m = lit "*"
  | T_Hash => m = lit "#"
  | T_True => m = lit "TRUE"
  | T_False => m = lit "FALSE"
  | T_Null => m = lit "NULL"
  | T_Colon => m = lit ":"
  | T_Keyword k => m = keyword_text k
  | _ => True
  end.

Section Tokens.
  Context (L : lexer_env) (UO : unicode_ok (le_unicode L)).

  Lemma lexeme_means m t : lexeme L m (SpecLexer.tok t) -> means L m t.
  Proof.
    unfold SpecLexer.tok. intro H. remember (Fine (Some (Ok t))) as o eqn:Q. destruct H as [s H|s u H|k|s H N|c H|y p m q d o Hy Hm Hd P P' H|h m o _ _ H|h m s o _ _ _ H|s H|b H N|b H N|i gs f s H|s H|s H|s H N|s b H B|s H|s H N].
    all: try discriminate.
    all: try (unfold SpecLexer.tok in Q; injection Q as <-).
    - unfold symbols in H. cbn [In] in H. repeat (destruct H as [H|H]; [injection H as <- <-; reflexivity|]). destruct H.
    - reflexivity.
    - reflexivity.
    - reflexivity.
    - destruct H as [A B C D|A B C|A B C D F|A]; try discriminate. cbn in Q. injection Q as <-. cbn. exists y, p, m, q, d. auto 10.
    - destruct H; try discriminate. cbn in Q. injection Q as <-. exact Logic.I.
    - destruct H; try discriminate. cbn in Q. injection Q as <-. exact Logic.I.
    - reflexivity.
    - cbn. exists b. auto.
    - cbn in Q. destruct (le_unescape L b) as [x|] eqn:Ue; [|discriminate]. cbn in Q. injection Q as <-. cbn. exists b. auto.
    - cbn in Q. destruct (le_decimal L _) as [x|] eqn:De; [|discriminate]. cbn in Q. injection Q as <-. cbn. exists i, gs, f. auto.
    - reflexivity.
    - reflexivity.
    - reflexivity.
    - exact Logic.I.
    - exact Logic.I.
    - exact Logic.I.
  Qed.
  Lemma lexed_means s out t a b : lex L s = Fine (Some out) -> In (t, (a, b)) out -> exists m, str_get s a b = Some m /\ means L m t.
  Proof.
    intros H Hin. destruct (C30_token_text L UO _ _ _ _ _ H Hin) as (m & G & [[T|[(k & Qm & ->)|(e & -> & _)]]|[-> | ->]]); exists m; (split; [exact G|]); try exact Logic.I; [|reflexivity].
    apply lexeme_means. exact T.
  Qed.

  (** *** Spans of several tokens *)
  Lemma str_get_between s a b m c d m' : str_get s a b = Some m -> str_get s c d = Some m' -> b <= c -> exists g, str_get s a d = Some (m ++ g ++ m').
  Proof.
    intros A B Le. apply str_get_spec in A as (p1 & q1 & -> & -> & ->). apply str_get_spec in B as (p2 & q2 & Q & -> & ->).
    rewrite app_assoc in Q. destruct (app_prefix_blen _ _ _ _ Q) as (g & -> & Q2); [rewrite blen_app; exact Le|]. exists g.
    apply str_get_spec. exists p1, q2. rewrite app_assoc, Q, <- !app_assoc. split; [reflexivity|]. split; [reflexivity|]. rewrite !blen_app. lia.
  Qed.
  Lemma str_get_le s a b m : str_get s a b = Some m -> a <= b <= blen s.
  Proof. intro A. apply str_get_spec in A as (p & q & -> & -> & ->). rewrite !blen_app. lia. Qed.

  Context (s : str) (out : list rtoken) (Lx : lex L s = Fine (Some out)).

  Lemma pair_split i k x y : nth_error out i = Some x -> nth_error out k = Some y -> i < k -> exists l1 l2 l3, out = l1 ++ x :: l2 ++ y :: l3 /\ (S i < k -> l2 <> []).
  Proof.
    intros A B Lt. apply nth_error_split in A as (l1 & l2 & Q & Ln). rewrite Q in B. rewrite nth_error_app2 in B by lia.
    replace (k - List.length l1) with (S (k - S i)) in B by lia. cbn [nth_error] in B. apply nth_error_split in B as (l3 & l4 & -> & Ln'). exists l1, l3, l4. split; [exact Q|].
    intros Lt' ->. cbn in Ln'. lia.
  Qed.
  Lemma span_join i k t a b u c d m m' : nth_error out i = Some (t, (a, b)) -> nth_error out k = Some (u, (c, d)) -> i < k ->
    str_get s a b = Some m -> str_get s c d = Some m' ->
    exists w, str_get s a d = Some w /\ (exists r, w = m ++ r) /\ (u <> T_Indent -> exists g, w = m ++ g ++ m').
  Proof.
    intros A B Lt G G'. destruct (pair_split _ _ _ _ A B Lt) as (l1 & l2 & l3 & Q & _).
    destruct (C29_spans L UO s out Lx) as [_ Sp]. destruct (Sp _ _ _ _ _ _ _ _ _ Q) as [Le|(_ & -> & -> & Le & -> & _)].
    - destruct (str_get_between _ _ _ _ _ _ _ G G' Le) as (g & J). exists (m ++ g ++ m'). split; [exact J|]. split; eauto.
    - exists m. split; [exact G|]. split; [exists []; rewrite app_nil_r; reflexivity|]. intro X. destruct (X eq_refl).
  Qed.
End Tokens.

(** ** Parts of directives *)
Section Parts.
  Context (L : lexer_env) (UO : unicode_ok (le_unicode L)) (E : grammar_env) (Go : forall l, Permutation l (g_order E l)).
  Context (id : nat) (s : str) (out : list rtoken) (Lx : lex L s = Fine (Some out)) (names : account_type -> str).
  Context (here : span -> str -> Prop) (Here : forall sp m, sp_source sp = id -> str_get s (sp_start sp) (sp_end sp) = Some m -> here sp m).
  Notation I := (input_of id s out).
  Notation n := (List.length out).

  Lemma tok_in i t : tok I i t -> exists a b, nth_error out i = Some (t, (a, b)).
  Proof. intros [[a b] T]. eauto. Qed.
  Lemma tok_bound i t : tok I i t -> i < S i <= n.
  Proof. intro T. apply tok_in in T as (a & b & T). split; [lia|]. apply nth_error_Some. congruence. Qed.
  Lemma in_range i : i < n -> exists t a b, nth_error out i = Some (t, (a, b)).
  Proof. intro H. destruct (nth_error out i) as [[t [a b]]|] eqn:Q; [eauto|]. apply nth_error_None in Q. lia. Qed.
  Lemma from_at i t a b : nth_error out i = Some (t, (a, b)) -> text_from I i = a.
  Proof. unfold text_from, input_of. cbn. intros ->. reflexivity. Qed.
  Lemma upto_at i t a b : nth_error out i = Some (t, (a, b)) -> text_upto I (S i) = b.
  Proof. unfold text_upto, input_of. cbn. intros ->. reflexivity. Qed.

  Lemma tok_here i t : tok I i t -> exists m, here (text I i (S i)) m /\ means L m t.
  Proof.
    intro T. apply tok_in in T as (a & b & T). destruct (lexed_means L UO _ _ _ _ _ Lx (nth_error_In _ _ T)) as (m & G & M).
    exists m. split; [|exact M]. apply Here; [reflexivity|]. cbn -[text_from text_upto]. rewrite (from_at _ _ _ _ T), (upto_at _ _ _ _ T). exact G.
  Qed.
  Lemma tok_get i t a b : nth_error out i = Some (t, (a, b)) -> exists m, str_get s a b = Some m /\ means L m t.
  Proof. intro T. exact (lexed_means L UO _ _ _ _ _ Lx (nth_error_In _ _ T)). Qed.

  (** From one token to another. *)
  Lemma range_here i k t u : tok I i t -> tok I k u -> i < k ->
    exists m m' w, here (text I i (S i)) m /\ means L m t /\ means L m' u /\ here (text I i (S k)) w /\ (exists r, w = m ++ r) /\ (u <> T_Indent -> exists g, w = m ++ g ++ m').
  Proof.
    intros T U Lt. destruct (tok_here _ _ T) as (m0 & _ & _). apply tok_in in T as (a & b & T). apply tok_in in U as (c & d & U).
    destruct (tok_get _ _ _ _ T) as (m & G & M). destruct (tok_get _ _ _ _ U) as (m' & G' & M').
    destruct (span_join L UO s out Lx _ _ _ _ _ _ _ _ _ _ T U Lt G G') as (w & J & P & Q).
    exists m, m', w. split; [apply Here; [reflexivity|]; cbn -[text_from text_upto]; rewrite (from_at _ _ _ _ T), (upto_at _ _ _ _ T); exact G|].
    split; [exact M|]. split; [exact M'|]. split; [|split; assumption].
    apply Here; [reflexivity|]. cbn -[text_from text_upto]. rewrite (from_at _ _ _ _ T), (upto_at _ _ _ _ U). exact J.
  Qed.
  Lemma has_tok i : i < n -> exists t, tok I i t.
  Proof. intro H. apply in_range in H as (t & a & b & H). exists t, (a, b). exact H. Qed.
  Lemma starts_here i j t : tok I i t -> i < j <= n -> exists m r, here (text I i (S i)) m /\ means L m t /\ here (text I i j) (m ++ r).
  Proof.
    intros T [Lt Le]. destruct j as [|k]; [lia|]. destruct (Nat.eq_dec i k) as [->|Ne].
    - destruct (tok_here _ _ T) as (m & A & B). exists m, []. rewrite app_nil_r. auto.
    - destruct (has_tok k) as (u & U); [lia|]. destruct (range_here _ _ _ _ T U) as (m & m' & w & A & B & _ & D & (r & ->) & _); [lia|]. eauto.
  Qed.
  Lemma ends_here i k u : tok I k u -> u <> T_Indent -> i <= k -> exists p m, here (text I i (S k)) (p ++ m) /\ means L m u.
  Proof.
    intros U Ni Le. destruct (Nat.eq_dec i k) as [->|Ne].
    - destruct (tok_here _ _ U) as (m & A & B). exists [], m. auto.
    - destruct (has_tok i) as (t & T); [pose proof (tok_bound _ _ U); lia|]. destruct (range_here _ _ _ _ T U) as (m & m' & w & _ & _ & C & D & _ & Q); [lia|].
      destruct (Q Ni) as (g & ->). exists (m ++ g), m'. rewrite <- app_assoc. auto.
  Qed.
  Lemma placed i j : i < j <= n -> place here (text I i j).
  Proof. intro H. destruct (has_tok i) as (t & T); [lia|]. destruct (starts_here _ _ _ T H) as (m & r & _ & _ & A). eexists. exact A. Qed.
  Lemma order_of i t a b u c d : nth_error out i = Some (t, (a, b)) -> nth_error out (S i) = Some (u, (c, d)) -> b <= c \/ (t = T_Eol /\ u = T_Indent /\ d = b).
  Proof.
    intros A B. destruct (pair_split _ _ _ _ _ A B) as (l1 & l2 & l3 & Q & _); [lia|].
    destruct (C29_spans L UO s out Lx) as [_ Sp]. destruct (Sp _ _ _ _ _ _ _ _ _ Q) as [Le|(_ & -> & -> & Le & -> & _)]; auto.
  Qed.
  Lemma empty_span i : 1 <= i <= n -> place here (text I i i) \/ sp_end (text I i i) <= sp_start (text I i i).
  Proof.
    intros H. destruct i as [|k]; [lia|]. destruct (in_range k) as (t & a & b & T); [lia|]. cbn -[text_from text_upto]. rewrite (upto_at _ _ _ _ T).
    destruct (nth_error out (S k)) as [[u [c d]]|] eqn:U.
    - rewrite (from_at _ _ _ _ U). destruct (order_of _ _ _ _ _ _ _ T U) as [Le|(-> & -> & ->)]; [right; exact Le|]. left.
      destruct (tok_get _ _ _ _ U) as (m & G & _). exists m. apply Here; [reflexivity|]. cbn -[text_from text_upto]. rewrite (upto_at _ _ _ _ T), (from_at _ _ _ _ U). exact G.
    - right. destruct (tok_get _ _ _ _ T) as (m & G & _). apply str_get_le in G. unfold text_from, input_of. cbn [in_tokens in_len]. rewrite U. lia.
  Qed.
  Lemma after_colon j : tok I j T_Colon -> nothing_after_colon here (text I (S j) (S j)).
  Proof.
    intro T. pose proof T as T0. apply tok_in in T as (a & b & T). destruct (tok_get _ _ _ _ T) as (m & G & M). cbn in M. subst m.
    assert (b = S a) by (apply str_get_spec in G as (p & q & _ & -> & ->); cbn; lia).
    unfold nothing_after_colon. cbn [sp_end sp_start sp_source text]. rewrite (upto_at _ _ _ _ T). split; [|split; [lia|]].
    - destruct (nth_error out (S j)) as [[u [c d]]|] eqn:U.
      + rewrite (from_at _ _ _ _ U). destruct (order_of _ _ _ _ _ _ _ T U) as [Le|(X & _)]; [exact Le|discriminate].
      + apply str_get_le in G. unfold text_from, input_of. cbn [in_tokens in_len]. rewrite U. lia.
    - apply Here; [reflexivity|]. cbn [sp_start sp_end]. replace (b - 1) with a by lia. exact G.
  Qed.

  (** *** Single tokens *)
  Ltac one T := destruct (tok_here _ _ T) as (m & A & M); cbn in M; exists m; (split; [exact A|]); try exact M; try (cbn; congruence).
  Lemma l_account i j x : written I (account_at E I names) i j x -> spelled here account_spelling x.
  Proof. destruct x as [x sp]. unfold spelled, written. cbn. intros [[t ws T _] ->]. one T. Qed.
  Lemma l_currency i j x : written I (currency_at I) i j x -> spelled here name_spelling x.
  Proof. destruct x as [x sp]. unfold spelled, written. cbn. intros [[c T _] ->]. one T. Qed.
  Lemma l_tag i j x : written I (tag_at E I) i j x -> spelled here tag_spelling x.
  Proof. destruct x as [x sp]. unfold spelled, written. cbn. intros [[c T _] ->]. one T. Qed.
  Lemma l_link i j x : written I (link_at E I) i j x -> spelled here link_spelling x.
  Proof. destruct x as [x sp]. unfold spelled, written. cbn. intros [[c T _] ->]. one T. Qed.
  Lemma l_key i j x : written I (key_at E I) i j x -> spelled here name_spelling x.
  Proof. destruct x as [x sp]. unfold spelled, written. cbn. intros [[c T _] ->]. one T. Qed.
  Lemma l_date i j x : written I (date_at I) i j x -> spelled here date_spelling x.
  Proof. destruct x as [x sp]. unfold spelled, written. cbn. intros [[c T] ->]. one T. Qed.
  Lemma l_number i j x : written I (number_at I) i j x -> spelled here (number_spelling L) x.
  Proof. destruct x as [x sp]. unfold spelled, written. cbn. intros [[c T] ->]. one T. Qed.
  Lemma l_string i j x : written I (string_at I) i j x -> spelled here (string_spelling L) x.
  Proof. destruct x as [x sp]. unfold spelled, written. cbn. intros [[c T] ->]. one T. Qed.
  Lemma l_booking i j x : written I (booking_at I) i j x -> spelled here (booking_spelling L) x.
  Proof. destruct x as [x sp]. unfold spelled, written. cbn. intros [[c T] ->]. one T. Qed.
  Lemma l_flag i j x : written I (flag_at I) i j x -> spelled here flag_spelling x.
  Proof. destruct x as [x sp]. unfold spelled, written. cbn. intros [[c T|T|T] ->]; one T. Qed.
  Lemma l_txn i j x : written I (txn_at I) i j x -> spelled here txn_spelling x.
  Proof.
    intros [H Q]. inversion H as [T|k f F]; subst.
    - unfold spelled. rewrite Q. one T. right. split; [congruence|exact M].
    - destruct (l_flag i j x (conj F Q)) as (m & A & M). exists m. split; [exact A|]. left. exact M.
  Qed.

  (** *** How far things go *)
  Lemma b_value i j v : value_at E I i j v -> i < j <= n.
  Proof. intros [Sm _]. exact (proj1 (bounds I) _ _ _ Sm). Qed.
  Lemma b_account i j v : account_at E I names i j v -> i < j <= n.
  Proof. intros [? ? T _]. exact (tok_bound _ _ T). Qed.
  Lemma b_currency i j v : currency_at I i j v -> i < j <= n.
  Proof. intros [? T _]. exact (tok_bound _ _ T). Qed.
  Lemma b_string i j v : string_at I i j v -> i < j <= n.
  Proof. intros [? T]. exact (tok_bound _ _ T). Qed.
  Lemma b_date i j v : date_at I i j v -> i < j <= n.
  Proof. intros [? T]. exact (tok_bound _ _ T). Qed.
  Lemma b_key i j v : key_at E I i j v -> i < j <= n.
  Proof. intros [? T _]. exact (tok_bound _ _ T). Qed.
  Lemma b_tag i j v : tag_at E I i j v -> i < j <= n.
  Proof. intros [? T _]. exact (tok_bound _ _ T). Qed.
  Lemma b_link i j v : link_at E I i j v -> i < j <= n.
  Proof. intros [? T _]. exact (tok_bound _ _ T). Qed.
  Lemma b_number i j v : number_at I i j v -> i < j <= n.
  Proof. intros [? T]. exact (tok_bound _ _ T). Qed.
  Lemma b_flag i j v : flag_at I i j v -> i < j <= n.
  Proof. intros [? T|T|T]; exact (tok_bound _ _ T). Qed.
  Lemma b_txn i j v : txn_at I i j v -> i < j <= n.
  Proof. intros [T|? ? F]; [exact (tok_bound _ _ T)|exact (b_flag _ _ _ F)]. Qed.
  Lemma b_booking i j v : booking_at I i j v -> i < j <= n.
  Proof. intros [? T]. exact (tok_bound _ _ T). Qed.
  Lemma b_line i j : line_end I i j -> i <= n -> i <= j <= n.
  Proof. intros [k T|k F] H; [pose proof (tok_bound _ _ T); lia|lia]. Qed.
  Lemma b_amount i j a : amount_at E I i j a -> i < j <= n.
  Proof. intros [k [V _] [C _]]. apply b_value in V. apply b_currency in C. lia. Qed.
  Lemma b_amount_tol i j a : amount_tol_at E I i j a -> i < j <= n.
  Proof. intros [x [A _]|x t c k m [V _] T [Nu _] [C _]]; [exact (b_amount _ _ _ A)|]. apply b_value in V. apply b_currency in C. apply b_number in Nu. lia. Qed.
  Lemma b_compound i j e : compound_expr_at E I i j e -> i < j <= n.
  Proof.
    intros [k m p t P T Q|k p P|k p P T|k t T Q].
    - apply b_value in P. apply b_value in Q. lia.
    - exact (b_value _ _ _ P).
    - apply b_value in P. pose proof (tok_bound _ _ T). lia.
    - apply b_value in Q. lia.
  Qed.
  Lemma b_compound_amount i j a : compound_amount_at E I i j a -> i < j <= n.
  Proof.
    intros [k m e c X C|k e X|k c C|k c T C].
    - apply b_compound in X. apply b_currency in C. lia.
    - exact (b_compound _ _ _ X).
    - exact (b_currency _ _ _ C).
    - apply b_currency in C. lia.
  Qed.
  Lemma b_price i j p : price_at E I i j p -> i < j <= n.
  Proof.
    assert (B : forall i sc, price_sign I i sc -> i < S i <= n) by (intros k sc [T|T]; exact (tok_bound _ _ T)).
    intros [sc Sg|sc k v Sg V|sc k c Sg C|sc k m v c Sg V C]; [exact (B _ _ Sg)| | |].
    - apply b_value in V. lia.
    - apply b_currency in C. lia.
    - apply b_value in V. apply b_currency in C. lia.
  Qed.
  Lemma b_comp i j c : cost_comp_at E I i j c -> i < j <= n.
  Proof. intros [k a A|k d D|k x X|T]; [exact (b_compound_amount _ _ _ A)|exact (b_date _ _ _ D)|exact (b_string _ _ _ X)|exact (tok_bound _ _ T)]. Qed.
  Lemma b_separated {A} (R : nat -> nat -> A -> Prop) : (forall i j a, R i j a -> i < j <= n) -> forall i j l, separated I R i j l -> i < j <= n.
  Proof. intros B i j l Sp. induction Sp as [i j x H|i j k x l H T Sp IH]; [exact (B _ _ _ H)|]. apply B in H. lia. Qed.
  Lemma b_cost i j c : cost_at E I i j c -> i < j <= n.
  Proof.
    intros [c' _ T _|k l c' _ Sp T _]; [pose proof (tok_bound _ _ T); lia|]. pose proof (tok_bound _ _ T).
    apply (b_separated (written I (cost_comp_at E I))) in Sp; [lia|]. intros a b x [H' _]. exact (b_comp _ _ _ H').
  Qed.
  Lemma b_maybe {A} (R : nat -> nat -> A -> Prop) i j o : (forall i j a, R i j a -> i < j <= n) -> maybe R i j o -> i <= n -> i <= j <= n.
  Proof. intros B [|k a H] Le; [lia|]. apply B in H. lia. Qed.
  Lemma b_star {A} (R : nat -> nat -> A -> list report -> Prop) : (forall i j a es, R i j a es -> i < j <= n) -> forall i j l es, star R i j l es -> i <= n -> i <= j <= n.
  Proof. intros B i j l es St. induction St as [i|i j k a l es es' H _ IH]; intro Le; [lia|]. apply B in H. lia. Qed.
  Lemma b_simple i j v : simple_value_at E I names i j v -> i < j <= n.
  Proof.
    intros [k x H|k x H|k x H|k x H|k x H|k x H|k x H|H|k x H].
    - exact (b_string _ _ _ H).
    - exact (b_currency _ _ _ H).
    - exact (b_account _ _ _ H).
    - exact (b_tag _ _ _ H).
    - exact (b_link _ _ _ H).
    - exact (b_date _ _ _ H).
    - destruct H as [T|T]; exact (tok_bound _ _ T).
    - exact (tok_bound _ _ H).
    - exact (b_value _ _ _ H).
  Qed.
  Lemma b_meta_value i j v : meta_value_at E I names i j v -> i < j <= n.
  Proof. intros [a A|w W]; [exact (b_amount _ _ _ A)|exact (b_simple _ _ _ W)]. Qed.
  Lemma b_key_value i j kv : key_value_at E I names i j kv -> i < j <= n.
  Proof. intros [a b key v [K _] _ [V _]|a key [K _] T]; apply b_key in K; [apply b_meta_value in V|pose proof (tok_bound _ _ T)]; lia. Qed.
  Lemma b_mark i j m : mark_at E I i j m -> i < j <= n.
  Proof. intros [t [T _]|t [T _]]; [exact (b_tag _ _ _ T)|exact (b_link _ _ _ T)]. Qed.
  Lemma b_metadatum i j m : metadatum_at E I names i j m -> i < j <= n.
  Proof. intros [kv [K _]|m' M]; [exact (b_key_value _ _ _ K)|exact (b_mark _ _ _ M)]. Qed.
  Lemma b_metadata_line i k m : metadata_line E I names i k m -> i < k <= n.
  Proof. intros [j T M Le]. apply b_metadatum in M. apply b_line in Le; lia. Qed.
  Lemma b_metadata i j md es : metadata_at E I names i j md es -> i <= n -> i <= j <= n.
  Proof. intros [l St _ _]. eapply b_star; [|exact St]. intros a b m es' [H _]. exact (b_metadata_line _ _ _ H). Qed.
  Lemma b_posting i j p es : posting_at E I names i j p es -> i < j <= n.
  Proof.
    intros [a b c d e f g k flag account amount currency cost price md es' T Fl [Ac _] Am Cu Co Pr Le Md]. pose proof (tok_bound _ _ T).
    apply b_maybe in Fl; [|intros x y z [H' _]; exact (b_flag _ _ _ H')|lia]. apply b_account in Ac.
    apply b_maybe in Am; [|intros x y z [H' _]; exact (b_value _ _ _ H')|lia].
    apply b_maybe in Cu; [|intros x y z [H' _]; exact (b_currency _ _ _ H')|lia].
    apply b_maybe in Co; [|intros x y z [H' _]; exact (b_cost _ _ _ H')|lia].
    apply b_maybe in Pr; [|intros x y z [H' _]; exact (b_price _ _ _ H')|lia].
    apply b_line in Le; [|lia]. apply b_metadata in Md; lia.
  Qed.

  (** *** Amounts, prices, costs *)
  Lemma placed_written {A} (R : nat -> nat -> A -> Prop) i j x : (forall i j a, R i j a -> i < j <= n) -> written I R i j x -> place here (span_of x).
  Proof. intros B [H ->]. apply placed. exact (B _ _ _ H). Qed.
  Lemma l_amount i j a : amount_at E I i j a -> located_amount here a.
  Proof. intros [k V C]. split; [exact (placed_written _ _ _ _ b_value V)|exact (l_currency _ _ _ C)]. Qed.
  Lemma given_some {A} (P : A -> Prop) a : P a -> given_is P (Some a).
  Proof. intros H x Q. injection Q as <-. exact H. Qed.
  Lemma given_none {A} (P : A -> Prop) : given_is P None.
  Proof. intros x Q. discriminate. Qed.
  Lemma l_maybe {A} (R : nat -> nat -> A -> Prop) (P : A -> Prop) i j o : (forall i j a, R i j a -> P a) -> maybe R i j o -> given_is P o.
  Proof. intros H [|k a X]; [exact (given_none _)|apply given_some; exact (H _ _ _ X)]. Qed.
  Lemma l_amount_tol i j a : amount_tol_at E I i j a -> located_amount_tol L here a.
  Proof.
    intros [x A|x t c k m V T Nu C].
    - split; [exact (placed_written _ _ _ _ b_amount A)|]. split; [exact (l_amount _ _ _ (proj1 A))|exact (given_none _)].
    - split; cbn; [|split].
      + pose proof (b_value _ _ _ (proj1 V)). pose proof (b_number _ _ _ (proj1 Nu)). pose proof (b_currency _ _ _ (proj1 C)). apply placed. lia.
      + split; [exact (placed_written _ _ _ _ b_value V)|exact (l_currency _ _ _ C)].
      + apply given_some. exact (l_number _ _ _ Nu).
  Qed.
  Definition comp_located (c : spanned cost_comp) : Prop :=
    place here (span_of c) /\
    (forall x, currency_of (item c) = Some x -> ends_with here name_spelling (mk_spanned x (span_of c))) /\
    (forall d, date_of (item c) = Some d -> spelled here date_spelling (mk_spanned d (span_of c))) /\
    (forall x, label_of (item c) = Some x -> spelled here (string_spelling L) (mk_spanned x (span_of c))).
  Lemma l_comp i j c : written I (cost_comp_at E I) i j c -> comp_located c.
  Proof.
    intros W. split; [exact (placed_written _ _ _ _ b_comp W)|]. destruct c as [c sp]. destruct W as [H Q]. cbn [item span_of] in *. subst sp. destruct H as [k a A|k d Dd|k x X|T]; cbn; (split; [|split]); intros y Y; try discriminate.
    - assert (X : exists i', currency_at I i' k y /\ i <= i').
      { destruct A as [k' k2 e c' X C|k' e X|k' c' C|k' c' T C]; cbn in Y; try discriminate; injection Y as <-.
        - exists k'. split; [exact C|]. apply b_compound in X. lia.
        - exists i. auto.
        - exists (S i). auto. }
      destruct X as (i' & [c' T _] & Le). destruct (ends_here i i' _ T ltac:(discriminate) Le) as (p & m & Hh & M). cbn in M. subst m. exists p, c'. split; [exact Hh|reflexivity].
    - injection Y as <-. exact (l_date i k (mk_spanned d (text I i k)) (conj Dd eq_refl)).
    - injection Y as <-. exact (l_string i k (mk_spanned x (text I i k)) (conj X eq_refl)).
  Qed.
  Lemma l_only {A} (f : cost_comp -> option A) (P : spanned A -> Prop) l o :
    Forall (fun c => forall a, f (item c) = Some a -> P (mk_spanned a (span_of c))) l -> only (SpecCost.given f l) o -> given_is P o.
  Proof.
    intros F H. remember (SpecCost.given f l) as g eqn:Q. destruct H as [|a]; [exact (given_none _)|]. apply given_some.
    assert (Hin : In a (SpecCost.given f l)) by (rewrite <- Q; left; reflexivity). unfold SpecCost.given in Hin. apply in_flat_map in Hin. destruct Hin as (c & Hc & Hin).
    rewrite Forall_forall in F. specialize (F c Hc). destruct (f (item c)) as [x|]; [|destruct Hin]. destruct Hin as [<-|[]]. apply F. reflexivity.
  Qed.
  Lemma l_cost i j c : cost_at E I i j c -> located_cost L here c.
  Proof.
    intro H.
    assert (X : exists l, Forall comp_located l /\ spells_cost l c).
    { destruct H as [c _ _ Sc|k l c _ Sp _ Sc]; [exists []; split; [constructor|exact Sc]|]. exists l. split; [|exact Sc].
      eapply separated_all; [|exact Sp]. exact l_comp. }
    destruct X as (l & F & [S1 S2 S3 S4 S5 _]). split.
    - eapply l_only; [|exact S1]. eapply Forall_impl; [|exact F]. intros a X x _. apply X.
    - eapply l_only; [|exact S2]. eapply Forall_impl; [|exact F]. intros a X x _. apply X.
    - eapply l_only; [|exact S3]. eapply Forall_impl; [|exact F]. intros a X. apply X.
    - eapply l_only; [|exact S4]. eapply Forall_impl; [|exact F]. intros a X. apply X.
    - eapply l_only; [|exact S5]. eapply Forall_impl; [|exact F]. intros a X. apply X.
  Qed.

  (** *** Metadata *)
  Lemma l_value i j v : written I (meta_value_at E I names) i j v -> located_value L here v.
  Proof.
    intros W. pose proof (placed_written _ _ _ _ b_meta_value W) as Pl. destruct v as [v sp]. destruct W as [H Q]. cbn [item span_of] in *. subst sp. unfold located_value. cbn [item span_of] in *.
    destruct H as [a A|w H]; [split; [exact Pl|exact (l_amount _ _ _ A)]|].
    destruct H as [k x H|k x H|k x H|k x H|k x H|k x H|k x H|H|k x H].
    - exact (l_string i k (mk_spanned x (text I i k)) (conj H eq_refl)).
    - destruct (l_currency i k (mk_spanned x (text I i k)) (conj H eq_refl)) as (m & A & M). cbn in *. unfold name_spelling in M. subst m. exact A.
    - destruct (l_account i k (mk_spanned x (text I i k)) (conj H eq_refl)) as (m & A & M). cbn in *. unfold account_spelling in M. subst m. exact A.
    - destruct (l_tag i k (mk_spanned x (text I i k)) (conj H eq_refl)) as (m & A & M). cbn in *. unfold tag_spelling in M. subst m. exact A.
    - destruct (l_link i k (mk_spanned x (text I i k)) (conj H eq_refl)) as (m & A & M). cbn in *. unfold link_spelling in M. subst m. exact A.
    - exact (l_date i k (mk_spanned x (text I i k)) (conj H eq_refl)).
    - destruct H as [T|T]; destruct (tok_here _ _ T) as (m & A & M); cbn in M; subst m; exact A.
    - left. destruct (tok_here _ _ H) as (m & A & M); cbn in M; subst m; exact A.
    - exact Pl.
  Qed.
  Definition datum_located (m : metadatum) : Prop :=
    match m with
    | MD_KeyValue kv => spelled here name_spelling (mkv_key (item kv)) /\ located_value L here (mkv_value (item kv))
    | MD_Tag t => spelled here tag_spelling t
    | MD_Link t => spelled here link_spelling t
    end.
  Lemma spelled_place {A} (w : A -> str -> Prop) x : spelled here w x -> place here (span_of x).
  Proof. intros (m & H & _). exists m. exact H. Qed.
  Lemma datum_place x : datum_located x -> exists m, here (metadatum_place x) m /\ concerns L (g_unicode E) (g_decimal E) (metadatum_label x) m.
  Proof. destruct x; cbn; [intros [H _]|intro H..]; exact H. Qed.
  Lemma l_key_value i j kv : key_value_at E I names i j kv -> spelled here name_spelling (mkv_key kv) /\ located_value L here (mkv_value kv).
  Proof.
    intros [a b key v K _ V|a key K T]; cbn [mkv_key mkv_value]; (split; [exact (l_key _ _ _ K)|]); [exact (l_value _ _ _ V)|].
    right. cbn [span_of]. apply after_colon. exact T.
  Qed.
  Lemma l_mark i j m : mark_at E I i j m -> datum_located m.
  Proof. intros [t T|t T]; [exact (l_tag _ _ _ T)|exact (l_link _ _ _ T)]. Qed.
  Lemma l_metadatum i j m : metadatum_at E I names i j m -> datum_located m.
  Proof. intros [kv [K _]|m' M]; [exact (l_key_value _ _ _ K)|exact (l_mark _ _ _ M)]. Qed.

  Lemma in_tags l : Forall datum_located l -> Forall (spelled here tag_spelling) (tags_in l).
  Proof. intro F. apply Forall_flat_map. eapply Forall_impl; [|exact F]. intros [kv|t|t] H; first [constructor; [exact H|constructor]|constructor]. Qed.
  Lemma in_links l : Forall datum_located l -> Forall (spelled here link_spelling) (links_in l).
  Proof. intro F. apply Forall_flat_map. eapply Forall_impl; [|exact F]. intros [kv|t|t] H; first [constructor; [exact H|constructor]|constructor]. Qed.
  Lemma in_keys l : Forall datum_located l -> Forall (fun kv => spelled here name_spelling (fst kv) /\ located_value L here (snd kv)) (key_values_in l).
  Proof. intro F. apply Forall_flat_map. eapply Forall_impl; [|exact F]. intros [kv|t|t] H; first [constructor; [exact H|constructor]|constructor]. Qed.
  Lemma dedup_incl2 {A} (lab : A -> problem) seen l kept again : dedup lab seen l kept again -> incl again l.
  Proof. induction 1 as [|? ? ? ? ? _ _ IH|? ? ? ? ? _ _ IH]; intros a Ha; [exact Ha|right; apply IH; exact Ha|]. destruct Ha as [->|Ha]; [left; reflexivity|right; apply IH; exact Ha]. Qed.
  Notation concerned := (concerns L (g_unicode E) (g_decimal E)).
  Lemma repeated_located {A} (lab : A -> problem) (pl : A -> span) l :
    Forall (fun x => exists m, here (pl x) m /\ concerned (lab x) m) l -> Forall (located_report L here (g_unicode E) (g_decimal E)) (map (repeated lab pl) l).
  Proof. intro F. apply Forall_map. eapply Forall_impl; [|exact F]. intros a H. split; [exact H|constructor]. Qed.
  Lemma incl_forall {A} (P : A -> Prop) l kept : incl kept l -> Forall P l -> Forall P kept.
  Proof. intros Hi F. rewrite Forall_forall in *. auto. Qed.

  Lemma l_metadata i j md es : metadata_at E I names i j md es -> 1 <= i <= n ->
    located_metadata L here (spelled here tag_spelling) md /\ Forall (located_report L here (g_unicode E) (g_decimal E)) es.
  Proof.
    intros M Bi. pose proof (b_metadata _ _ _ _ M (proj2 Bi)) as Bj. destruct M as [l St Co Sp]. assert (F : Forall datum_located l).
    { eapply star_all; [|exact St]. intros a b m es' [[k _ M _] _]. eapply l_metadatum. exact M. }
    destruct md as [md sp]. cbn [item span_of] in *. subst sp. destruct Co as [kept again De]. pose proof (incl_forall _ _ _ (dedup_incl _ _ _ _ _ De) F) as Fk. split.
    - split; cbn [item span_of md_key_values md_tags md_links]; auto using in_tags, in_links, in_keys.
      destruct (Nat.eq_dec i j) as [->|Ne]; [apply empty_span; lia|left; apply placed; lia].
    - apply repeated_located. eapply Forall_impl; [exact datum_place|]. eapply incl_forall; [exact (dedup_incl2 _ _ _ _ _ De)|exact F].
  Qed.
  Lemma l_merges dup (w : str -> str -> Prop) old new result es : (forall x m, w x m -> concerned (dup x) m) -> merges dup old new result es -> Forall (spelled here w) old -> Forall (spelled here w) new ->
    Forall (spelled here w) result /\ Forall (located_report L here (g_unicode E) (g_decimal E)) es.
  Proof.
    intros Wd [fresh again De -> F2] Fo Fn. split.
    - apply Forall_app. split; [exact Fo|]. exact (incl_forall _ _ _ (dedup_incl _ _ _ _ _ De) Fn).
    - clear De. induction F2 as [|x e again es (y & Hy & Qy & ->) _ IH]; constructor; [|exact IH]. split; [|constructor]. cbn [rp_span rp_problem].
      rewrite Forall_forall in Fo. destruct (Fo _ Hy) as (m & A & B). exists m. split; [exact A|]. rewrite <- Qy. apply Wd. exact B.
  Qed.
  Lemma l_joined md marks md' es es' : located_metadata L here (spelled here tag_spelling) md -> Forall datum_located marks -> joined E md marks md' es es' ->
    located_metadata L here (spelled here tag_spelling) md' /\ Forall (located_report L here (g_unicode E) (g_decimal E)) es /\ Forall (located_report L here (g_unicode E) (g_decimal E)) es'.
  Proof.
    intros [Sp K T Lk] F [kept again tags links e1 e2 De Mt Ml]. pose proof (incl_forall _ _ _ (dedup_incl _ _ _ _ _ De) F) as Fk.
    destruct (l_merges DuplicateTag tag_spelling _ _ _ _ (fun _ _ H => H) Mt T) as [T1 T2]; [eapply Permutation_Forall; [apply Go|apply in_tags; exact Fk]|].
    destruct (l_merges DuplicateLink link_spelling _ _ _ _ (fun _ _ H => H) Ml Lk) as [L1 L2]; [eapply Permutation_Forall; [apply Go|apply in_links; exact Fk]|].
    split; [split; assumption|]. split; [|apply Forall_app; split; assumption].
    apply repeated_located. eapply Forall_impl; [exact datum_place|]. eapply incl_forall; [exact (dedup_incl2 _ _ _ _ _ De)|exact F].
  Qed.

  (** *** Postings *)
  Lemma l_posting i j p es : posting_at E I names i j p es -> located_posting L here p /\ Forall (located_report L here (g_unicode E) (g_decimal E)) es.
  Proof.
    intros [a b c d e f g k flag account amount currency cost price md es' T Fl Ac Am Cu Co Pr Le Md]. pose proof (tok_bound _ _ T).
    assert (B1 := b_maybe _ _ _ _ (fun x y z W => b_flag _ _ _ (proj1 W)) Fl ltac:(lia)). assert (B2 := b_account _ _ _ (proj1 Ac)).
    assert (B3 := b_maybe _ _ _ _ (fun x y z W => b_value _ _ _ (proj1 W)) Am ltac:(lia)).
    assert (B4 := b_maybe _ _ _ _ (fun x y z W => b_currency _ _ _ (proj1 W)) Cu ltac:(lia)).
    assert (B5 := b_maybe _ _ _ _ (fun x y z W => b_cost _ _ _ (proj1 W)) Co ltac:(lia)).
    assert (B6 := b_maybe _ _ _ _ (fun x y z W => b_price _ _ _ (proj1 W)) Pr ltac:(lia)).
    assert (B7 := b_line _ _ Le ltac:(lia)). destruct (l_metadata _ _ _ _ Md ltac:(lia)) as [M1 M2]. split; [|exact M2]. split; cbn [span_of item po_flag po_account po_amount po_currency po_cost_spec po_price po_metadata].
    - apply placed. lia.
    - eapply l_maybe; [|exact Fl]. exact l_flag.
    - exact (l_account _ _ _ Ac).
    - eapply l_maybe; [|exact Am]. intros x y z W. exact (placed_written _ _ _ _ b_value W).
    - eapply l_maybe; [|exact Cu]. exact l_currency.
    - eapply l_maybe; [|exact Co]. intros x y z W. split; [exact (placed_written _ _ _ _ b_cost W)|exact (l_cost _ _ _ (proj1 W))].
    - eapply l_maybe; [|exact Pr]. intros x y z W. exact (placed_written _ _ _ _ b_price W).
    - exact M1.
  Qed.

  (** *** Fields *)
  Lemma b_currencies i j cs es : currencies_at I i j cs es -> i <= n -> i <= j <= n.
  Proof. intros [|m first rest kept again Sp De] H; [lia|]. apply b_separated in Sp; [lia|]. intros a b x [H' _]. exact (b_currency _ _ _ H'). Qed.
  Lemma b_fields i k j v es : fields_at E I names i k j v es -> i < j <= n.
  Proof.
    intros [a b c m [C _] [A _]|a b x t [Ac _] [At _]|a b c x cs bk es' [Ac _] Cu Bk|a x [Ac _]|a c [C _]|a b x t [Ac _] [As _]|a b x t [Ac _] [St _]|a b x t [Ac _] [St _]|a b x t [Ac _] [St _]|a b x t [Ac _] [St _]].
    - apply b_currency in C. apply b_amount in A. lia.
    - apply b_account in Ac. apply b_amount_tol in At. lia.
    - apply b_account in Ac. apply b_currencies in Cu; [|lia]. apply b_maybe in Bk; [lia| |lia]. intros p q r [H _]. exact (b_booking _ _ _ H).
    - exact (b_account _ _ _ Ac).
    - exact (b_currency _ _ _ C).
    - apply b_account in Ac. apply b_account in As. lia.
    - apply b_account in Ac. apply b_string in St. lia.
    - apply b_account in Ac. apply b_string in St. lia.
    - apply b_string in Ac. apply b_string in St. lia.
    - apply b_string in Ac. apply b_string in St. lia.
  Qed.
  Lemma l_fields i k j v es : fields_at E I names i k j v es -> located_variant L here v /\ Forall (located_report L here (g_unicode E) (g_decimal E)) es.
  Proof.
    intros [a b c m C A|a b x t Ac At|a b c x cs bk es' Ac Cu Bk|a x Ac|a c C|a b x t Ac As|a b x t Ac St|a b x t Ac St|a b x t Ac St|a b x t Ac St]; cbn; split; try constructor.
    - exact (l_currency _ _ _ C).
    - split; [exact (placed_written _ _ _ _ b_amount A)|exact (l_amount _ _ _ (proj1 A))].
    - exact (l_account _ _ _ Ac).
    - split; [exact (placed_written _ _ _ _ b_amount_tol At)|exact (l_amount_tol _ _ _ (proj1 At))].
    - exact (l_account _ _ _ Ac).
    - split; [|eapply l_maybe; [|exact Bk]; exact l_booking]. destruct Cu as [|m first rest kept again Sp De]; [constructor|].
      assert (F : Forall (spelled here name_spelling) (first :: rest)) by (eapply separated_all; [|exact Sp]; exact l_currency).
      eapply incl_forall; [|exact F]. intros z Hz. apply (dedup_incl _ _ _ _ _ De) in Hz. apply in_app_or in Hz. destruct Hz as [Hz|[<-|[]]]; [right; exact Hz|left; reflexivity].
    - destruct Cu as [|m first rest kept again Sp De]; [constructor|].
      assert (F : Forall (spelled here name_spelling) (first :: rest)) by (eapply separated_all; [|exact Sp]; exact l_currency).
      apply repeated_located. eapply Forall_impl; [intros z Hz; exact Hz|]. eapply incl_forall; [|exact F].
      intros z Hz. apply (dedup_incl2 _ _ _ _ _ De) in Hz. apply in_app_or in Hz. destruct Hz as [Hz|[<-|[]]]; [right; exact Hz|left; reflexivity].
    - exact (l_account _ _ _ Ac).
    - exact (l_currency _ _ _ C).
    - exact (l_account _ _ _ Ac).
    - exact (l_account _ _ _ As).
    - exact (l_account _ _ _ Ac).
    - exact (l_string _ _ _ St).
    - exact (l_account _ _ _ Ac).
    - exact (l_string _ _ _ St).
    - exact (l_string _ _ _ Ac).
    - exact (l_string _ _ _ St).
    - exact (l_string _ _ _ Ac).
    - exact (l_string _ _ _ St).
  Qed.
  Lemma l_titles l p q : titles l p q -> Forall (spelled here (string_spelling L)) l -> given_is (spelled here (string_spelling L)) p /\ given_is (spelled here (string_spelling L)) q.
  Proof.
    intros [|x m U|x t q' m U V] F; [split; exact (given_none _)| |].
    - inversion F; subst. split; [exact (given_none _)|]. destruct U; [exact (given_none _)|apply given_some; assumption].
    - inversion F as [|? ? F1 F2]; subst. inversion F2; subst. split; [destruct U|destruct V]; first [exact (given_none _)|apply given_some; assumption].
  Qed.

  (** *** Directives *)
  Definition directive_located (i j : nat) (d : directive) : Prop :=
    (exists m rest, here (text I i j) (m ++ rest) /\ here (span_of (dir_date d)) m /\ sp_start (text I i j) = sp_start (span_of (dir_date d))) /\
    spelled here date_spelling (dir_date d) /\ located_metadata L here (spelled here tag_spelling) (dir_metadata d) /\ located_variant L here (dir_variant d).
  Lemma l_start i a j date : written I (date_at I) i a date -> i < j <= n ->
    exists m rest, here (text I i j) (m ++ rest) /\ here (span_of date) m /\ sp_start (text I i j) = sp_start (span_of date).
  Proof.
    intros [H Q] B. inversion H as [d T Qd]; subst. destruct (starts_here _ _ _ T B) as (m & r & A & _ & C). exists m, r. rewrite Q. auto.
  Qed.
  Lemma l_directive i j d es : directive_at E I names i j d es -> i < j <= n /\ directive_located i j d /\ Forall (located_report L here (g_unicode E) (g_decimal E)) es.
  Proof.
    intros [a b c e f g m date flag strings payee narration marks md md' postings es1 es2 es3 es4 Dd Fl St Ti Ma Le Md Ps Jo
           |a b c e m k date v marks md md' es1 es2 es3 es4 Dd T Fi Ma Le Md Jo
           |a b c e m date type_ values md es' Dd T Ty Va Le Md]; assert (B1 := b_date _ _ _ (proj1 Dd)).
    - assert (B2 := b_txn _ _ _ (proj1 Fl)). assert (B3 := b_star _ (fun x y z es' W => b_string _ _ _ (proj1 (proj1 W))) _ _ _ _ St ltac:(lia)).
      assert (B4 := b_star _ (fun x y z es' W => b_mark _ _ _ (proj1 W)) _ _ _ _ Ma ltac:(lia)). assert (B5 := b_line _ _ Le ltac:(lia)).
      assert (B6 := b_metadata _ _ _ _ Md ltac:(lia)). assert (B7 := b_star _ b_posting _ _ _ _ Ps ltac:(lia)).
      destruct (l_metadata _ _ _ _ Md ltac:(lia)) as [M1 M2].
      destruct (l_joined md marks md' es1 es4 M1) as (J1 & J2 & J3); [eapply star_all; [|exact Ma]; intros x y z es' [H _]; exact (l_mark _ _ _ H)|exact Jo|].
      assert (P : Forall (located_posting L here) postings /\ Forall (located_report L here (g_unicode E) (g_decimal E)) es3).
      { clear - Ps UO Lx Here. induction Ps as [|i j k p l es es' H _ [IH1 IH2]]; [split; constructor|]. apply l_posting in H. destruct H as [H1 H2]. split; [constructor; assumption|apply Forall_app; split; assumption]. }
      destruct (l_titles _ _ _ Ti) as [T1 T2]; [eapply star_all; [|exact St]; intros x y z es' [H _]; exact (l_string _ _ _ H)|].
      split; [lia|]. split.
      + split; [apply l_start with (1 := Dd); lia|]. split; [exact (l_date _ _ _ Dd)|]. split; [exact J1|]. cbn. split; [exact (l_txn _ _ _ Fl)|]. split; [exact T1|]. split; [exact T2|apply P].
      + apply Forall_app; split; [exact J2|]. apply Forall_app; split; [exact M2|]. apply Forall_app; split; [apply P|exact J3].
    - assert (B2 := b_fields _ _ _ _ _ Fi).
      assert (B4 := b_star _ (fun x y z es' W => b_mark _ _ _ (proj1 W)) _ _ _ _ Ma ltac:(lia)). assert (B5 := b_line _ _ Le ltac:(lia)).
      assert (B6 := b_metadata _ _ _ _ Md ltac:(lia)). destruct (l_metadata _ _ _ _ Md ltac:(lia)) as [M1 M2].
      destruct (l_joined md marks md' es2 es4 M1) as (J1 & J2 & J3); [eapply star_all; [|exact Ma]; intros x y z es' [H _]; exact (l_mark _ _ _ H)|exact Jo|].
      destruct (l_fields _ _ _ _ _ Fi) as [F1 F2]. split; [lia|]. split.
      + split; [apply l_start with (1 := Dd); lia|]. split; [exact (l_date _ _ _ Dd)|]. split; [exact J1|exact F1].
      + apply Forall_app; split; [exact F2|]. apply Forall_app; split; [exact J2|]. apply Forall_app; split; [exact M2|exact J3].
    - assert (B2 := b_string _ _ _ (proj1 Ty)). assert (B3 := b_star _ (fun x y z es' W => b_meta_value _ _ _ (proj1 (proj1 (proj1 W)))) _ _ _ _ Va ltac:(lia)).
      assert (B5 := b_line _ _ Le ltac:(lia)). assert (B6 := b_metadata _ _ _ _ Md ltac:(lia)). destruct (l_metadata _ _ _ _ Md ltac:(lia)) as [M1 M2].
      split; [lia|]. split; [|exact M2].
      split; [apply l_start with (1 := Dd); lia|]. split; [exact (l_date _ _ _ Dd)|]. split; [exact M1|]. cbn. split; [exact (l_string _ _ _ Ty)|].
      eapply star_all; [|exact Va]. intros x y z es2 [[H _] _]. exact (l_value _ _ _ H).
  Qed.
End Parts.
