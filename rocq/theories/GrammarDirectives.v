(** * What the specification says is a directive is what the parser of directives reads *)
From Coq Require Import String Ascii.
From Coq Require Import List NArith Arith Bool Lia Permutation.
From Verif Require Import Base BaseFacts Types SpecTypes TypesFacts P_Types Options Decimal SpecDecimal P_Expr Cost SpecCost P_Cost
  Token Peg Grammar SpecGrammar PegFacts ExprFacts DedupFacts GrammarSound GrammarSafe GrammarComplete.
Import ListNotations.
Local Open Scope nat_scope.

Lemma silent_cons {A} (R : nat -> nat -> A -> Prop) i k a l es : star (silent R) i k (a :: l) es ->
  exists j, R i j a /\ star (silent R) j k l es.
Proof. intro H. inversion H as [|? j ? ? ? e1 e2 [P Q] St]. rewrite Q. exists j. auto. Qed.
Lemma star_nil_inv {A} (R : nat -> nat -> A -> list report -> Prop) i k es : star R i k [] es -> k = i.
Proof. intro H. inversion H. reflexivity. Qed.

Section Directives.
  Context (E : grammar_env) (I : input) (po : parser_options) (names : account_type -> list N)
          (U_ok : unicode_ok (g_unicode E)) (Hn : named (po_names po) names)
          (Hl : forall t, account_type_name_lang (g_unicode E) (names t))
          (order_ok : forall l, Permutation l (g_order E l)).
  Notation toks := (in_tokens I).
  Let n := List.length (in_tokens I).
  Let W := long_strings (limit_of po) I.
  Notation Reads := (reads toks W).
  Let W_nil : forall i, W i i = [] := long_strings_nil (limit_of po) I.
  Let W_app : forall i j k, i <= j -> j <= k -> W i k = W i j ++ W j k := long_strings_app (limit_of po) I.

  Ltac rbind := eapply reads_bind with (es1 := []); [exact W_app| | |reflexivity].
  Ltac rret := apply reads_ret; [exact W_nil|].
  Ltac other_tok := let X := fresh in intro X;
    match goal with T : tok I ?i _, X : tok I ?i _ |- _ => pose proof (tok_fun _ _ _ _ T X); discriminate end.

  (** ** The first line *)

  (** What may come after the fields. *)
  Definition header_end (t : token) : bool := match t with T_Tag _ | T_Link _ | T_Eol => false | _ => true end.
  Lemma marks_away i j k marks es : star (silent (mark_at E I)) i j marks es -> line_end I j k -> away I header_end i.
  Proof.
    intros [i'|i' j' k' a l e1 e2 [H _] _] L.
    - apply (away_weaken _ _ _ _ (line_end_away _ _ _ L)). intro t. destruct t; auto; discriminate.
    - destruct H as [t [[s T _] _]|t [[s T _] _]]; apply (away_tok _ _ _ _ T); reflexivity.
  Qed.

  Lemma p_tags_links_reads i j marks kept again : star (silent (mark_at E I)) i j marks [] ->
    dedup metadatum_label [] marks kept again -> away I is_mark j -> i <= n ->
    Reads (p_tags_links E I) i j (tags_in kept, links_in kept) [] (map (repeated metadatum_label metadatum_place) again).
  Proof.
    intros H D Aj Hi.
    set (one := choice [pmap inl (spn I (p_tag E I)); pmap inr (spn I (p_link E I))]).
    assert (St : forall i j marks es, star (silent (mark_at E I)) i j marks es ->
      exists l, marks = map of_sum l /\ star (fun i j a es => Reads one i j a [] es) i j l es).
    { clear - W_nil W_app. intros i j marks es H. induction H as [i|i j k a l es es' [H ->] _ IH].
      - exists []. split; [reflexivity|constructor].
      - destruct IH as (l' & -> & St). destruct H as [t H|t H].
        + exists (inl t :: l'). split; [reflexivity|]. econstructor; [|exact St]. apply reads_choice_here.
          eapply reads_to; [|reflexivity]. apply (spn_reads _ _ _ _ _ _ _ H). apply p_tag_reads.
        + exists (inr t :: l'). split; [reflexivity|]. econstructor; [|exact St].
          assert (T' : exists s, tok I i (T_Link s)) by (destruct H as [H _]; inversion H; eauto). destruct T' as [s T'].
          apply reads_choice_there; [apply fails_pmap, fails_sp, p_tag_fails, (away_tok _ _ _ _ T'); reflexivity|].
          apply reads_choice_here. eapply reads_to; [|reflexivity]. apply (spn_reads _ _ _ _ _ _ _ H). apply p_link_reads. }
    destruct (St _ _ _ _ H) as (l & -> & S'). unfold p_tags_links.
    eapply reads_validate with (es := []); [|apply (tags_links_fold l [] [] [] [] kept again D); intro p; cbn; tauto|reflexivity].
    apply (reads_many _ _ W_nil W_app 0) with (t := []); [|lia|exact Hi|exact S'|].
    - apply steps_choice. repeat constructor; apply steps_pmap, spn_steps; [apply p_tag_steps|apply p_link_steps].
    - apply fails_choice. repeat constructor; apply fails_pmap, fails_sp; [apply p_tag_fails|apply p_link_fails];
        apply (away_weaken _ _ _ _ Aj); intro t; destruct t; auto; discriminate.
  Qed.

  Lemma joined_merged md marks md' es1 es4 i j es kept again :
    metadata_at E I names i j md es -> joined E md marks md' es1 es4 -> dedup metadatum_label [] marks kept again ->
    merged E md (tags_in kept, links_in kept) = (md', es4) /\ es1 = map (repeated metadatum_label metadatum_place) again.
  Proof.
    intros [l _ C _] [kept' again' tags links e e' D M1 M2] D'. destruct (dedup_fun _ _ _ _ _ D _ _ D') as [-> ->].
    split; [|reflexivity]. destruct (collects_nodup _ _ _ C) as [N1 N2]. destruct (dedup_kept _ _ _ _ _ D') as (N & _).
    unfold merged. cbn [fst snd].
    rewrite (merges_complete DuplicateTag ltac:(congruence) _ _ _ _ (nodup_order E order_ok _ (tags_in_nodup _ N)) N1 M1).
    rewrite (merges_complete DuplicateLink ltac:(congruence) _ _ _ _ (nodup_order E order_ok _ (links_in_nodup _ N)) N2 M2).
    reflexivity.
  Qed.

  Lemma unless_empty_fun s o : unless_empty s o -> some_nonempty (Some s) = o.
  Proof. intros [H|H]; unfold some_nonempty; destruct (item s); congruence. Qed.

  (** The strings of a transaction. *)
  Definition title_pair (s1 s2 : option (spanned (list N))) : option (spanned (list N)) * option (spanned (list N)) :=
    let '(payee, narration) := match s1, s2 with Some s, None => (None, Some s) | _, _ => (s1, s2) end in
    (some_nonempty payee, some_nonempty narration).
  Lemma strings_read i k strings payee narration : star (silent (written I (string_at I))) i k strings [] ->
    titles strings payee narration -> away I is_string k -> i <= n ->
    exists s1 s2 j, Reads (opt (spn I (p_string I po))) i j s1 [] [] /\ Reads (opt (spn I (p_string I po))) j k s2 [] [] /\
      title_pair s1 s2 = (payee, narration).
  Proof.
    intros H T A Hi.
    assert (Rd : forall i j s, written I (string_at I) i j s -> Reads (spn I (p_string I po)) i j s [] []).
    { intros x y s X. apply (spn_reads _ _ _ _ _ _ _ X). apply p_string_reads. }
    assert (F : fails (spn I (p_string I po)) k) by (apply fails_sp, p_string_fails; exact A).
    inversion T as [|s o U|s t p o U V]; subst.
    - apply star_nil_inv in H. subst. exists None, None, i. split; [apply reads_opt_none; auto|]. split; [apply reads_opt_none; auto|reflexivity].
    - apply silent_cons in H. destruct H as (j & S1 & St). apply star_nil_inv in St. subst.
      exists (Some s), None, j. pose proof (Rd _ _ _ S1) as R1. split; [apply reads_opt_some; exact R1|].
      split; [apply reads_opt_none; auto; apply R1|]. unfold title_pair. rewrite (unless_empty_fun _ _ U). reflexivity.
    - apply silent_cons in H. destruct H as (j & S1 & St). apply silent_cons in St. destruct St as (j' & S2 & St). apply star_nil_inv in St. subst.
      exists (Some s), (Some t), j. split; [apply reads_opt_some, Rd, S1|]. split; [apply reads_opt_some, Rd, S2|].
      unfold title_pair. rewrite (unless_empty_fun _ _ U), (unless_empty_fun _ _ V). reflexivity.
  Qed.

  (** ** What does not fail *)

  Definition never {A} (p : parser A) (i : nat) : Prop := forall t, p i <> Not t.
  Lemma never_bind {A B} (p : parser A) (f : A -> parser B) i j a t es : Reads p i j a t es -> never (f a) j -> never (bind p f) i.
  Proof.
    intros [P _] F u. unfold bind. rewrite P. specialize (F (match f a j with Not w => w | _ => [] end)).
    destruct (f a j); congruence.
  Qed.
  Lemma never_then {A B} (p : parser A) (f : A -> parser B) i : never p i -> (forall a j, never (f a) j) -> never (bind p f) i.
  Proof.
    intros P F u. unfold bind. specialize (P (match p i with Not w => w | _ => [] end)). destruct (p i) as [a j w e|w| |]; try congruence.
    specialize (F a j (match f a j with Not w => w | _ => [] end)). destruct (f a j); congruence.
  Qed.
  Lemma never_ret {A} (a : A) i : never (ret a) i.
  Proof. intros t. discriminate. Qed.
  Lemma never_validate {A B} (f : A -> B * list report) p i : never p i -> never (validate f p) i.
  Proof.
    intros P t. unfold validate. specialize (P (match p i with Not w => w | _ => [] end)). destruct (p i) as [a j w e|w| |]; try congruence.
    destruct (f a); discriminate.
  Qed.
  Lemma never_sp {A} (p : parser A) i : never p i -> never (spn I p) i.
  Proof.
    intros P t. unfold spn, sp, map_span. specialize (P (match p i with Not w => w | _ => [] end)). destruct (p i) as [a j w e|w| |]; congruence.
  Qed.
  Lemma never_rep {A} (p : parser A) i : never (rep I p) i.
  Proof. intro t. apply many_not. Qed.
  Lemma never_metadata i : never (spn I (p_metadata E I po)) i.
  Proof. apply never_sp, never_validate, never_rep. Qed.
  Lemma never_choice_here {A} (p : parser A) ps i : never p i -> never (choice (p :: ps)) i.
  Proof.
    intros P t. destruct ps as [|q ps]; [apply P|]. cbn [choice]. unfold alt.
    specialize (P (match p i with Not w => w | _ => [] end)). destruct (p i); congruence.
  Qed.
  Lemma never_choice_there {A} (p q : parser A) ps i : fails p i -> never (choice (q :: ps)) i -> never (choice (p :: q :: ps)) i.
  Proof.
    intros P Q t. change (alt p (choice (q :: ps)) i <> Not t). unfold alt. rewrite P.
    specialize (Q (match choice (q :: ps) i with Not w => w | _ => [] end)). destruct (choice (q :: ps) i); congruence.
  Qed.

  (** ** Transactions *)

  Lemma date_lt i j a : date_at I i j a -> j = S i /\ i < n.
  Proof. intros [d T]. apply tok_lt in T. auto. Qed.
  Lemma txn_lt i j a : txn_at I i j a -> i < j <= n.
  Proof. intros [T|k f H]; [apply tok_lt in T; fold n in T; lia|apply (flag_lt I po _ _ _ H)]. Qed.
  Lemma marks_le i j marks es : star (silent (mark_at E I)) i j marks es -> i <= n -> i <= j <= n.
  Proof. apply (star_le I po). intros x y z e [H _] _. apply (mark_lt E I po) in H. fold n in H. lia. Qed.
  Lemma string_lt i j a : string_at I i j a -> i < j <= n.
  Proof. intros [s T]. apply tok_lt in T. fold n in T. lia. Qed.
  Lemma strings_le i j l es : star (silent (written I (string_at I))) i j l es -> i <= n -> i <= j <= n.
  Proof. apply (star_le I po). intros x y z e [[H _] _] _. apply string_lt in H. lia. Qed.

  Lemma p_transaction_header_reads i a b c d e date flag strings payee narration marks kept again :
    written I (date_at I) i a date -> written I (txn_at I) a b flag ->
    star (silent (written I (string_at I))) b c strings [] -> titles strings payee narration ->
    star (silent (mark_at E I)) c d marks [] -> line_end I d e -> dedup metadatum_label [] marks kept again ->
    Reads (p_transaction_header E I po) i e (date, flag, (payee, narration), (tags_in kept, links_in kept)) []
      (map (repeated metadatum_label metadatum_place) again).
  Proof.
    intros Hd Hf Hs Ht Hm L D.
    pose proof (date_lt _ _ _ (proj1 Hd)) as B1. pose proof (txn_lt _ _ _ (proj1 Hf)) as B2.
    pose proof (strings_le _ _ _ _ Hs (proj2 B2)) as B3. pose proof (marks_le _ _ _ _ Hm (proj2 B3)) as B4.
    pose proof (line_end_le _ po _ _ L (proj2 B4)) as B5. fold n in B5.
    pose proof (marks_away _ _ _ _ _ Hm L) as Ac. pose proof (line_end_away _ _ _ L) as Ad.
    unfold p_transaction_header.
    rbind; [apply (spn_reads _ _ _ _ _ _ _ Hd); apply p_date_reads|].
    rbind; [apply (spn_reads _ _ _ _ _ _ _ Hf); apply p_txn_reads|].
    destruct (strings_read _ _ _ _ _ Hs Ht) as (s1 & s2 & m & R1 & R2 & X);
      [apply (away_weaken _ _ _ _ Ac); intro t; destruct t; auto; discriminate|lia|].
    rbind; [exact R1|]. rbind; [exact R2|].
    eapply reads_bind; [exact W_app| | |symmetry; apply app_nil_r].
    - eapply p_tags_links_reads; [exact Hm|exact D| |lia]. apply (away_weaken _ _ _ _ Ad). intro t. destruct t; auto; discriminate.
    - rbind; [apply eol_reads; [exact L|fold n; lia]|]. fold (title_pair s1 s2). rewrite X. rret. fold n. lia.
  Qed.

  Lemma p_transaction_reads i a b c d e f j date flag strings payee narration marks md md' postings es1 es2 es3 es4 t1 t2 :
    written I (date_at I) i a date -> written I (txn_at I) a b flag ->
    star (silent (written I (string_at I))) b c strings [] -> titles strings payee narration ->
    star (silent (mark_at E I)) c d marks [] -> line_end I d e ->
    metadata_at E I names e f md es2 -> star (posting_at E I names) f j postings es3 -> joined E md marks md' es1 es4 ->
    p_metadatum_line E I po j = Not t1 -> p_posting E I po j = Not t2 ->
    Reads (p_transaction E I po) i j (mk_directive date md' (V_Transaction flag payee narration postings)) (t1 ++ t2)
      (es1 ++ es2 ++ es3 ++ es4).
  Proof.
    intros Hd Hf Hs Ht Hm L M P J S1 S2.
    destruct (dedup_total metadatum_label marks []) as (kept & again & D).
    destruct (joined_merged _ _ _ _ _ _ _ _ _ _ M J D) as [Mg ->].
    pose proof (p_transaction_header_reads _ _ _ _ _ _ _ _ _ _ _ _ _ _ Hd Hf Hs Ht Hm L D) as Hh.
    unfold p_transaction.
    eapply reads_validate with (a := (date, V_Transaction flag payee narration postings, (tags_in kept, links_in kept), md))
      (es := (map (repeated metadatum_label metadatum_place) again) ++ es2 ++ es3);
      [|cbn [make]; rewrite Mg; reflexivity|rewrite <- !app_assoc; reflexivity].
    eapply reads_bind; [exact W_app|exact Hh| |reflexivity].
    destruct Hh as [_ Bh]. fold n in Bh.
    pose proof (metadata_le _ _ po _ Hl _ _ _ _ M (proj2 Bh)) as Bm. fold n in Bm.
    destruct (postings_read _ _ po names U_ok Hn Hl _ _ _ _ _ _ P (proj2 Bm) S1 S2) as (t0 & t & Q & [R Rb] & X).
    destruct (p_metadata_reads _ _ po names U_ok Hn Hl _ _ _ _ _ M (proj2 Bh) Q) as [Rm _].
    split; [|lia]. unfold bind. rewrite Rm. cbv beta iota. rewrite R. unfold ret. cbn [app].
    rewrite !app_nil_r. f_equal. change (long_strings (limit_of po) I) with W. change (long_strings (limit_of po) I) with W in X. rewrite (W_app e f j) by lia. rewrite <- !app_assoc. f_equal. exact X.
  Qed.

  Lemma p_transaction_never i a b c d e date flag strings payee narration marks :
    written I (date_at I) i a date -> written I (txn_at I) a b flag ->
    star (silent (written I (string_at I))) b c strings [] -> titles strings payee narration ->
    star (silent (mark_at E I)) c d marks [] -> line_end I d e -> never (p_transaction E I po) i.
  Proof.
    intros Hd Hf Hs Ht Hm L. destruct (dedup_total metadatum_label marks []) as (kept & again & D).
    pose proof (p_transaction_header_reads _ _ _ _ _ _ _ _ _ _ _ _ _ _ Hd Hf Hs Ht Hm L D) as Hh.
    apply never_validate. eapply never_bind; [exact Hh|]. apply never_then; [apply never_metadata|]. intros x y.
    apply never_then; [apply never_rep|]. intros. apply never_ret.
  Qed.

  (** ** The other directives *)

  Lemma p_line_reads k fields i a b c d j date v marks md md' es1 es2 es3 es4 t :
    written I (date_at I) i a date -> tok I a (T_Keyword k) ->
    Reads fields (S a) b v [] es1 ->
    star (silent (mark_at E I)) b c marks [] -> line_end I c d -> metadata_at E I names d j md es3 -> joined E md marks md' es2 es4 ->
    p_metadatum_line E I po j = Not t ->
    Reads (p_line E I po k fields) i j (mk_directive date md' v) t (es1 ++ es2 ++ es3 ++ es4).
  Proof.
    intros Hd T F Hm L M J S1.
    destruct (dedup_total metadatum_label marks []) as (kept & again & D).
    destruct (joined_merged _ _ _ _ _ _ _ _ _ _ M J D) as [Mg ->].
    pose proof (proj2 F) as B3. fold n in B3. pose proof (marks_le _ _ _ _ Hm (proj2 B3)) as B4.
    pose proof (line_end_le _ po _ _ L (proj2 B4)) as B5. fold n in B5.
    pose proof (line_end_away _ _ _ L) as Ac.
    unfold p_line.
    eapply reads_validate with (a := (date, v, (tags_in kept, links_in kept), md))
      (es := es1 ++ (map (repeated metadatum_label metadatum_place) again) ++ es3);
      [|cbn [make]; rewrite Mg; reflexivity|rewrite <- !app_assoc; reflexivity].
    rbind; [apply (spn_reads _ _ _ _ _ _ _ Hd); apply p_date_reads|].
    rbind; [apply just_reads; [exact T|reflexivity]|].
    eapply reads_bind; [exact W_app|exact F| |reflexivity].
    eapply reads_bind; [exact W_app| | |reflexivity].
    - eapply p_tags_links_reads; [exact Hm|exact D| |lia]. apply (away_weaken _ _ _ _ Ac). intro u. destruct u; auto; discriminate.
    - rbind; [apply eol_reads; [exact L|fold n; lia]|].
      change (Reads (pmap (fun md => (date, v, (tags_in kept, links_in kept), md)) (spn I (p_metadata E I po))) d j
        (date, v, (tags_in kept, links_in kept), md) t es3).
      eapply reads_to; [apply (p_metadata_reads _ _ po names U_ok Hn Hl); [exact M|fold n; lia|exact S1]|reflexivity].
  Qed.

  Lemma p_line_never k fields i a b c d date v marks es1 :
    written I (date_at I) i a date -> tok I a (T_Keyword k) ->
    Reads fields (S a) b v [] es1 ->
    star (silent (mark_at E I)) b c marks [] -> line_end I c d -> never (p_line E I po k fields) i.
  Proof.
    intros Hd T F Hm L. destruct (dedup_total metadatum_label marks []) as (kept & again & D).
    pose proof (proj2 F) as B3. fold n in B3. pose proof (marks_le _ _ _ _ Hm (proj2 B3)) as B4.
    pose proof (line_end_away _ _ _ L) as Ac.
    apply never_validate.
    eapply never_bind; [apply (spn_reads _ _ _ _ _ _ _ Hd); apply p_date_reads|].
    eapply never_bind; [apply just_reads; [exact T|reflexivity]|].
    eapply never_bind; [exact F|].
    eapply never_bind; [eapply p_tags_links_reads; [exact Hm|exact D| |lia]; apply (away_weaken _ _ _ _ Ac); intro u; destruct u; auto; discriminate|].
    eapply never_bind; [apply eol_reads; [exact L|fold n; lia]|].
    apply never_then; [apply never_metadata|]. intros. apply never_ret.
  Qed.

  (** Another keyword. *)
  Lemma p_line_fails k fields i a date t : written I (date_at I) i a date -> tok I a t -> t <> T_Keyword k ->
    fails (p_line E I po k fields) i.
  Proof.
    intros Hd T N. apply fails_validate. eapply fails_bind_then with (t := []).
    - apply (spn_reads _ po _ _ _ _ _ Hd). apply p_date_reads.
    - destruct Hd as [[d Td] _]. eapply W_one; [exact Td|reflexivity].
    - reflexivity.
    - apply fails_bind, just_fails. intro X. apply N. exact (tok_fun _ _ _ _ T X).
  Qed.
  Lemma p_transaction_fails i a date t : written I (date_at I) i a date -> tok I a t ->
    match t with T_Keyword K_Txn | T_Flag _ | T_Asterisk | T_Hash => False | _ => True end ->
    fails (p_transaction E I po) i.
  Proof.
    intros Hd T N. apply fails_validate, fails_bind. eapply fails_bind_then with (t := []).
    - apply (spn_reads _ po _ _ _ _ _ Hd). apply p_date_reads.
    - destruct Hd as [[d Td] _]. eapply W_one; [exact Td|reflexivity].
    - reflexivity.
    - apply fails_bind, fails_sp. unfold p_txn. apply fails_choice. repeat constructor.
      + apply fails_pmap, just_fails. intro X. rewrite (tok_fun _ _ _ _ T X) in N. exact N.
      + apply fails_choice. repeat constructor.
        * apply sel_fails. intros u U. rewrite (tok_fun _ _ _ _ T U) in N. destruct u; auto; contradiction.
        * apply fails_pmap, just_fails. intro X. rewrite (tok_fun _ _ _ _ T X) in N. exact N.
        * apply fails_pmap, just_fails. intro X. rewrite (tok_fun _ _ _ _ T X) in N. exact N.
  Qed.

  (** ** Fields *)

  Lemma p_currency_list_reads i j l es : currencies_at I i j l es ->
    away I (fun t => match t with T_Currency _ | T_Comma => true | _ => false end) j -> i <= n ->
    Reads (p_currency_list I) i j l [] es.
  Proof.
    intros [|k first rest kept again S D] A Hi; unfold p_currency_list.
    - apply reads_to with (a := None); [|reflexivity]. apply reads_opt_none; [exact W_nil| |exact Hi].
      apply fails_validate, fails_bind, fails_sp, p_currency_fails. apply (away_weaken _ _ _ _ A). intro t. destruct t; auto; discriminate.
    - apply reads_to with (a := Some kept); [|reflexivity]. apply reads_opt_some.
      destruct (separated_reads I po (spn I (p_currency I)) (written I (currency_at I)) (fun _ => false)) with (4 := S)
        as (x & l' & X & m & P & Q).
      + intros x y z Z _. apply (spn_reads _ _ _ _ _ _ _ Z). apply p_currency_reads.
      + reflexivity.
      + intro lo. apply spn_steps, p_currency_steps.
      + intros t _. reflexivity.
      + intro T. apply A in T. discriminate.
      + injection X as <- <-.
        eapply reads_validate with (a := (first, rest)) (es := []).
        * rbind; [exact P|]. rbind; [exact Q|]. rret. apply Q.
        * rewrite (insert_once_fold DuplicateCurrency ltac:(congruence) _ [] [] [] kept again D) by (cbn; tauto). reflexivity.
        * reflexivity.
  Qed.

  Definition fields_of (k : keyword) : parser variant :=
    match k with
    | K_Price => c <- spn I (p_currency I) ;; a <- spn I (p_amount E I) ;; ret (V_Price c a)
    | K_Balance => a <- spn I (p_account E I po) ;; t <- spn I (p_amount_with_tolerance E I) ;; ret (V_Balance a t)
    | K_Open => a <- spn I (p_account E I po) ;; cs <- p_currency_list I ;; b <- opt (spn I (p_booking I po)) ;; ret (V_Open a cs b)
    | K_Close => pmap V_Close (spn I (p_account E I po))
    | K_Commodity => pmap V_Commodity (spn I (p_currency I))
    | K_Pad => a <- spn I (p_account E I po) ;; s <- spn I (p_account E I po) ;; ret (V_Pad a s)
    | K_Document => a <- spn I (p_account E I po) ;; s <- spn I (p_string I po) ;; ret (V_Document a s)
    | K_Note => a <- spn I (p_account E I po) ;; s <- spn I (p_string I po) ;; ret (V_Note a s)
    | K_Event => a <- spn I (p_string I po) ;; s <- spn I (p_string I po) ;; ret (V_Event a s)
    | K_Query => a <- spn I (p_string I po) ;; s <- spn I (p_string I po) ;; ret (V_Query a s)
    | _ => fun _ => Not []
    end.

  Lemma booking_lt i j a : booking_at I i j a -> i < j <= n.
  Proof. intros [b T]. apply tok_lt in T. fold n in T. lia. Qed.
  Lemma amount_tol_lt i j a : amount_tol_at E I i j a -> i < j <= n.
  Proof.
    intros [x [H _]|x t c m q [V _] T [D _] [C _]]; [apply (amount_lt E I po _ _ _ H)|].
    apply value_lt in V. apply (currency_lt' I po) in C. inversion D; subst. unfold n in *. lia.
  Qed.

  Lemma fields_read i k j v es : fields_at E I names i k j v es -> away I header_end j -> i <= n -> Reads (fields_of k) i j v [] es.
  Proof.
    intros H A Hi.
    assert (Ac : forall i j x, written I (account_at E I names) i j x -> Reads (spn I (p_account E I po)) i j x [] []).
    { intros x y z Z. apply (spn_reads _ _ _ _ _ _ _ Z). apply p_account_reads; assumption. }
    assert (Cu : forall i j x, written I (currency_at I) i j x -> Reads (spn I (p_currency I)) i j x [] []).
    { intros x y z Z. apply (spn_reads _ _ _ _ _ _ _ Z). apply p_currency_reads; assumption. }
    assert (St : forall i j x, written I (string_at I) i j x -> Reads (spn I (p_string I po)) i j x [] []).
    { intros x y z Z. apply (spn_reads _ _ _ _ _ _ _ Z). apply p_string_reads; assumption. }
    destruct H as [m q c a Hc Ha|m q a t Ha Ht|m q l a cs b es Ha Hc Hb|m a Ha|m c Hc|m q a s Ha Hs|m q a s Ha Hs|m q a s Ha Hs|m q a s Ha Hs|m q a s Ha Hs];
      cbn [fields_of].
    - rbind; [apply Cu; exact Hc|]. rbind; [apply (spn_reads _ _ _ _ _ _ _ Ha); apply p_amount_reads|]. rret.
      pose proof (amount_lt _ _ po _ _ _ (proj1 Ha)). unfold n in *. lia.
    - rbind; [apply Ac; exact Ha|]. rbind; [apply (spn_reads _ _ _ _ _ _ _ Ht); apply p_amount_with_tolerance_reads|]. rret.
      pose proof (amount_tol_lt _ _ _ (proj1 Ht)). unfold n in *. lia.
    - rbind; [apply Ac; exact Ha|].
      pose proof (account_lt _ _ po _ Hl _ _ _ (proj1 Ha)) as B1. fold n in B1.
      assert (Aq : away I (fun t => match t with T_String _ | T_Tag _ | T_Link _ | T_Eol => false | _ => true end) q).
      { destruct Hb as [|y x [Hb _]].
        - apply (away_weaken _ _ _ _ A). intro t. destruct t; auto.
        - inversion Hb as [b' T]. apply (away_tok _ _ _ _ T). reflexivity. }
      pose proof (p_currency_list_reads _ _ _ _ Hc) as Rc.
      assert (Rc' : Reads (p_currency_list I) m q cs [] es).
      { apply Rc; [|lia]. apply (away_weaken _ _ _ _ Aq). intro t. destruct t; auto; discriminate. }
      eapply reads_bind; [exact W_app|exact Rc'| |symmetry; apply app_nil_r].
      pose proof (proj2 Rc') as B2. fold n in B2.
      assert (B3 : q <= l <= n) by (destruct Hb as [|y x [Hb _]]; [lia|]; apply booking_lt in Hb; lia).
      rbind.
      + eapply maybe_reads; [exact Hb| | |fold n; lia].
        * intros x X. apply (spn_reads _ _ _ _ _ _ _ X). apply p_booking_reads.
        * intros <-. apply fails_sp, fails_try_map, p_string_fails. apply (away_weaken _ _ _ _ A). intro t. destruct t; auto; discriminate.
      + rret. fold n. lia.
    - eapply reads_to; [apply Ac; exact Ha|reflexivity].
    - eapply reads_to; [apply Cu; exact Hc|reflexivity].
    - rbind; [apply Ac; exact Ha|]. rbind; [apply Ac; exact Hs|]. rret. apply (Ac _ _ _ Hs).
    - rbind; [apply Ac; exact Ha|]. rbind; [apply St; exact Hs|]. rret. apply (St _ _ _ Hs).
    - rbind; [apply Ac; exact Ha|]. rbind; [apply St; exact Hs|]. rret. apply (St _ _ _ Hs).
    - rbind; [apply St; exact Ha|]. rbind; [apply St; exact Hs|]. rret. apply (St _ _ _ Hs).
    - rbind; [apply St; exact Ha|]. rbind; [apply St; exact Hs|]. rret. apply (St _ _ _ Hs).
  Qed.

  (** ** Custom directives *)

  Context (Hc : forall i s, tok I i (T_Currency s) -> Forall ascii s)
          (He : forall i j e, may_start I i -> longest (sum I) i j e -> exists v, worth (g_ops E) v /\ ev_expr v = e).

  Lemma p_meta_value_reads_longest i j a : good I i ->
    longest (written I (meta_value_at E I names)) i j a -> Reads (spn I (p_meta_value E I po)) i j a [] [].
  Proof.
    intros G [M Lg]. pose proof (meta_value_lt _ _ po _ Hl _ _ _ (proj1 M)) as B. fold n in B.
    apply (spn_reads _ _ _ _ _ _ _ M). intro M'. apply p_meta_value_reads with (names := names); try assumption.
    intros v X.
    assert (V : value_at E I i j v).
    { rewrite X in M'. inversion M' as [|? S]; subst. inversion S; subst. assumption. }
    assert (P : Reads (p_expr_value E I) i j v [] []).
    { destruct V as [S Wo]. apply reads_pmap_out with (a := ev_expr v); [|apply expr_value_worth; auto].
      split; [|lia]. unfold W. rewrite (proj1 (W_expr I po) _ _ _ S). apply p_expr_iff. split; [exact S|].
      intros k e Sk. destruct (p_expr_far _ _ _ _ Sk) as (e' & k' & X' & Bk). apply Nat.le_trans with k'; [apply Bk|].
      apply p_expr_longest in X'. destruct G as [G|G]; [|exfalso; exact (G _ _ Sk)].
      destruct (He _ _ _ G X') as (v' & Wv & Ev).
      apply (Lg k' (mk_spanned (MV_Simple (SV_Expr v')) (text I i k'))). split; [|reflexivity].
      cbn [item]. constructor. constructor. split; [rewrite Ev; apply X'|exact Wv]. }
    split; [exact P|]. unfold p_amount.
    eapply fails_bind_then with (t := []) (es := []) (j := j) (a := mk_spanned v (text I i j)) (W := W).
    - apply reads_sp; [exact P|reflexivity].
    - apply (proj1 (W_expr I po) _ _ _ (proj1 V)).
    - reflexivity.
    - apply fails_bind, fails_sp.
      destruct (p_currency I j) as [c k w e|w| |] eqn:C.
      + exfalso. apply p_currency_sounds in C. destruct C as [C _].
        assert (k <= j); [|inversion C; lia].
        apply (Lg k (mk_spanned (MV_Amount (mk_amount (mk_spanned v (text I i j)) (mk_spanned c (text I j k)))) (text I i k))).
        split; [|reflexivity]. cbn [item]. constructor. exists j; (split; [assumption|reflexivity]).
      + unfold fails. rewrite C. f_equal. unfold p_currency, try_map in C.
        destruct (sel I _ j) as [s k w' e'|w'| |] eqn:X'; try discriminate.
        * unfold sel, select in X'. destruct (nth_error toks j) as [[t r]|]; [|discriminate]. destruct t; try discriminate.
          injection X' as <- <- <- <-. destruct (currency_try_from _) as [[|]|]; try discriminate. injection C as <-. reflexivity.
        * unfold sel, select in X'. destruct (nth_error toks j) as [[t r]|]; [|injection X' as <-; injection C as <-; reflexivity].
          destruct t; try discriminate; injection X' as <-; injection C as <-; reflexivity.
      + exfalso. eapply p_currency_quiet; eassumption.
      + exfalso. pose proof (p_currency_steps I 0 j (Nat.le_0_l j) (proj2 B)) as X'. rewrite C in X'. exact X'.
  Qed.

  Lemma values_good b c values : star (silent (longest (written I (meta_value_at E I names)))) b c values [] -> good I b ->
    star (silent (fun i j a => good I i /\ longest (written I (meta_value_at E I names)) i j a)) b c values [].
  Proof.
    enough (K : forall b c values es, star (silent (longest (written I (meta_value_at E I names)))) b c values es -> es = [] -> good I b ->
      star (silent (fun i j a => good I i /\ longest (written I (meta_value_at E I names)) i j a)) b c values []) by eauto.
    clear b c values. intros b c values es H. induction H as [i|i j k x l es es' [H He'] _ IH]; intros Z G; [constructor|].
    apply app_eq_nil in Z. destruct Z as [-> ->].
    change (@nil report) with (@nil report ++ []). eapply star_cons.
    - split; [split; [exact G|exact H]|reflexivity].
    - apply IH; [reflexivity|]. destruct (p_meta_value_reads_longest _ _ _ G H) as [Rd _].
      eapply (ends_spn I); [apply ends_meta_value|exact Rd]; assumption.
  Qed.
  Lemma good_after_string b c s : written I (string_at I) b c s -> good I c.
  Proof.
    intros [[s' T] _]. eapply good_after; [exact T|]. split.
    - intro X. cbn in X. repeat (destruct X as [X|X]; [discriminate|]). exact X.
    - intros [X|[d X]]; discriminate.
  Qed.

  Lemma custom_head_reads i a b c d date type_ values (f : spanned Types.date -> spanned (list N) -> list (spanned meta_value) -> parser directive) j r t es :
    written I (date_at I) i a date -> tok I a (T_Keyword K_Custom) -> written I (string_at I) (S a) b type_ ->
    star (silent (longest (written I (meta_value_at E I names)))) b c values [] -> line_end I c d ->
    (d <= n -> Reads (f date type_ values) d j r t es) ->
    Reads (date <- spn I (p_date I) ;; keyword_ I K_Custom ;; type_ <- spn I (p_string I po) ;; values <- rep I (spn I (p_meta_value E I po)) ;;
      eol I ;; f date type_ values) i j r t es.
  Proof.
    intros Hd T Ht Hv L F.
    pose proof (string_lt _ _ _ (proj1 Ht)) as B1.
    assert (B2 : b <= c <= n).
    { apply (star_le I po _ _ _ _ _) in Hv; [exact Hv| |apply B1]. intros x y z e [[[M _] _] _] _. apply (meta_value_lt _ _ po _ Hl) in M. unfold n in *. lia. }
    pose proof (line_end_le _ po _ _ L (proj2 B2)) as B5. fold n in B5.
    rbind; [apply (spn_reads _ _ _ _ _ _ _ Hd); apply p_date_reads|].
    rbind; [apply just_reads; [exact T|reflexivity]|].
    rbind; [apply (spn_reads _ _ _ _ _ _ _ Ht); apply p_string_reads|].
    rbind.
    - apply (reads_many _ _ W_nil W_app 0) with (t := []); [apply spn_steps, p_meta_value_steps|lia|apply B1| |].
      + eapply silent_reads; [|exact (values_good _ _ _ Hv (good_after_string _ _ _ Ht))]. intros x y z [Gx Lx]. apply p_meta_value_reads_longest; assumption.
      + apply fails_sp, p_meta_value_fails; [|apply B2]. apply (away_weaken _ _ _ _ (line_end_away _ _ _ L)). intro u. destruct u; auto; discriminate.
    - rbind; [apply eol_reads; [exact L|apply B2]|]. apply F. apply B5.
  Qed.

  Lemma p_custom_reads i a b c d j date type_ values md es t :
    written I (date_at I) i a date -> tok I a (T_Keyword K_Custom) -> written I (string_at I) (S a) b type_ ->
    star (silent (longest (written I (meta_value_at E I names)))) b c values [] -> line_end I c d ->
    metadata_at E I names d j md es -> p_metadatum_line E I po j = Not t ->
    Reads (p_custom E I po) i j (mk_directive date md (V_Custom type_ values)) t es.
  Proof.
    intros Hd T Ht Hv L M S1.
    apply (custom_head_reads i a b c d date type_ values
      (fun date type_ values => md <- spn I (p_metadata E I po) ;; ret (mk_directive date md (V_Custom type_ values)))); try assumption.
    intro Bd.
    change (Reads (pmap (fun md => mk_directive date md (V_Custom type_ values)) (spn I (p_metadata E I po))) d j
      (mk_directive date md (V_Custom type_ values)) t es).
    eapply reads_to; [apply (p_metadata_reads _ _ po names U_ok Hn Hl); [exact M|exact Bd|exact S1]|reflexivity].
  Qed.

  Lemma p_custom_never i a b c d date type_ values :
    written I (date_at I) i a date -> tok I a (T_Keyword K_Custom) -> written I (string_at I) (S a) b type_ ->
    star (silent (longest (written I (meta_value_at E I names)))) b c values [] -> line_end I c d -> never (p_custom E I po) i.
  Proof.
    intros Hd T Ht Hv L.
    pose proof (string_lt _ _ _ (proj1 Ht)) as B1.
    assert (B2 : b <= c <= n).
    { apply (star_le I po _ _ _ _ _) in Hv; [exact Hv| |apply B1]. intros x y z e [[[M _] _] _] _. apply (meta_value_lt _ _ po _ Hl) in M. unfold n in *. lia. }
    eapply never_bind; [apply (spn_reads _ _ _ _ _ _ _ Hd); apply p_date_reads|].
    eapply never_bind; [apply just_reads; [exact T|reflexivity]|].
    eapply never_bind; [apply (spn_reads _ _ _ _ _ _ _ Ht); apply p_string_reads|].
    eapply never_bind.
    - apply (reads_many _ _ W_nil W_app 0) with (t := []); [apply spn_steps, p_meta_value_steps|lia|apply B1| |].
      + eapply silent_reads; [|exact (values_good _ _ _ Hv (good_after_string _ _ _ Ht))]. intros x y z [Gx Lx]. apply p_meta_value_reads_longest; assumption.
      + apply fails_sp, p_meta_value_fails; [|apply B2]. apply (away_weaken _ _ _ _ (line_end_away _ _ _ L)). intro u. destruct u; auto; discriminate.
    - eapply never_bind; [apply eol_reads; [exact L|apply B2]|]. apply never_then; [apply never_metadata|]. intros. apply never_ret.
  Qed.
  Lemma p_custom_fails i a date t : written I (date_at I) i a date -> tok I a t -> t <> T_Keyword K_Custom -> fails (p_custom E I po) i.
  Proof.
    intros Hd T N. eapply fails_bind_then with (t := []).
    - apply (spn_reads _ po _ _ _ _ _ Hd). apply p_date_reads.
    - destruct Hd as [[d Td] _]. eapply W_one; [exact Td|reflexivity].
    - reflexivity.
    - apply fails_bind, just_fails. intro X. apply N. exact (tok_fun _ _ _ _ T X).
  Qed.

  (** ** All directives *)

  (** Nothing at [j] goes on with the directive; [t] are the warnings of the attempt. *)
  Definition stops (v : variant) (j : nat) (t : list report) : Prop :=
    match v with
    | V_Transaction _ _ _ _ => exists t1 t2, p_metadatum_line E I po j = Not t1 /\ p_posting E I po j = Not t2 /\ t = t1 ++ t2
    | _ => p_metadatum_line E I po j = Not t
    end.

  Ltac skips Hd T := repeat (apply reads_choice_there; [apply (p_line_fails _ _ _ _ _ _ Hd T); discriminate|]).
  Lemma p_directive_reads i j d es t : directive_at E I names i j d es -> stops (dir_variant d) j t ->
    Reads (p_directive E I po) i j d t es.
  Proof.
    intros H St. unfold p_directive.
    destruct H as [a b c d0 e f j date flag strings payee narration marks md md' postings es1 es2 es3 es4 Hd Hf Hs Ht Hm L M P J
      |a b c d0 j k date v marks md md' es1 es2 es3 es4 Hd T F Hm L M J
      |a b c d0 j date type_ values md es Hd T Ht Hv L M]; cbn [dir_variant] in St.
    - destruct St as (t1 & t2 & S1 & S2 & ->). apply reads_choice_here. eapply p_transaction_reads; eassumption.
    - pose proof (date_lt _ _ _ (proj1 Hd)) as B1. pose proof (tok_lt _ _ _ T) as B2.
      assert (St' : p_metadatum_line E I po j = Not t) by (destruct F; exact St). clear St.
      assert (Rd : Reads (p_line E I po k (fields_of k)) i j (mk_directive date md' v) t (es1 ++ es2 ++ es3 ++ es4)).
      { eapply p_line_reads; try eassumption. apply fields_read; [exact F|eapply marks_away; eassumption|exact B2]. }
      apply reads_choice_there; [apply (p_transaction_fails _ _ _ _ Hd T); destruct F; exact Logic.I|].
      apply reads_choice_here.
      destruct F; cbn [fields_of] in Rd;
        repeat first [apply reads_choice_here; exact Rd|apply reads_choice_there; [apply (p_line_fails _ _ _ _ _ _ Hd T); discriminate|]].
    - apply reads_choice_there; [apply (p_transaction_fails _ _ _ _ Hd T); exact Logic.I|]. apply reads_choice_here.
      repeat (apply reads_choice_there; [apply (p_line_fails _ _ _ _ _ _ Hd T); discriminate|]). apply reads_choice_here.
      eapply p_custom_reads; eassumption.
  Qed.

  Lemma p_directive_never i j d es : directive_at E I names i j d es -> never (p_directive E I po) i.
  Proof.
    intros H. unfold p_directive.
    destruct H as [a b c d0 e f j date flag strings payee narration marks md md' postings es1 es2 es3 es4 Hd Hf Hs Ht Hm L M P J
      |a b c d0 j k date v marks md md' es1 es2 es3 es4 Hd T F Hm L M J
      |a b c d0 j date type_ values md es Hd T Ht Hv L M].
    - apply never_choice_here. eapply p_transaction_never; eassumption.
    - pose proof (tok_lt _ _ _ T) as B2.
      assert (Rd : never (p_line E I po k (fields_of k)) i).
      { eapply p_line_never; try eassumption. apply fields_read; [exact F|eapply marks_away; eassumption|exact B2]. }
      apply never_choice_there; [apply (p_transaction_fails _ _ _ _ Hd T); destruct F; exact Logic.I|].
      apply never_choice_here.
      destruct F; cbn [fields_of] in Rd;
        repeat first [apply never_choice_here; exact Rd|apply never_choice_there; [apply (p_line_fails _ _ _ _ _ _ Hd T); discriminate|]].
    - apply never_choice_there; [apply (p_transaction_fails _ _ _ _ Hd T); exact Logic.I|]. apply never_choice_here.
      repeat (apply never_choice_there; [apply (p_line_fails _ _ _ _ _ _ Hd T); discriminate|]). apply never_choice_here.
      eapply p_custom_never; eassumption.
  Qed.

  (** ** Where nothing starts *)

  Lemma no_metadata_line j : j <= n -> (forall k m, ~ metadata_line E I names j k m) -> exists t, p_metadatum_line E I po j = Not t.
  Proof.
    intros Hj N. pose proof (p_metadatum_line_steps E I po 0 j (Nat.le_0_l j) Hj) as S.
    pose proof (p_metadatum_line_quiet E I po Hc He j) as Q. destruct (p_metadatum_line E I po j) as [a k w e|t| |] eqn:X; try contradiction; eauto.
    exfalso. apply p_metadatum_line_sounds with (names := names) in X; auto. destruct X as [X _]. exact (N _ _ X).
  Qed.
  Lemma metadata_line_not j t : p_metadatum_line E I po j = Not t -> forall k m, ~ metadata_line E I names j k m.
  Proof. intros N k m H. apply (p_metadatum_line_reads E I po names U_ok Hn Hl) in H. destruct H as [H _]. congruence. Qed.
  Lemma no_posting j : j <= n -> (forall k a es, ~ posting_at E I names j k a es) -> exists t, p_posting E I po j = Not t.
  Proof.
    intros Hj N. pose proof (p_posting_steps E I po 0 j (Nat.le_0_l j) Hj) as S.
    pose proof (p_posting_quiet E I po Hc He j) as Q. destruct (p_posting E I po j) as [a k w e|t| |] eqn:X; try contradiction; eauto.
    exfalso. apply p_posting_sounds with (names := names) in X; auto. exact (N _ _ _ X).
  Qed.

  Lemma metadata_stops i a j ws es : spn I (p_metadata E I po) i = Got a j ws es -> exists t, p_metadatum_line E I po j = Not t.
  Proof.
    intro H. apply spn_got in H. destruct H as [H _]. apply validate_got in H. destruct H as (x & e1 & e2 & H & _).
    apply many_n_got in H. apply H.
  Qed.
  Lemma metadata_extends i : i <= n -> exists j md es t, metadata_at E I names i j md es /\ p_metadatum_line E I po j = Not t.
  Proof.
    intro Hi. pose proof (spn_safe I 0 _ (p_metadata_safe E I po 0) i (Nat.le_0_l i) Hi) as S.
    pose proof (spn_quiet I _ (p_metadata_quiet E I po Hc He) i) as Q.
    pose proof (never_metadata i) as N.
    destruct (spn I (p_metadata E I po) i) as [a j w e|t| |] eqn:X; try contradiction; [|exfalso; eapply N; exact X].
    destruct (metadata_stops _ _ _ _ _ X) as [t T]. exists j, a, e, t. split; [|exact T].
    eapply p_metadata_sounds; eassumption.
  Qed.
  Lemma posting_not j t : p_posting E I po j = Not t -> forall k a es, ~ posting_at E I names j k a es.
  Proof.
    intros N k x es H.
    destruct H as [a1 b c d e f g k flag account amount currency cost price md es' T F A Am Cu Co Pr L M].
    assert (Hf : f <= n).
    { pose proof (account_lt _ _ po _ Hl _ _ _ (proj1 A)) as B2. fold n in B2.
      assert (B3 : b <= c <= n) by (destruct Am as [|x y [X _]]; [lia|]; apply value_lt in X; unfold n in *; lia).
      assert (B4 : c <= d <= n) by (destruct Cu as [|x y [X _]]; [lia|]; apply (currency_lt' I po) in X; unfold n in *; lia).
      assert (B5 : d <= e <= n) by (destruct Co as [|x y [X _]]; [lia|]; apply (cost_lt E I po) in X; unfold n in *; lia).
      destruct Pr as [|x y [X _]]; [lia|]; apply (price_lt E I po) in X; unfold n in *; lia. }
    pose proof (line_end_le _ po _ _ L Hf) as B. fold n in B.
    destruct (metadata_extends g (proj2 B)) as (k' & md2 & es2 & t2 & M2 & N2).
    assert (P : posting_at E I names j k' (mk_spanned (mk_posting flag account amount currency cost price md2) (text I (S j) f)) es2)
      by (econstructor; eassumption).
    apply (p_posting_reads E I po names U_ok Hn Hl) with (t := t2) in P; [|exact N2]. destruct P as [P _]. congruence.
  Qed.

  Lemma p_posting_stops i a j ws es : p_posting E I po i = Got a j ws es -> exists t, p_metadatum_line E I po j = Not t.
  Proof.
    intro H. unfold p_posting in H. repeat (apply bind_got in H; destruct H as (? & ? & ? & ? & ? & ? & ? & H & ? & ?)).
    unfold ret in H. injection H as <- <- <- <-. eapply metadata_stops. eassumption.
  Qed.
  Lemma star_end {A} (R : nat -> nat -> A -> list report -> Prop) (Q : nat -> Prop) :
    (forall i j a es, R i j a es -> Q j) -> forall i j l es, star R i j l es -> Q i -> Q j.
  Proof. intros P i j l es H. induction H as [i|i j k a l es es' H _ IH]; intro X; auto. apply IH. eapply P. exact H. Qed.

  Lemma p_transaction_stops i d j ws es : p_transaction E I po i = Got d j ws es -> exists t, stops (dir_variant d) j t.
  Proof.
    intro H. unfold p_transaction in H. apply validate_got in H. destruct H as (x & e1 & e2 & H & F & _).
    apply bind_got in H. destruct H as (h & ? & ? & ? & ? & ? & Hh & H & ? & ?).
    apply bind_got in H. destruct H as (md & m & ? & ? & ? & ? & Hm & H & ? & ?).
    apply bind_got in H. destruct H as (ps & m' & ? & ? & ? & ? & Hp & H & ? & ?).
    unfold ret in H. injection H as <- <- <- <-.
    destruct h as [[[date flag] [payee narration]] tl]. cbn [make] in F. destruct (merged E md tl) as [md' es'].
    injection F as <- <-. cbn [dir_variant stops].
    apply many_n_got in Hp. destruct Hp as [Hp [t2 T2]].
    assert (Q : exists t, p_metadatum_line E I po m' = Not t).
    { eapply (star_end _ (fun k => exists t, p_metadatum_line E I po k = Not t)); [|exact Hp|eapply metadata_stops; exact Hm].
      intros x y z e [w Z]. eapply p_posting_stops. exact Z. }
    destruct Q as [t1 T1]. eauto 6.
  Qed.
  Lemma p_line_stops k fields i d j ws es : (forall i v j ws es, fields i = Got v j ws es -> match v with V_Transaction _ _ _ _ => False | _ => True end) ->
    p_line E I po k fields i = Got d j ws es -> exists t, stops (dir_variant d) j t.
  Proof.
    intros Nt H. unfold p_line in H. apply validate_got in H. destruct H as (x & e1 & e2 & H & F & _).
    apply bind_got in H. destruct H as (date & ? & ? & ? & ? & ? & _ & H & _ & _).
    apply bind_got in H. destruct H as (kw & ? & ? & ? & ? & ? & _ & H & _ & _).
    apply bind_got in H. destruct H as (v & ? & ? & ? & ? & ? & Hv & H & _ & _).
    apply bind_got in H. destruct H as (tl & ? & ? & ? & ? & ? & _ & H & _ & _).
    apply bind_got in H. destruct H as (u & ? & ? & ? & ? & ? & _ & H & _ & _).
    apply bind_got in H. destruct H as (md & ? & ? & ? & ? & ? & Hm & H & _ & _).
    unfold ret in H. injection H as <- <- <- <-. cbn [make] in F. destruct (merged E md tl) as [md' es'].
    injection F as <- <-. cbn [dir_variant]. apply metadata_stops in Hm. apply Nt in Hv.
    destruct v; try contradiction; exact Hm.
  Qed.
  Lemma p_custom_stops i d j ws es : p_custom E I po i = Got d j ws es -> exists t, stops (dir_variant d) j t.
  Proof.
    intros H. unfold p_custom in H.
    apply bind_got in H. destruct H as (date & ? & ? & ? & ? & ? & _ & H & _ & _).
    apply bind_got in H. destruct H as (kw & ? & ? & ? & ? & ? & _ & H & _ & _).
    apply bind_got in H. destruct H as (v & ? & ? & ? & ? & ? & Hv & H & _ & _).
    apply bind_got in H. destruct H as (tl & ? & ? & ? & ? & ? & _ & H & _ & _).
    apply bind_got in H. destruct H as (u & ? & ? & ? & ? & ? & _ & H & _ & _).
    apply bind_got in H. destruct H as (md & ? & ? & ? & ? & ? & Hm & H & _ & _).
    unfold ret in H. injection H as <- <- <- <-. cbn [dir_variant]. apply metadata_stops in Hm. exact Hm.
  Qed.
  Lemma p_directive_stops i d j ws es : p_directive E I po i = Got d j ws es -> exists t, stops (dir_variant d) j t.
  Proof.
    intro H. unfold p_directive in H. apply choice_got in H. destruct H as (p & w & [<-|[<-|[]]] & H).
    - eapply p_transaction_stops. exact H.
    - apply choice_got in H. destruct H as (p & w' & Hp & H). cbn [In] in Hp.
      repeat (destruct Hp as [<-|Hp]); try contradiction;
        [(eapply p_line_stops; [|exact H]); clear; intros i v j ws es H; repeat (apply bind_got in H; destruct H as (? & ? & ? & ? & ? & ? & ? & H & ? & ?)); unfold ret in H; injection H as <- <- <- <-; exact Logic.I..|].
      eapply p_custom_stops. exact H.
  Qed.

  (** ** The two directions together *)

  (** No more of it follows. *)
  Definition complete_at (v : variant) (j : nat) : Prop :=
    (forall k m, ~ metadata_line E I names j k m) /\
    match v with V_Transaction _ _ _ _ => forall k a es, ~ posting_at E I names j k a es | _ => True end.
  Lemma stops_complete v j : j <= n -> (exists t, stops v j t) <-> complete_at v j.
  Proof.
    intro Hj. split.
    - intros [t S]. destruct v; cbn [stops] in S; try (split; [eapply metadata_line_not; exact S|exact Logic.I]).
      destruct S as (t1 & t2 & S1 & S2 & _). split; [eapply metadata_line_not; exact S1|eapply posting_not; exact S2].
    - intros [M P]. destruct (no_metadata_line j Hj M) as [t1 T1]. destruct v; try (exists t1; exact T1).
      destruct (no_posting j Hj P) as [t2 T2]. exists (t1 ++ t2). cbn. eauto 6.
  Qed.

  Lemma separated_lt' {A} (R : nat -> nat -> A -> Prop) i j l : (forall i j a, R i j a -> i < j <= n) -> separated I R i j l -> i < j <= n.
  Proof. intros P H. induction H as [i j x H|i j k x l H T _ IH]; apply P in H; lia. Qed.
  Lemma fields_lt i k j v es : fields_at E I names i k j v es -> i < j <= n.
  Proof.
    assert (Ac : forall i j x, account_at E I names i j x -> i < j <= n).
    { intros x y z Z. apply (account_lt E I po names Hl) in Z. exact Z. }
    assert (Cu : forall i j x, currency_at I i j x -> i < j <= n).
    { intros x y z Z. apply (currency_lt' I po) in Z. exact Z. }
    intros [m q c a [Hx _] [Ha _]|m q a t [Ha _] [Ht _]|m q l a cs b e [Ha _] Hx Hb|m a [Ha _]|m c [Hx _]|m q a s [Ha _] [Hs _]|m q a s [Ha _] [Hs _]
      |m q a s [Ha _] [Hs _]|m q a s [Ha _] [Hs _]|m q a s [Ha _] [Hs _]];
      try (apply Ac in Ha); try (apply Ac in Hs); try (apply string_lt in Ha); try (apply string_lt in Hs); try lia.
    - apply Cu in Hx. apply (amount_lt E I po) in Ha. unfold n in *. lia.
    - apply amount_tol_lt in Ht. lia.
    - assert (m <= q <= n).
      { destruct Hx as [|kk first rest kept again Sp D]; [lia|]. apply separated_lt' in Sp; [lia|]. intros x y z [Z _]. exact (Cu _ _ _ Z). }
      destruct Hb as [|y x [Hb _]]; [lia|]. apply booking_lt in Hb. lia.
    - exact (Cu _ _ _ Hx).
  Qed.
  Lemma directive_lt i j d es : directive_at E I names i j d es -> i < j <= n.
  Proof.
    intros [a b c d0 e f k date flag strings payee narration marks md md' postings es1 es2 es3 es4 Hd Hf Hs Ht Hm L M P J
      |a b c d0 k kw date v marks md md' es1 es2 es3 es4 Hd T F Hm L M J
      |a b c d0 k date type_ values md es0 Hd T Ht Hv L M]; pose proof (date_lt _ _ _ (proj1 Hd)) as [-> Bi].
    - pose proof (txn_lt _ _ _ (proj1 Hf)) as B2.
      pose proof (strings_le _ _ _ _ Hs (proj2 B2)) as B3. pose proof (marks_le _ _ _ _ Hm (proj2 B3)) as B4.
      pose proof (line_end_le _ po _ _ L (proj2 B4)) as B5. pose proof (metadata_le _ _ po _ Hl _ _ _ _ M (proj2 B5)) as B6.
      apply (star_le I po) in P; [unfold n in *; lia| |apply B6]. intros x y z e0 Z _. apply (posting_lt E I po names Hl) in Z. lia.
    - pose proof (fields_lt _ _ _ _ _ F) as B3. pose proof (marks_le _ _ _ _ Hm (proj2 B3)) as B4.
      pose proof (line_end_le _ po _ _ L (proj2 B4)) as B5. pose proof (metadata_le _ _ po _ Hl _ _ _ _ M (proj2 B5)) as B6.
      unfold n in *. lia.
    - pose proof (string_lt _ _ _ (proj1 Ht)) as B1.
      assert (B2 : b <= c <= n).
      { apply (star_le I po _ _ _ _ _) in Hv; [exact Hv| |apply B1]. intros x y z e [[[Mv _] _] _] _. apply (meta_value_lt _ _ po _ Hl) in Mv. unfold n in *. lia. }
      pose proof (line_end_le _ po _ _ L (proj2 B2)) as B5. pose proof (metadata_le _ _ po _ Hl _ _ _ _ M (proj2 B5)) as B6.
      unfold n in *. lia.
  Qed.

  Theorem p_directive_iff i j d es : i <= n ->
    (exists ws, p_directive E I po i = Got d j ws es) <-> directive_at E I names i j d es /\ complete_at (dir_variant d) j.
  Proof.
    intro Hi. split.
    - intros [ws H]. pose proof (p_directive_sounds E I po names U_ok Hn Hl order_ok _ _ _ _ _ H) as D. split; [exact D|].
      apply stops_complete; [|eapply p_directive_stops; exact H].
      pose proof (p_directive_steps E I po 0 i (Nat.le_0_l i) Hi) as S. rewrite H in S. apply S.
    - intros [D C].
      pose proof (directive_lt _ _ _ _ D) as Hj.
      apply stops_complete in C; [|lia]. destruct C as [t C]. eexists. eapply (p_directive_reads _ _ _ _ _ D C).
  Qed.
End Directives.
