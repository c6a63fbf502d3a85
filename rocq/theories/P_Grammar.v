(** * C21, C22, C23, C25, C36, C37: directives *)
From Coq Require Import String Ascii.
From Coq Require Import List NArith ZArith Arith Bool Lia Permutation.
From Verif Require Import Base BaseFacts Types SpecTypes TypesFacts P_Types Options Decimal SpecDecimal P_Expr Cost SpecCost P_Cost
  Token Peg Grammar SpecGrammar PegFacts ExprFacts DedupFacts GrammarSound GrammarSafe GrammarComplete GrammarDirectives
  SpecDirective DirectiveFacts.
Import ListNotations.
Local Open Scope nat_scope.

Section Directives.
  Context (E : grammar_env) (I : input) (po : parser_options) (names : account_type -> list N) (WS : well_set E po names).
  Notation n := (List.length (in_tokens I)).

  (** ** C36 *)

  (** What is returned is what is written, in any case. *)
  Theorem C36_sound : forall i j d ws es,
    p_directive E I po i = Got d j ws es -> directive_at E I names i j d es /\ (i <= n -> i < j <= n).
  Proof.
    destruct WS as [U Nm Nl O]. intros i j d ws es H. split; [eapply p_directive_sounds; eassumption|]. intro Hi.
    pose proof (p_directive_steps E I po 0 i (Nat.le_0_l i) Hi) as S. rewrite H in S. exact S.
  Qed.

  Theorem C36_terminates : forall i, i <= n -> p_directive E I po i <> Loop.
  Proof.
    intros i Hi H. pose proof (p_directive_steps E I po 0 i (Nat.le_0_l i) Hi) as S. rewrite H in S. exact S.
  Qed.

  Section Computable.
    Context (C : computable E I).

    Theorem C36_no_panic : forall i, p_directive E I po i <> Crash.
    Proof. destruct C as [Hc He]. exact (p_directive_quiet E I po Hc He). Qed.

    (** A directive is accepted exactly if it is written there, up to where it
        cannot go on; and nothing else is returned. *)
    Theorem C36_reads : forall i j d es, i <= n ->
      (exists ws, p_directive E I po i = Got d j ws es) <-> whole_at E I names i j d es.
    Proof.
      destruct WS as [U Nm Nl O]. destruct C as [Hc He]. intros i j d es Hi.
      rewrite (p_directive_iff E I po names U Nm Nl O Hc He i j d es Hi). unfold whole_at, complete_at.
      split; (intros (D & M & P); split; [exact D|split; [exact M|]]).
      - intros fl pa na ps Q. rewrite Q in P. exact P.
      - destruct (dir_variant d) eqn:Q; try exact Logic.I. eapply P. reflexivity.
    Qed.

    (** The parser fails exactly where no directive is written. *)
    Theorem C36_rejects : forall i, i <= n ->
      (exists ws, p_directive E I po i = Not ws) <-> (forall j d es, ~ directive_at E I names i j d es).
    Proof.
      destruct WS as [U Nm Nl O]. intros i Hi. split.
      - intros [ws H] j d es D. destruct C as [Hc He]. eapply p_directive_never; eassumption.
      - intro H. destruct (p_directive E I po i) as [d j ws es|ws| |] eqn:P; eauto; exfalso.
        + exact (H _ _ _ (p_directive_sounds E I po names U Nm Nl O _ _ _ _ _ P)).
        + exact (C36_no_panic _ P).
        + exact (C36_terminates _ Hi P).
    Qed.

    (** At most one directive can be read at a place. *)
    Theorem C36_unambiguous : forall i j j' d d' es es',
      whole_at E I names i j d es -> whole_at E I names i j' d' es' -> j = j' /\ d = d' /\ es = es'.
    Proof.
      intros i j j' d d' es es' H H'.
      assert (Hi : i <= n).
      { destruct WS as [U Nm Nl O]. destruct C as [Hc He]. pose proof (directive_lt E I po names Nl O Hc He _ _ _ _ (proj1 H)). lia. }
      apply (C36_reads _ _ _ _ Hi) in H. apply (C36_reads _ _ _ _ Hi) in H'. destruct H as [ws H]. destruct H' as [ws' H'].
      rewrite H in H'. injection H' as <- <- _ <-. auto.
    Qed.
    (** The warnings of a directive are those for its strings, in order, each
        once.  (If the directive is followed by an indented line which is neither
        metadata nor a posting, and therefore by a syntax error, more warnings may
        follow.) *)
    Theorem C21_directive : forall i j d ws es, i <= n ->
      p_directive E I po i = Got d j ws es ->
      (~ tok I j T_Indent -> ws = long_strings (line_limit po) I i j) /\
      exists more, ws = long_strings (line_limit po) I i j ++ more.
    Proof.
      destruct WS as [U Nm Nl O]. destruct C as [Hc He]. intros i j d ws es Hi H.
      destruct (p_directive_stops E I po _ _ _ _ _ H) as [t St].
      pose proof (p_directive_sounds E I po names U Nm Nl O _ _ _ _ _ H) as D.
      pose proof (p_directive_reads E I po names U Nm Nl O Hc He _ _ _ _ _ D St) as [Rd _]. rewrite H in Rd. injection Rd as ->.
      change (line_limit po) with (limit_of po). split; [|eauto].
      intro NI. enough (t = []) as -> by apply app_nil_r.
      assert (M : p_metadatum_line E I po j = Not []) by (apply fails_bind, just_fails; exact NI).
      assert (P : p_posting E I po j = Not []) by (apply fails_bind, just_fails; exact NI).
      destruct (dir_variant d); cbn [stops] in St; try congruence.
      destruct St as (t1 & t2 & S1 & S2 & ->). rewrite M in S1. rewrite P in S2. injection S1 as <-. injection S2 as <-. reflexivity.
    Qed.
  End Computable.

  (** ** C21, for the strings of a directive *)

  (** A string is returned as it is; there is a warning exactly if it has too
      many lines. *)
  Theorem C21_string : forall i s j ws es,
    p_string I po i = Got s j ws es <->
    tok I i (T_String s) /\ j = S i /\ es = [] /\ ws = long_strings (line_limit po) I i (S i).
  Proof.
    intros i s j ws es. unfold p_string, spn, sp, map_span, sel, select. split.
    - destruct (nth_error (in_tokens I) i) as [[t r]|] eqn:T; [|discriminate]. destruct t; try discriminate.
      intro H. injection H as <- <- <- <-. cbn [item app]. split; [exists r; exact T|]. split; [reflexivity|]. split; [reflexivity|].
      change (line_limit po) with (limit_of po). rewrite (long_strings_string po I i s0 r T). unfold span_at, start_of, end_before. rewrite T.
      destruct r; reflexivity.
    - intros ([r T] & -> & -> & ->). rewrite T. cbn [item app]. change (line_limit po) with (limit_of po).
      rewrite (long_strings_string po I i s r T). cbn [span_of]. unfold span_at, start_of, end_before. rewrite T. destruct r; reflexivity.
  Qed.

  (** The number of lines is one more than the number of line ends, the limit
      is 64 unless set. *)
  Theorem C21_warning : forall i s a b,
    nth_error (in_tokens I) i = Some (T_String s, (a, b)) ->
    let limit := match po_maxlines po with Some m => item (sd_spanned m) | None => 64%N end in
    let lines := N.of_nat (S (count_occ N.eq_dec s 10%N)) in
    ((lines <= limit)%N -> long_strings (line_limit po) I i (S i) = []) /\
    ((limit < lines)%N -> exists w, long_strings (line_limit po) I i (S i) = [w] /\
       rp_problem w = StringTooLong (match po_maxlines po with Some _ => false | None => true end) limit lines /\
       rp_span w = mk_span (in_source I) a b /\
       rp_related w = match po_maxlines po with Some m => [src_value (sd_source m)] | None => [] end).
  Proof.
    intros i s a b T limit lines. unfold long_strings. replace (S i - i) with 1 by lia. cbn [seq flat_map]. rewrite T, app_nil_r.
    unfold line_limit, allowed, too_long, lines_of. unfold limit, lines. destruct (po_maxlines po) as [m|]; split; intro H.
    - apply N.leb_le in H. rewrite H. reflexivity.
    - apply N.leb_gt in H. rewrite H. eexists. repeat split.
    - apply N.leb_le in H. rewrite H. reflexivity.
    - apply N.leb_gt in H. rewrite H. eexists. repeat split.
  Qed.

  (** ** C22 *)

  (** The strings between the flag and the tags and links of a transaction: one
      is the narration, two are payee and narration, and the empty ones are
      left out. *)
  Theorem C22_titles : forall i d j ws es flag payee narration postings,
    p_directive E I po i = Got d j ws es -> dir_variant d = V_Transaction flag payee narration postings ->
    let present s := match item s with [] => None | _ => Some s end in
    (forall s, ~ tok I (2 + i) (T_String s)) /\ payee = None /\ narration = None \/
    (exists s, written I (string_at I) (2 + i) (3 + i) s /\ (forall s', ~ tok I (3 + i) (T_String s')) /\
       payee = None /\ narration = present s) \/
    (exists s s', written I (string_at I) (2 + i) (3 + i) s /\ written I (string_at I) (3 + i) (4 + i) s' /\
       (forall s'', ~ tok I (4 + i) (T_String s'')) /\ payee = present s /\ narration = present s').
  Proof.
    intros i d j ws es fl payee narration postings H V present. apply C36_sound in H. destruct H as [H _].
    destruct H as [a b c d0 e f k date flag strings payee' narration' marks md md' postings' es1 es2 es3 es4 Hd Hf Hs Ht Hm L M P J
      |a b c d0 k kw date v marks md md' es1 es2 es3 es4 Hd T F Hm L M J
      |a b c d0 k date type_ values md es0 Hd T Ht Hv L M]; cbn [dir_variant] in V; [|subst v; inversion F|discriminate].
    injection V as -> -> -> ->.
    destruct Hd as [Hd _]. assert (Ea : a = S i) by (inversion Hd; reflexivity).
    destruct Hf as [Hf _]. assert (Eb : b = S a) by (inversion Hf as [|? ? X]; [reflexivity|inversion X; reflexivity]).
    assert (Nc : forall s, ~ tok I c (T_String s)).
    { intros s T. pose proof (marks_away E I _ _ _ _ _ Hm L _ T). discriminate. }
    assert (U : forall s o, unless_empty s o -> o = present s).
    { intros s o [X|X]; unfold present; [rewrite X; reflexivity|]. destruct (item s); [contradiction|reflexivity]. }
    subst a b. inversion Ht as [Es Ep En|s n' X Es Ep En|s s' p' n' X Y Es Ep En]; subst strings.
    - left. apply star_nil_inv in Hs. subst c. auto.
    - right. left. exists s. apply silent_cons in Hs. destruct Hs as (m & W & Hs). apply star_nil_inv in Hs. subst c.
      assert (m = 3 + i) by (destruct W as [W _]; inversion W; reflexivity). subst m.
      split; [exact W|]. split; [exact Nc|]. split; [reflexivity|]. apply U. exact X.
    - right. right. exists s, s'. apply silent_cons in Hs. destruct Hs as (m & W & Hs). apply silent_cons in Hs.
      destruct Hs as (m' & W' & Hs). apply star_nil_inv in Hs. subst c.
      assert (m = 3 + i) by (destruct W as [W _]; inversion W; reflexivity). subst m.
      assert (m' = 4 + i) by (destruct W' as [W' _]; inversion W'; reflexivity). subst m'.
      split; [exact W|]. split; [exact W'|]. split; [exact Nc|]. split; apply U; assumption.
  Qed.

  (** A third string is not accepted. *)
  Theorem C22_third : forall i d s1 s2 s3 t j x ws es,
    tok I i (T_Date d) -> tok I (S i) t -> (t = T_Keyword K_Txn \/ t = T_Asterisk \/ t = T_Hash \/ exists f, t = T_Flag f) ->
    tok I (2 + i) (T_String s1) -> tok I (3 + i) (T_String s2) -> tok I (4 + i) (T_String s3) ->
    p_directive E I po i <> Got x j ws es.
  Proof.
    intros i d s1 s2 s3 t j x ws es Td Tt Ft T1 T2 T3 H.
    assert (V : exists f p nn ps, dir_variant x = V_Transaction f p nn ps).
    { apply C36_sound in H. destruct H as [H _].
      destruct H as [a b c d0 e f k date flag strings payee' narration' marks md md' postings' es1 es2 es3 es4 Hd Hf Hs Ht Hm L M P J
        |a b c d0 k kw date v marks md md' es1 es2 es3 es4 Hd T F Hm L M J
        |a b c d0 k date type_ values md es0 Hd T Ht Hv L M]; cbn [dir_variant]; [eauto| |].
      - exfalso. destruct Hd as [Hd _]. assert (a = S i) by (inversion Hd; reflexivity). subst a.
        pose proof (tok_fun _ _ _ _ T Tt) as X. destruct Ft as [->|[->|[->|[f ->]]]]; try discriminate.
        injection X as ->. inversion F.
      - exfalso. destruct Hd as [Hd _]. assert (a = S i) by (inversion Hd; reflexivity). subst a.
        pose proof (tok_fun _ _ _ _ T Tt) as X. destruct Ft as [->|[->|[->|[f ->]]]]; discriminate. }
    destruct V as (f & p & nn & ps & V).
    destruct (C22_titles _ _ _ _ _ _ _ _ _ H V) as [[X _]|[(s & _ & X & _)|(s & s' & _ & _ & X & _)]].
    - exact (X _ T1).
    - exact (X _ T2).
    - exact (X _ T3).
  Qed.

  (** ** C23 *)

  (** The metadata lines of a block. *)
  Theorem C23_metadata : forall i md j ws es,
    spn I (p_metadata E I po) i = Got md j ws es ->
    exists l kept, star (silent (metadata_line E I names)) i j l [] /\
      once_each metadatum_label metadatum_place l kept es /\
      md_key_values (item md) = key_values_in kept /\ md_tags (item md) = tags_in kept /\ md_links (item md) = links_in kept.
  Proof.
    destruct WS as [U Nm Nl O]. intros i md j ws es H. apply (p_metadata_sounds E I po names U Nm Nl) in H.
    destruct H as [l St Cl _]. apply collects_once in Cl. destruct Cl as (kept & Oe & ->). exists l, kept. auto.
  Qed.

  (** Tags and links on a first line. *)
  Theorem C23_tags_links : forall i tags links j ws es,
    p_tags_links E I i = Got (tags, links) j ws es ->
    exists l kept, star (silent (mark_at E I)) i j l [] /\
      once_each metadatum_label metadatum_place l kept es /\ tags = tags_in kept /\ links = links_in kept.
  Proof.
    destruct WS as [U Nm Nl O]. intros i tags links j ws es H. apply p_tags_links_sounds in H.
    destruct H as (marks & kept & again & St & D & X & ->). injection X as -> ->. exists marks, kept.
    split; [exact St|]. split; [apply dedup_once_each; exact D|auto].
  Qed.

  (** The list of currencies; the first one is looked at last. *)
  Theorem C23_currencies : forall i cs j ws es,
    p_currency_list I i = Got cs j ws es ->
    cs = [] /\ es = [] /\ j = i \/
    exists first rest, separated I (written I (currency_at I)) i j (first :: rest) /\
      once_each (fun x => DuplicateCurrency (item x)) span_of (rest ++ [first]) cs es.
  Proof.
    intros i cs j ws es H. apply p_currency_list_sounds in H. destruct H as [|k first rest kept again Sp D]; [auto|].
    right. exists first, rest. split; [exact Sp|]. apply dedup_once_each. exact D.
  Qed.

  (** Merging the tags and links of the first line into the metadata: each is
      kept once, what is in both is an error at its place in the metadata. *)
  Theorem C23_merge : forall md tags links md' es,
    NoDup (map item tags) -> NoDup (map item links) ->
    NoDup (map item (md_tags (item md))) -> NoDup (map item (md_links (item md))) ->
    merged E md (tags, links) = (md', es) ->
    md_key_values (item md') = md_key_values (item md) /\ span_of md' = span_of md /\
    NoDup (map item (md_tags (item md'))) /\
    (forall s, In s (map item (md_tags (item md'))) <-> In s (map item (md_tags (item md))) \/ In s (map item tags)) /\
    NoDup (map item (md_links (item md'))) /\
    (forall s, In s (map item (md_links (item md'))) <-> In s (map item (md_links (item md))) \/ In s (map item links)) /\
    NoDup (map rp_problem es) /\
    (forall p, In p (map rp_problem es) <->
       (exists s, p = DuplicateTag s /\ In s (map item (md_tags (item md))) /\ In s (map item tags)) \/
       (exists s, p = DuplicateLink s /\ In s (map item (md_links (item md))) /\ In s (map item links))) /\
    (forall e, In e es ->
       (exists y, In y (md_tags (item md)) /\ e = mk_report (DuplicateTag (item y)) (span_of y) []) \/
       (exists y, In y (md_links (item md)) /\ e = mk_report (DuplicateLink (item y)) (span_of y) [])).
  Proof.
    destruct WS as [U Nm Nl O]. intros md tags links md' es Nt Nk Mt Mk H. unfold merged in H. cbn [fst snd] in H.
    pose proof (nodup_order E O _ Nt) as Nt'. pose proof (nodup_order E O _ Nk) as Nk'.
    destruct (merges_fold DuplicateTag ltac:(congruence) _ (md_tags (item md)) Nt') as (t & e1 & F1 & M1).
    destruct (merges_fold DuplicateLink ltac:(congruence) _ (md_links (item md)) Nk') as (k & e2 & F2 & M2).
    rewrite F1, F2 in H. injection H as <- <-. cbn [item span_of md_key_values md_tags md_links].
    destruct (merges_kept DuplicateTag ltac:(congruence) _ _ _ _ Mt M1) as (K1 & K2 & _).
    destruct (merges_kept DuplicateLink ltac:(congruence) _ _ _ _ Mk M2) as (L1 & L2 & _).
    destruct (merges_errors DuplicateTag ltac:(congruence) _ _ _ _ Nt' M1) as (P1 & P2).
    destruct (merges_errors DuplicateLink ltac:(congruence) _ _ _ _ Nk' M2) as (Q1 & Q2).
    assert (Pt : forall s, In s (map item (g_order E tags)) <-> In s (map item tags)).
    { intro s. pose proof (Permutation_map item (O tags)) as P. split; apply Permutation_in; [symmetry|]; exact P. }
    assert (Pk : forall s, In s (map item (g_order E links)) <-> In s (map item links)).
    { intro s. pose proof (Permutation_map item (O links)) as P. split; apply Permutation_in; [symmetry|]; exact P. }
    split; [reflexivity|]. split; [reflexivity|]. split; [exact K1|].
    split; [intro s; rewrite K2, Pt; reflexivity|]. split; [exact L1|]. split; [intro s; rewrite L2, Pk; reflexivity|].
    split; [|split].
    - rewrite map_app. apply NoDup_join; auto. intros p X Y. apply P2 in X. apply Q2 in Y.
      destruct X as (s & -> & _). destruct Y as (s' & Y & _). discriminate.
    - intro p. rewrite map_app, in_app_iff, P2, Q2.
      split; (intros [(s & -> & X & Y)|(s & -> & X & Y)]; [left|right]; exists s; split; auto; split; auto;
        first [apply Pt; exact Y|apply Pk; exact Y]).
    - intros e X. apply in_app_or in X. destruct X as [X|X]; [left|right].
      + eapply merges_places; eassumption.
      + eapply merges_places; eassumption.
  Qed.

  Lemma collects_nodup_keys l md es : collects l md es -> NoDup (map (fun kv => item (fst kv)) (md_key_values md)).
  Proof.
    intros [kept again D]. apply dedup_kept in D. destruct D as (Nd & _). cbn [md_key_values]. clear - Nd.
    induction kept as [|m kept IH]; cbn [key_values_in flat_map map]; [constructor|].
    cbn [map] in Nd. apply NoDup_cons_iff in Nd. destruct Nd as [Nm Nd]. specialize (IH Nd). destruct m as [kv|t|t]; try exact IH.
    cbn [app map]. constructor; [|exact IH]. intro X. apply Nm. apply in_map_iff in X. destruct X as ([k v] & Ek & X).
    cbn [fst] in Ek. apply in_flat_map in X. destruct X as (m & M & X). destruct m as [kv'|t|t]; try destruct X as [X|[]]; [|destruct X..].
    injection X as Xk Xv. apply in_map_iff. exists (MD_KeyValue kv'). split; [|exact M]. cbn [metadatum_label]. congruence.
  Qed.

  (** So the keys, tags and links of everything returned are each there once. *)
  Definition each_once (md : metadata) : Prop :=
    NoDup (map (fun kv => item (fst kv)) (md_key_values md)) /\ NoDup (map item (md_tags md)) /\ NoDup (map item (md_links md)).
  Theorem C23_directive : forall i d j ws es,
    p_directive E I po i = Got d j ws es ->
    each_once (item (dir_metadata d)) /\
    match dir_variant d with
    | V_Transaction _ _ _ postings => forall p, In p postings -> each_once (item (po_metadata (item p)))
    | V_Open _ cs _ => NoDup (map item cs)
    | _ => True
    end.
  Proof.
    intros i d j ws es H. apply C36_sound in H. destruct H as [H _].
    assert (Co : forall l md es, collects l md es -> each_once md).
    { intros l md es0 Cl. pose proof (collects_nodup _ _ _ Cl) as [X Y]. pose proof (collects_nodup_keys _ _ _ Cl) as Z. repeat split; assumption. }
    assert (Jo : forall i j md es0 marks md' e1 e2, metadata_at E I names i j md es0 -> joined E md marks md' e1 e2 -> each_once (item md')).
    { intros i0 j0 md es0 marks md' e1 e2 [l _ Cl _] [kept again tags links e3 e4 D M1 M2]. apply Co in Cl. destruct Cl as (X & Y & Z).
      pose proof (merges_kept DuplicateTag ltac:(congruence) _ _ _ _ Y M1) as [T _].
      pose proof (merges_kept DuplicateLink ltac:(congruence) _ _ _ _ Z M2) as [T' _]. repeat split; assumption. }
    destruct H as [a b c d0 e f k date flag strings payee' narration' marks md md' postings' es1 es2 es3 es4 Hd Hf Hs Ht Hm L M P J
      |a b c d0 k kw date v marks md md' es1 es2 es3 es4 Hd T F Hm L M J
      |a b c d0 k date type_ values md es0 Hd T Ht Hv L M]; cbn [dir_variant dir_metadata].
    - split; [eapply Jo; eassumption|]. clear - P Co. induction P as [i|i j k p l e1 e2 H _ IH]; [intros p []|].
      intros q [<-|Q]; [|exact (IH q Q)]. destruct H as [a b c d e f g j flag account amount currency cost price md es T Fl Ac Am Cu Cs Pr L [lm M C Sp]].
      cbn [item po_metadata]. eapply Co. exact C.
    - split; [eapply Jo; eassumption|]. destruct F; try exact Logic.I.
      match goal with H : currencies_at _ _ _ _ _ |- _ => destruct H as [|m first rest kept again Sp D] end; [constructor|].
      apply dedup_kept in D. destruct D as (Nd & _). rewrite <- map_map in Nd. exact (NoDup_map_inv _ _ Nd).
    - split; [|exact Logic.I]. destruct M as [l _ Cl _]. eapply Co. exact Cl.
  Qed.

  (** ** C37 *)

  (** The lines after the first line of a transaction are the lines of its
      metadata and its postings: first its own metadata, and then each posting
      followed by its metadata. *)
  Theorem C37_lines : forall i d j ws es flag payee narration postings,
    p_directive E I po i = Got d j ws es -> dir_variant d = V_Transaction flag payee narration postings ->
    exists c f h marks ls md,
      2 + i <= c /\ star (silent (mark_at E I)) c f marks [] /\ line_end I f h /\
      star (silent (body_line_at E I names)) h j ls [] /\
      map fst (postings_with ls) = postings /\
      Forall (fun g => exists e, collects (snd g) (item (po_metadata (item (fst g)))) e) (postings_with ls) /\
      (exists e, collects (metadata_first ls) md e) /\
      md_key_values (item (dir_metadata d)) = md_key_values md /\
      (forall s, In s (map item (md_tags (item (dir_metadata d)))) <->
         In s (map item (md_tags md)) \/ In s (map item (tags_in marks))) /\
      (forall s, In s (map item (md_links (item (dir_metadata d)))) <->
         In s (map item (md_links md)) \/ In s (map item (links_in marks))).
  Proof.
    intros i d j ws es fl payee narration postings H V. apply C36_sound in H. destruct H as [H _]. destruct WS as [U Nm Nl O].
    destruct H as [a b c d0 e f k date flag strings payee' narration' marks md md' postings' es1 es2 es3 es4 Hd Hf Hs Ht Hm L M P J
      |a b c d0 k kw date v marks md md' es1 es2 es3 es4 Hd T F Hm L M J
      |a b c d0 k date type_ values md es0 Hd T Ht Hv L M]; cbn [dir_variant] in V; [|subst v; inversion F|discriminate].
    injection V as -> -> -> ->. destruct M as [lm Mm Cm _].
    destruct (posting_lines _ _ _ _ _ _ _ P) as (ls & St & Mf & Fp).
    exists c, d0, e, marks, (map BL_Metadatum lm ++ ls), (item md).
    assert (Hc : 2 + i <= c).
    { pose proof (date_lt I _ _ _ (proj1 Hd)) as B1. pose proof (txn_lt I po _ _ _ (proj1 Hf)) as B2.
      pose proof (strings_le E I po O _ _ _ _ Hs (proj2 B2)). lia. }
    split; [exact Hc|]. split; [exact Hm|]. split; [exact L|]. split.
    { change (@nil report) with (@nil report ++ []). eapply star_app; [|exact St]. eapply metadata_lines. exact Mm. }
    rewrite postings_with_app, (metadata_first_app _ _ Mf).
    split; [clear - Fp; induction Fp as [|x y l l' [X _] _ IH]; cbn; congruence|].
    split; [clear - Fp; induction Fp as [|x y l l' [<- X] _ IH]; constructor; assumption|].
    split; [exists es2; exact Cm|].
    destruct J as [kept again tags links e1 e4 D M1 M2]. cbn [dir_metadata item md_key_values md_tags md_links].
    destruct (collects_nodup _ _ _ Cm) as [Nt Nk]. split; [reflexivity|].
    destruct (merges_kept DuplicateTag ltac:(congruence) _ _ _ _ Nt M1) as (_ & K1 & _).
    destruct (merges_kept DuplicateLink ltac:(congruence) _ _ _ _ Nk M2) as (_ & K2 & _).
    destruct (dedup_kept _ _ _ _ _ D) as (_ & B & C).
    split; intro s; [rewrite K1|rewrite K2].
    - assert (X : In s (map item (g_order E (tags_in kept))) <-> In s (map item (tags_in marks))); [|tauto].
      transitivity (In s (map item (tags_in kept))).
      { pose proof (Permutation_map item (O (tags_in kept))) as Pm. split; apply Permutation_in; [symmetry|]; exact Pm. }
      split; intro X; apply in_map_iff in X; destruct X as (x & <- & X); apply tags_in_spec in X.
      + apply in_map, tags_in_spec, B, X.
      + apply C in X. destruct X as [[]|X]. apply in_map_iff in X. destruct X as (m & Lm & X). destruct m as [kv|t|t]; try discriminate.
        cbn [metadatum_label] in Lm. injection Lm as Lm. rewrite <- Lm. apply in_map, tags_in_spec, X.
    - assert (X : In s (map item (g_order E (links_in kept))) <-> In s (map item (links_in marks))); [|tauto].
      transitivity (In s (map item (links_in kept))).
      { pose proof (Permutation_map item (O (links_in kept))) as Pm. split; apply Permutation_in; [symmetry|]; exact Pm. }
      split; intro X; apply in_map_iff in X; destruct X as (x & <- & X); apply links_in_spec in X.
      + apply in_map, links_in_spec, B, X.
      + apply C in X. destruct X as [[]|X]. apply in_map_iff in X. destruct X as (m & Lm & X). destruct m as [kv|t|t]; try discriminate.
        cbn [metadatum_label] in Lm. injection Lm as Lm. rewrite <- Lm. apply in_map, links_in_spec, X.
  Qed.

  (** ** C25 *)

  Lemma value_fun i j v v' : value_at E I i j v -> value_at E I i j v' -> v = v'.
  Proof.
    intros [S W] [S' W']. pose proof (sum_unique _ _ _ _ _ S S') as X.
    assert (expr_value_from (g_ops E) (ev_expr v) = Fine v) by (apply expr_value_worth; auto).
    assert (expr_value_from (g_ops E) (ev_expr v') = Fine v') by (apply expr_value_worth; auto). congruence.
  Qed.
  Lemma no_currency_inside i j v k s : value_at E I i j v -> i <= k < j -> ~ tok I k (T_Currency s).
  Proof. intros [S _] K T. pose proof (proj1 (sum_inside I) _ _ _ S _ _ K T). discriminate. Qed.
  Lemma sign_fun i sc sc' : price_sign I i sc -> price_sign I i sc' -> sc = sc'.
  Proof. intros [T|T] [T'|T']; auto; pose proof (tok_fun _ _ _ _ T T'); discriminate. Qed.
  Lemma currency_tok i j c : currency_at I i j c -> j = S i /\ tok I i (T_Currency c).
  Proof. intros [s T _]. auto. Qed.
  Lemma price_fun i j a a' : price_at E I i j a -> price_at E I i j a' -> a = a'.
  Proof.
    assert (Cf : forall i j c c', currency_at I i j c -> currency_at I i j c' -> c = c').
    { intros i0 j0 c c' [s T _] X. inversion X as [s' T' _]; subst. pose proof (tok_fun _ _ _ _ T T'). congruence. }
    assert (Vl : forall i j v, value_at E I i j v -> i < j).
    { intros i0 j0 v V. apply value_lt in V. lia. }
    intros [sc Q|sc j0 v Q V|sc j0 c Q Cu|sc m j0 v c Q V Cu] H';
      inversion H' as [sc' S' E1 E2|sc' j' v' S' V' E1 E2|sc' j' c' S' C' E1 E2|sc' m' j' v' c' S' V' C' E1 E2]; subst; clear H';
      try (pose proof (sign_fun _ _ _ Q S') as ->; clear S'); try reflexivity;
      repeat match goal with
        | V : value_at E I ?i ?j _ |- _ => lazymatch goal with _ : i < j |- _ => fail | _ => pose proof (Vl _ _ _ V) end
        | V : currency_at I ?i ?j _ |- _ => lazymatch goal with _ : j = S i |- _ => fail | _ => pose proof (proj1 (currency_tok _ _ _ V)) end
        end; try lia.
    - rewrite (value_fun _ _ _ _ V V'). reflexivity.
    - destruct (currency_tok _ _ _ C') as [_ T]. exfalso. refine (no_currency_inside _ _ _ (S i) _ V _ T). lia.
    - destruct (currency_tok _ _ _ C') as [_ T]. exfalso. refine (no_currency_inside _ _ _ m' _ V _ T). lia.
    - destruct (currency_tok _ _ _ Cu) as [_ T]. exfalso. refine (no_currency_inside _ _ _ (S i) _ V' _ T). lia.
    - rewrite (Cf _ _ _ _ Cu C'). reflexivity.
    - destruct (currency_tok _ _ _ Cu) as [_ T]. exfalso. refine (no_currency_inside _ _ _ m _ V' _ T). lia.
    - assert (m = m') by lia. subst m'. rewrite (value_fun _ _ _ _ V V'), (Cf _ _ _ _ Cu C'). reflexivity.
  Qed.

  Section Price.
    Context (C : computable E I).

    (** The longest annotation there is, and it says what is written: '@' is per
        unit, '@@' is for all of it, number and currency may be missing. *)
    Theorem C25_reads : forall i j a, i <= n ->
      (exists ws es, p_price_annotation E I i = Got a j ws es) <-> longest (price_at E I) i j a.
    Proof.
      destruct C as [Hc He]. intros i j a Hi.
      assert (Fw : forall j a ws es, p_price_annotation E I i = Got a j ws es -> longest (price_at E I) i j a).
      { clear j a. intros j a ws es H. split; [apply p_price_annotation_sounds in H; apply H|]. intros k b B.
        unfold p_price_annotation in H. apply bind_got in H. destruct H as (s & m & w1 & e1 & w2 & e2 & Hs & H & _ & _).
        apply bind_got in H. destruct H as (ov & m2 & w3 & e3 & w4 & e4 & Hv & H & _ & _).
        apply bind_got in H. destruct H as (oc & m3 & w5 & e5 & w6 & e6 & Hx & H & _ & _).
        unfold ret in H. injection H as _ <- _ _.
        assert (m = S i).
        { apply choice_got in Hs. destruct Hs as (q & w & [<-|[<-|[]]] & Hs); apply pmap_got in Hs; destruct Hs as (x & Hs & _);
            apply just_got in Hs; destruct Hs as (_ & _ & Hs & _); exact Hs. }
        subst m.
        assert (Hk : forall k v, value_at E I (S i) k v -> k <= m2 /\ exists v2, ov = Some v2).
        { intros k' v [Sv _]. destruct (p_expr_far _ _ _ _ Sv) as (e' & m' & Q & Hm). apply opt_got in Hv. unfold p_expr_value, pmap_out in Hv.
          assert (Ms : may_start I (S i)).
          { assert (X : exists sc, price_sign I i sc) by (destruct B; eauto). destruct X as [sc Sg].
            intros k0 t0 X T0. injection X as <-.
            destruct Sg as [T|T]; pose proof (tok_fun _ _ _ _ T T0) as <-; (split; [|intros [Y|[d Y]]; discriminate]);
              intro Y; cbn in Y; repeat (destruct Y as [Y|Y]; [discriminate|]); exact Y. }
          destruct (He _ _ _ Ms (p_expr_longest _ _ _ _ _ _ Q)) as (v' & Wv & Ev).
          assert (X : expr_value_from (g_ops E) e' = Fine v') by (apply expr_value_worth; auto).
          rewrite Q, X in Hv. destruct Hv as [(x & Y & ->)|(Y & _)]; [|discriminate]. injection Y as <- <- _ _. split; [lia|eauto]. }
        assert (B1 : S i <= m2).
        { apply opt_got in Hv. destruct Hv as [(x & Y & ->)|(Y & -> & -> & ->)]; [|lia].
          apply p_expr_value_sounds in Y. destruct Y as [Y _]. apply value_lt in Y. lia. }
        assert (B2 : m2 <= m3).
        { apply opt_got in Hx. destruct Hx as [(x & Y & ->)|(Y & -> & -> & ->)]; [|lia].
          apply p_currency_sounds in Y. destruct Y as [Y _]. apply currency_tok in Y. lia. }
        assert (Hcur : forall c, currency_at I m2 (S m2) c -> m3 = S m2).
        { intros c Y. apply (p_currency_reads I po) in Y. destruct Y as [Y _]. unfold opt in Hx. rewrite Y in Hx. congruence. }
        destruct B as [sc Q|sc j0 v Q V|sc j0 c Q Cu|sc m0 j0 v c Q V Cu].
        - lia.
        - apply Hk in V. lia.
        - destruct (currency_tok _ _ _ Cu) as [-> T].
          assert (m2 = S i).
          { apply opt_got in Hv. destruct Hv as [(x & Y & ->)|(Y & -> & -> & ->)]; [|reflexivity].
            apply p_expr_value_sounds in Y. destruct Y as [Y _]. exfalso. pose proof (value_lt _ _ _ _ _ Y). refine (no_currency_inside _ _ _ (S i) _ Y _ T). lia. }
          subst m2. rewrite (Hcur _ Cu). lia.
        - destruct (currency_tok _ _ _ Cu) as [-> T]. destruct (Hk _ _ V) as [X [v2 ->]].
          apply opt_got in Hv. destruct Hv as [(x & Y & _)|(Y & Z & _)]; [|discriminate].
          apply p_expr_value_sounds in Y. destruct Y as [Y _].
          assert (m0 = m2).
          { destruct (Nat.eq_dec m0 m2) as [|Ne]; [assumption|]. exfalso. pose proof (value_lt _ _ _ _ _ V).
            refine (no_currency_inside _ _ _ m0 _ Y _ T). lia. }
          subst m0. rewrite (Hcur _ Cu). lia. }
      split.
      - intros (ws & es & H). eapply Fw. exact H.
      - intros [H L].
        pose proof (p_price_annotation_steps E I 0 i (Nat.le_0_l i) Hi) as St.
        destruct (p_price_annotation E I i) as [a' j' ws es|ws| |] eqn:P; [|exfalso..|].
        + destruct (Fw _ _ _ _ eq_refl) as [H' L']. pose proof (L _ _ H'). pose proof (L' _ _ H). assert (j' = j) by lia. subst j'.
          rewrite (price_fun _ _ _ _ H H'). eauto.
        + unfold p_price_annotation, bind in P.
          assert (Sg : exists b, choice [pmap (fun _ : token => false) (just I T_At); pmap (fun _ : token => true) (just I T_AtAt)] i = Got b (S i) [] []).
          { assert (X : exists sc, price_sign I i sc) by (destruct H; eauto). destruct X as [sc [T|T]].
            - exists false. cbn [choice]. unfold alt, pmap, bind. rewrite (just_at _ _ _ T). reflexivity.
            - exists true. cbn [choice]. unfold alt, pmap, bind. rewrite (just_at _ _ _ T), just_not; [reflexivity|].
              intro T'. pose proof (tok_fun _ _ _ _ T T'). discriminate. }
          destruct Sg as [b Sg]. rewrite Sg in P. unfold opt, ret in P.
          destruct (p_expr_value E I (S i)); try discriminate; match type of P with context [p_currency I ?x] => destruct (p_currency I x) end; discriminate.
        + exact (p_price_annotation_quiet E I Hc He _ P).
        + contradiction.
    Qed.
  End Price.
End Directives.

(** ** A case *)

(** All there is to compute in a concrete input. *)
Definition starts_here (I : input) (i : nat) : bool :=
  match i with
  | O => true
  | S k =>
      match nth_error (in_tokens I) k with
      | Some (T_Plus, _) | Some (T_Minus, _) | Some (T_Asterisk, _) | Some (T_Slash, _) | Some (T_Lparen, _) => false
      | Some (T_Rparen, _) | Some (T_Number _, _) =>
          match nth_error (in_tokens I) i with Some (T_Plus, _) | Some (T_Minus, _) => false | _ => true end
      | _ => true
      end
  end.
Definition check_computable (E : grammar_env) (I : input) : bool :=
  forallb (fun x => match fst x with T_Currency s => forallb (fun c => (c <? 128)%N) s | _ => true end) (in_tokens I) &&
  forallb (fun i =>
    if starts_here I i then
      match p_expr I i with
      | Got e _ _ _ => match expr_value_from (g_ops E) e with Fine _ => true | Panic => false end
      | _ => true
      end
    else true) (seq 0 (S (List.length (in_tokens I)))).
Lemma starts_here_ok I i : may_start I i -> starts_here I i = true.
Proof.
  intro M. destruct i as [|k]; [reflexivity|]. unfold starts_here. destruct (nth_error (in_tokens I) k) as [[t r]|] eqn:T; [|reflexivity].
  destruct (M k t eq_refl (ex_intro _ r T)) as [A B].
  destruct t; try reflexivity; try (exfalso; apply A; cbn; tauto);
    (destruct (nth_error (in_tokens I) (S k)) as [[t' r']|] eqn:T'; [|reflexivity]);
    (destruct t'; try reflexivity; exfalso;
       [apply (fun X => proj1 (B X)) with (2 := ltac:(exists r'; exact T') : tok I (S k) T_Plus)
       |apply (fun X => proj2 (B X)) with (2 := ltac:(exists r'; exact T') : tok I (S k) T_Minus)]; unfold ends_expr; eauto).
Qed.
Lemma check_computable_ok E I : check_computable E I = true -> computable E I.
Proof.
  unfold check_computable. rewrite andb_true_iff, !forallb_forall. intros [A B]. split.
  - intros i s [r T]. apply nth_error_In in T. apply A in T. cbn [fst] in T. rewrite forallb_forall in T. apply Forall_forall.
    intros c Hx. apply T in Hx. apply N.ltb_lt in Hx. exact Hx.
  - intros i j e M [S L]. pose proof (proj1 (bounds I) _ _ _ S) as Bo.
    assert (Hi : In i (seq 0 (Datatypes.S (List.length (in_tokens I))))) by (apply in_seq; lia).
    apply B in Hi. rewrite (starts_here_ok I i M) in Hi.
    rewrite (proj2 (p_expr_iff I i j e) (conj S L)) in Hi.
    destruct (expr_value_from (g_ops E) e) as [v|] eqn:V; [|discriminate]. exists v. apply expr_value_worth. exact V.
Qed.

Definition ex_env : grammar_env := {|
  g_unicode := ascii_unicode; g_ops := exact_ops; g_decimal := fun _ => None; g_order := fun l => l |}.
Lemma ex_set : well_set ex_env default_parser_options default_names.
Proof.
  split; cbn.
  - intros c H. repeat split.
  - exact named_default.
  - intro t. apply default_names_valid. intros c H. repeat split.
  - reflexivity.
Qed.

(** Tokens of one character each. *)
Definition ex_tokens (ts : list token) : input :=
  mk_input 7 (combine ts (map (fun k => (k, S k)) (seq 0 (List.length ts)))) (List.length ts).
Definition ex_num (v : N) : decimal := mk_dec false v 0.

(** A transaction with two strings, a repeated tag, metadata for itself and for
    the first of two postings, which has a cost and a price; the second string
    is empty; and the next directive. *)
Definition ex_transaction : input := ex_tokens
  [T_Date (mk_date 2024 2 29); T_Asterisk; T_String (lit "Payee"); T_String []; T_Tag (lit "a"); T_Tag (lit "a"); T_Eol;
   T_Indent; T_Key (lit "k"); T_Colon; T_Number (ex_num 1); T_Plus; T_Number (ex_num 2); T_Eol;
   T_Indent; T_Account (lit "Assets:Cash"); T_Minus; T_Number (ex_num 3); T_Currency (lit "USD");
     T_Lcurl; T_Number (ex_num 5); T_Currency (lit "CHF"); T_Rcurl; T_AtAt; T_Number (ex_num 4); T_Currency (lit "EUR"); T_Eol;
   T_Indent; T_Tag (lit "b"); T_Eol;
   T_Indent; T_Account (lit "Expenses:Food"); T_Eol;
   T_Date (mk_date 2024 3 1); T_Keyword K_Close; T_Account (lit "Assets:Cash")].

Lemma ex_computable : computable ex_env ex_transaction.
Proof. apply check_computable_ok. vm_compute. reflexivity. Qed.

Example ex_reads : exists d ws p1 p2 flag,
  p_directive ex_env ex_transaction default_parser_options 0 =
    Got d 33 ws [mk_report (DuplicateTag (lit "a")) (mk_span 7 5 6) []] /\
  dir_variant d = V_Transaction flag (Some (mk_spanned (lit "Payee") (mk_span 7 2 3))) None [p1; p2] /\
  map fst (md_key_values (item (dir_metadata d))) = [mk_spanned (lit "k") (mk_span 7 8 9)] /\
  md_tags (item (dir_metadata d)) = [mk_spanned (lit "a") (mk_span 7 4 5)] /\
  option_map item (po_price (item p1)) = Some (PS_CurrencyAmount (SE_Total (mk_ev (ex_num 4) (E_Value (ex_num 4)))) (lit "EUR")) /\
  md_tags (item (po_metadata (item p1))) = [mk_spanned (lit "b") (mk_span 7 28 29)] /\
  item (po_account (item p2)) = mk_account Expenses (lit "Expenses:Food") /\ md_tags (item (po_metadata (item p2))) = [].
Proof. do 5 eexists. vm_compute. repeat split. Qed.

(** It is a directive in the sense of the specification, and the next one starts
    where it ends. *)
Example ex_whole : exists d e, whole_at ex_env ex_transaction default_names 0 33 d [e] /\
  exists d' , whole_at ex_env ex_transaction default_names 33 36 d' [].
Proof.
  assert (L : List.length (in_tokens ex_transaction) = 36) by reflexivity.
  destruct ex_reads as (d & ws & p1 & p2 & flag & H & _). do 2 eexists. split.
  - apply (C36_reads ex_env ex_transaction default_parser_options default_names ex_set ex_computable); [lia|].
    exists ws. exact H.
  - eexists. apply (C36_reads ex_env ex_transaction default_parser_options default_names ex_set ex_computable); [lia|].
    eexists. vm_compute. reflexivity.
Qed.

(** A third string. *)
Example ex_third : exists ws, p_directive ex_env
  (ex_tokens [T_Date (mk_date 2024 2 29); T_Asterisk; T_String (lit "a"); T_String (lit "b"); T_String (lit "c"); T_Eol])
  default_parser_options 0 = Not ws.
Proof. eexists. vm_compute. reflexivity. Qed.

(** A string of three lines where two are allowed; it is returned all the same. *)
Definition ex_limit : parser_options := mk_parser_options default_atns
  (Some (mk_sourced (mk_spanned 2%N (mk_span 1 0 1)) (mk_source (mk_span 1 2 3) (mk_span 1 4 5)))).
Example ex_long : p_string (ex_tokens [T_String [97; 10; 98; 10]%N]) ex_limit 0 =
  Got [97; 10; 98; 10]%N 1 [mk_report (StringTooLong false 2 3) (mk_span 7 0 1) [mk_span 1 4 5]] [].
Proof. reflexivity. Qed.
Example ex_short : p_string (ex_tokens [T_String [97; 10; 98]%N]) ex_limit 0 = Got [97; 10; 98]%N 1 [] [].
Proof. reflexivity. Qed.

(** Each repeated once. *)
Example ex_currencies : exists cs ws es,
  p_currency_list (ex_tokens [T_Currency (lit "USD"); T_Comma; T_Currency (lit "EUR"); T_Comma; T_Currency (lit "USD"); T_Eol]) 0
    = Got cs 5 ws es /\ map item cs = [lit "EUR"; lit "USD"] /\ map rp_problem es = [DuplicateCurrency (lit "USD")].
Proof. do 3 eexists. vm_compute. repeat split. Qed.

Print Assumptions C36_sound.
Print Assumptions C36_terminates.
Print Assumptions C36_no_panic.
Print Assumptions C36_reads.
Print Assumptions C36_rejects.
Print Assumptions C36_unambiguous.
Print Assumptions C21_string.
Print Assumptions C21_warning.
Print Assumptions C21_directive.
Print Assumptions C22_titles.
Print Assumptions C22_third.
Print Assumptions C23_metadata.
Print Assumptions C23_tags_links.
Print Assumptions C23_currencies.
Print Assumptions C23_merge.
Print Assumptions C23_directive.
Print Assumptions C25_reads.
Print Assumptions C37_lines.
