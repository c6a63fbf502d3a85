(** * Proofs about span resolution *)
From Coq Require Import List NArith Arith Bool Lia.
From Verif Require Import Base BaseFacts Text TextFacts Path Sources SpecSources.
Import ListNotations.

Lemma newlines_count s : count_newlines s = newlines s.
Proof.
  induction s as [|c s IH]; auto.
  unfold count_newlines in *. simpl. rewrite <- IH.
  change newline with 10%N. destruct (c =? 10)%N; reflexivity.
Qed.

Lemma newlines_app a b : newlines (a ++ b) = newlines a + newlines b.
Proof. induction a; simpl; lia. Qed.

Lemma designates_get content sp pre mid post :
  designates content sp pre mid post -> str_get content (sp_start sp) (sp_end sp) = Some mid.
Proof.
  intros (A & B & C). apply str_get_spec. exists pre, post. auto.
Qed.

Lemma valid_span_get content sp :
  valid_span content sp <-> exists m, str_get content (sp_start sp) (sp_end sp) = Some m.
Proof.
  split.
  - intros (pre & mid & post & D). exists mid. eapply designates_get; eauto.
  - intros [m H]. apply str_get_spec in H as (pre & post & A & B & C).
    exists pre, m, post. repeat split; auto.
Qed.

Definition adj_end (pre core : str) (c : char) : nat := blen pre + blen core + 1.

Lemma trimmed_span_text content sp pre core c ws post :
  designates content sp pre (core ++ c :: ws) post ->
  is_whitespace c = false -> blank ws ->
  trimmed_span content sp = Fine (mk_span (sp_source sp) (blen pre) (adj_end pre core c)).
Proof.
  intros D Hc Hw. unfold trimmed_span, trim_trailing_whitespace.
  pose proof D as (_ & E1 & _).
  rewrite (designates_get _ _ _ _ _ D).
  unfold rfind. rewrite rfind_from_app.
  - rewrite E1. simpl. unfold adj_end. reflexivity.
  - now rewrite Hc.
  - intros x I. unfold blank in Hw. rewrite Forall_forall in Hw. now rewrite Hw.
Qed.

Lemma trimmed_span_blank content sp pre ws post :
  designates content sp pre ws post -> blank ws ->
  trimmed_span content sp = Fine sp.
Proof.
  intros D Hw. unfold trimmed_span, trim_trailing_whitespace.
  rewrite (designates_get _ _ _ _ _ D).
  unfold rfind. rewrite rfind_from_none.
  - destruct sp; reflexivity.
  - intros x I. unfold blank in Hw. rewrite Forall_forall in Hw. now rewrite Hw.
Qed.

Lemma trimmed_span_invalid content sp :
  ~ valid_span content sp -> trimmed_span content sp = Fine (mk_span (sp_source sp) 0 0).
Proof.
  intros N. unfold trimmed_span.
  destruct (str_get _ _ _) eqn:G; auto.
  exfalso. apply N. apply valid_span_get. eauto.
Qed.

Lemma trimmed_span_never_panics content sp : exists sp', trimmed_span content sp = Fine sp'.
Proof.
  unfold trimmed_span, trim_trailing_whitespace.
  destruct (str_get _ _ _) eqn:G; eauto.
  destruct (rfind _ _); eauto.
Qed.

(** Runes of a trimmed span. *)
Lemma runes_text sid pre core c post :
  byte_to_rune (char_offs 0 (pre ++ (core ++ [c]) ++ post)) (mk_span sid (blen pre) (adj_end pre core c))
  = mk_span sid (length pre) (length pre + length core + 1).
Proof.
  unfold byte_to_rune. simpl. f_equal.
  - apply partition_point_boundary.
  - replace (pre ++ (core ++ [c]) ++ post) with ((pre ++ core ++ [c]) ++ post)
      by now rewrite !app_assoc.
    rewrite partition_point_char_offs.
    + rewrite !app_length. simpl. lia.
    + intros E. destruct pre; [destruct core|]; discriminate.
    + intros a d E. rewrite app_assoc in E. apply app_inj_tail in E as [<- <-].
      rewrite blen_app. unfold adj_end. lia.
    + rewrite !blen_app. simpl. unfold adj_end. pose proof (utf8_len_pos c). lia.
Qed.

Lemma runes_valid sid content pre mid post :
  content = pre ++ mid ++ post ->
  byte_to_rune (char_offs 0 content) (mk_span sid (blen pre) (blen pre + blen mid))
  = mk_span sid (length pre) (length pre + length mid).
Proof.
  intros ->. unfold byte_to_rune. simpl. f_equal.
  - apply partition_point_boundary.
  - rewrite <- blen_app, app_assoc, partition_point_boundary, app_length. reflexivity.
Qed.

Lemma spanned_source_of_lines name pre mid post sid bs :
  spanned_source_of name (pre ++ mid ++ post) bs (mk_span sid (length pre) (length pre + length mid))
  = Fine (mk_spanned_source name (1 + newlines pre) (1 + newlines pre + newlines mid)
      (match str_get (pre ++ mid ++ post) (sp_start bs) (sp_end bs) with Some m => m | None => [] end)).
Proof.
  unfold spanned_source_of. simpl sp_start; simpl sp_end.
  replace (length pre + length mid <? length pre) with false by (symmetry; apply Nat.ltb_ge; lia).
  rewrite !newlines_count, firstn_app_exact, skipn_app_exact.
  replace (length pre + length mid - length pre) with (length mid) by lia.
  rewrite firstn_app_exact.
  replace (newlines pre + 1) with (1 + newlines pre) by lia. reflexivity.
Qed.

Lemma lookup_content_indices s name id c ci :
  sources_wf s -> lookup path_eqb name (included_content s) = Some (Content id c ci) ->
  ci = char_offs 0 c.
Proof.
  intros W L. apply lookup_In in L as (k & I & _). eapply wf_included_indices; eauto.
Qed.

(** [get_adjusted_source] on a known source. *)
Lemma get_adjusted_known s sp name content :
  sources_wf s -> source_text s (sp_source sp) name content ->
  exists bs, trimmed_span content sp = Fine bs /\
    get_adjusted_source s sp = Fine (content, name, bs, byte_to_rune (char_offs 0 content) bs).
Proof.
  intros W [N T]. destruct (trimmed_span_never_panics content sp) as [bs Hbs].
  exists bs. split; auto. unfold get_adjusted_source.
  assert (L : sp_source sp < length (source_id_strings s)) by (apply nth_error_Some; congruence).
  replace (length (source_id_strings s) <=? sp_source sp) with false by (symmetry; apply Nat.leb_gt; lia).
  unfold source_id_string. rewrite N. unfold root_source_id.
  destruct (sp_source sp) as [|i] eqn:E.
  - simpl. subst content. rewrite (wf_root_indices s W), Hbs. reflexivity.
  - simpl (S i =? 0). destruct (lookup path_eqb name (included_content s)) as [[id c ci|e|]|] eqn:Lk; try contradiction.
    + subst c. rewrite (lookup_content_indices s name id content ci W Lk), Hbs. reflexivity.
    + subst content. rewrite Hbs. reflexivity.
    + subst content. rewrite Hbs. reflexivity.
Qed.

Lemma reported_name_eq s sp name :
  (if sp_source sp =? root_source_id
   then match root_path s with Some _ => Some name | None => None end
   else Some name) = reported_name s (sp_source sp) name.
Proof.
  unfold reported_name, root_source_id. destruct (sp_source sp); simpl; auto.
  all: destruct (root_path s); reflexivity.
Qed.

Lemma adj_get_ascii pre core c ws post :
  utf8_len c = 1 ->
  str_get (pre ++ (core ++ c :: ws) ++ post) (blen pre) (adj_end pre core c) = Some (core ++ [c]).
Proof.
  intros U. apply str_get_spec. exists pre, (ws ++ post). repeat split.
  - rewrite <- !app_assoc. reflexivity.
  - rewrite blen_app. simpl. unfold adj_end. lia.
Qed.

Lemma adj_get_nonascii pre core c ws post :
  utf8_len c <> 1 ->
  str_get (pre ++ (core ++ c :: ws) ++ post) (blen pre) (adj_end pre core c) = None.
Proof.
  intros U. destruct (str_get _ _ _) as [m|] eqn:G; auto. exfalso.
  apply str_get_spec in G as (pre' & post' & E & B & L).
  apply app_inj_blen in E as [<- E]; auto.
  unfold adj_end in L.
  rewrite <- app_assoc in E.
  pose proof (utf8_len_pos c).
  assert (P : blen core <= blen m) by lia.
  destruct (app_prefix_blen _ _ _ _ E P) as (e & -> & E2).
  rewrite blen_app in L.
  destruct e as [|d e].
  - simpl in L. lia.
  - simpl in E2. inversion E2; subst. simpl in L. lia.
Qed.

Lemma resolve_span_text s sp name content pre core c ws post :
  sources_wf s -> source_text s (sp_source sp) name content ->
  designates content sp pre (core ++ c :: ws) post ->
  is_whitespace c = false -> blank ws ->
  resolve_span s sp = Fine (mk_spanned_source (reported_name s (sp_source sp) name)
     (1 + newlines pre) (1 + newlines pre + newlines (core ++ [c]))
     (if is_ascii c then core ++ [c] else [])).
Proof.
  intros W T D Hc Hw. destruct (get_adjusted_known s sp name content W T) as (bs & Hbs & G).
  rewrite (trimmed_span_text content sp pre core c ws post D Hc Hw) in Hbs.
  inversion Hbs; subst bs. clear Hbs.
  unfold resolve_span. rewrite G, reported_name_eq.
  destruct D as (-> & S1 & S2).
  replace (pre ++ (core ++ c :: ws) ++ post) with (pre ++ (core ++ [c]) ++ ws ++ post)
    by (rewrite <- !app_assoc; reflexivity).
  rewrite runes_text.
  replace (length pre + length core + 1) with (length pre + length (core ++ [c]))
    by (rewrite app_length; simpl; lia).
  rewrite spanned_source_of_lines. simpl sp_start; simpl sp_end.
  replace (pre ++ (core ++ [c]) ++ ws ++ post) with (pre ++ (core ++ c :: ws) ++ post)
    by (rewrite <- !app_assoc; reflexivity).
  destruct (is_ascii c) eqn:A.
  - apply utf8_len_ascii in A. rewrite adj_get_ascii by assumption. reflexivity.
  - rewrite adj_get_nonascii; [reflexivity|]. intros U. apply utf8_len_ascii in U. congruence.
Qed.

Lemma resolve_span_blank s sp name content pre ws post :
  sources_wf s -> source_text s (sp_source sp) name content ->
  designates content sp pre ws post -> blank ws ->
  resolve_span s sp = Fine (mk_spanned_source (reported_name s (sp_source sp) name)
     (1 + newlines pre) (1 + newlines pre + newlines ws) ws).
Proof.
  intros W T D Hw. destruct (get_adjusted_known s sp name content W T) as (bs & Hbs & G).
  rewrite (trimmed_span_blank content sp pre ws post D Hw) in Hbs.
  inversion Hbs; subst bs. clear Hbs.
  unfold resolve_span. rewrite G, reported_name_eq.
  pose proof (designates_get _ _ _ _ _ D) as Get.
  destruct D as (E & S1 & S2).
  destruct sp as [sid st en]; simpl in *. subst st en.
  rewrite (runes_valid sid content pre ws post E).
  subst content. rewrite spanned_source_of_lines. simpl sp_start; simpl sp_end.
  rewrite Get. reflexivity.
Qed.

Lemma byte_to_rune_zero ci sid : byte_to_rune ci (mk_span sid 0 0) = mk_span sid 0 0.
Proof.
  unfold byte_to_rune. simpl.
  assert (Z : partition_point (fun i => i <? 0) ci = 0).
  { apply partition_point_spec; [lia|lia|reflexivity]. }
  now rewrite Z.
Qed.

Lemma str_get_zero s : str_get s 0 0 = Some [].
Proof. apply str_get_spec. exists [], s. auto. Qed.

Lemma spanned_source_of_zero name content sid :
  spanned_source_of name content (mk_span sid 0 0) (mk_span sid 0 0) =
  Fine (mk_spanned_source name 1 1 []).
Proof.
  unfold spanned_source_of. simpl. now rewrite str_get_zero.
Qed.

Lemma resolve_span_invalid s sp name content :
  sources_wf s -> source_text s (sp_source sp) name content ->
  ~ valid_span content sp ->
  resolve_span s sp = Fine (mk_spanned_source (reported_name s (sp_source sp) name) 1 1 []).
Proof.
  intros W T N. destruct (get_adjusted_known s sp name content W T) as (bs & Hbs & G).
  rewrite (trimmed_span_invalid content sp N) in Hbs. inversion Hbs; subst bs.
  unfold resolve_span. rewrite G, reported_name_eq, byte_to_rune_zero.
  apply spanned_source_of_zero.
Qed.

Lemma get_adjusted_unknown s sp :
  sources_wf s -> length (source_id_strings s) <= sp_source sp ->
  exists name ids, source_id_strings s = name :: ids /\
  get_adjusted_source s sp = Fine (root_content s, name, mk_span 0 0 0, mk_span 0 0 0).
Proof.
  intros W L. destruct (wf_root_name s W) as (name & ids & E).
  exists name, ids. split; auto. unfold get_adjusted_source.
  replace (length (source_id_strings s) <=? sp_source sp) with true by (symmetry; apply Nat.leb_le; lia).
  unfold source_id_string. simpl sp_source. rewrite E. simpl.
  assert (V : trimmed_span (root_content s) (mk_span root_source_id 0 0) = Fine (mk_span 0 0 0)).
  { apply (trimmed_span_blank (root_content s) (mk_span root_source_id 0 0) [] [] (root_content s)).
    - repeat split.
    - constructor. }
  rewrite V. now rewrite byte_to_rune_zero.
Qed.

Lemma resolve_span_unknown s sp :
  sources_wf s -> length (source_id_strings s) <= sp_source sp ->
  exists name, nth_error (source_id_strings s) 0 = Some name /\
  resolve_span s sp = Fine (mk_spanned_source (Some name) 1 1 []).
Proof.
  intros W L. destruct (get_adjusted_unknown s sp W L) as (name & ids & E & G).
  exists name. rewrite E. split; auto. unfold resolve_span. rewrite G.
  assert (Z : (sp_source sp =? root_source_id) = false).
  { apply Nat.eqb_neq. unfold root_source_id. rewrite E in L. simpl in L. lia. }
  rewrite Z. apply spanned_source_of_zero.
Qed.

(** Every span of every source falls under one of the cases. *)
Lemma span_cases s sp :
  sources_wf s ->
  length (source_id_strings s) <= sp_source sp \/
  exists name content, source_text s (sp_source sp) name content /\
    (~ valid_span content sp \/
     (exists pre ws post, designates content sp pre ws post /\ blank ws) \/
     (exists pre core c ws post, designates content sp pre (core ++ c :: ws) post /\
        is_whitespace c = false /\ blank ws)).
Proof.
  intros W. destruct (le_lt_dec (length (source_id_strings s)) (sp_source sp)) as [L|L]; [now left|right].
  destruct (nth_error (source_id_strings s) (sp_source sp)) as [name|] eqn:N;
    [|apply nth_error_None in N; lia].
  assert (T : exists content, source_text s (sp_source sp) name content).
  { unfold source_text. rewrite N. destruct (sp_source sp) as [|i] eqn:E.
    - exists (root_content s). auto.
    - pose proof (wf_names s W (S i) name ltac:(lia) N) as P.
      destruct (lookup path_eqb name (included_content s)) as [[id c ci|e|]|]; [eauto|eauto|eauto|congruence]. }
  destruct T as [content T]. exists name, content. split; auto.
  destruct (str_get content (sp_start sp) (sp_end sp)) as [m|] eqn:G.
  - right. apply str_get_spec in G as (pre & post & A & B & C).
    destruct (last_split (fun c => negb (is_whitespace c)) m) as [F|(a & c & ws & -> & Hc & Hw)].
    + left. exists pre, m, post. split; [repeat split; auto|].
      apply Forall_forall. intros x I. apply negb_false_iff. now apply F.
    + right. exists pre, a, c, ws, post. split; [repeat split; auto|]. split.
      * now apply negb_true_iff.
      * apply Forall_forall. intros x I. apply negb_false_iff. now apply Hw.
  - left. intros V. apply valid_span_get in V as [m V]. congruence.
Qed.

Lemma resolve_span_never_panics s sp : sources_wf s -> exists r, resolve_span s sp = Fine r.
Proof.
  intros W. destruct (span_cases s sp W) as [L|(name & content & T & [I|[(pre & ws & post & D & B)|(pre & core & c & ws & post & D & Hc & B)]])].
  - destruct (resolve_span_unknown s sp W L) as (n & _ & E). eauto.
  - eexists. eapply resolve_span_invalid; eauto.
  - eexists. eapply resolve_span_blank; eauto.
  - eexists. eapply resolve_span_text; eauto.
Qed.

(** ** error_source_text *)

Lemma error_text_text s sp name content pre core c ws post :
  sources_wf s -> source_text s (sp_source sp) name content ->
  designates content sp pre (core ++ c :: ws) post ->
  is_whitespace c = false -> blank ws ->
  error_source_text s sp = if is_ascii c then Fine (core ++ [c]) else Panic.
Proof.
  intros W T D Hc Hw. destruct (get_adjusted_known s sp name content W T) as (bs & Hbs & G).
  rewrite (trimmed_span_text content sp pre core c ws post D Hc Hw) in Hbs.
  inversion Hbs; subst bs. clear Hbs.
  unfold error_source_text. rewrite G. destruct D as (-> & _ & _). simpl sp_start; simpl sp_end.
  destruct (is_ascii c) eqn:A.
  - apply utf8_len_ascii in A. rewrite adj_get_ascii by assumption. reflexivity.
  - rewrite adj_get_nonascii; [reflexivity|]. intros U. apply utf8_len_ascii in U. congruence.
Qed.

Lemma error_text_blank s sp name content pre ws post :
  sources_wf s -> source_text s (sp_source sp) name content ->
  designates content sp pre ws post -> blank ws ->
  error_source_text s sp = Fine ws.
Proof.
  intros W T D Hw. destruct (get_adjusted_known s sp name content W T) as (bs & Hbs & G).
  rewrite (trimmed_span_blank content sp pre ws post D Hw) in Hbs.
  inversion Hbs; subst bs. clear Hbs.
  unfold error_source_text. rewrite G. now rewrite (designates_get _ _ _ _ _ D).
Qed.

Lemma error_text_invalid s sp name content :
  sources_wf s -> source_text s (sp_source sp) name content ->
  ~ valid_span content sp -> error_source_text s sp = Fine [].
Proof.
  intros W T N. destruct (get_adjusted_known s sp name content W T) as (bs & Hbs & G).
  rewrite (trimmed_span_invalid content sp N) in Hbs. inversion Hbs; subst bs.
  unfold error_source_text. rewrite G. simpl. now rewrite str_get_zero.
Qed.

Lemma error_text_unknown s sp :
  sources_wf s -> length (source_id_strings s) <= sp_source sp ->
  error_source_text s sp = Fine [].
Proof.
  intros W L. destruct (get_adjusted_unknown s sp W L) as (name & ids & E & G).
  unfold error_source_text. rewrite G. simpl. now rewrite str_get_zero.
Qed.

Lemma error_text_panic_iff s sp :
  sources_wf s ->
  (error_source_text s sp = Panic <->
   exists name content pre core c ws post,
     source_text s (sp_source sp) name content /\
     designates content sp pre (core ++ c :: ws) post /\
     is_whitespace c = false /\ blank ws /\ is_ascii c = false).
Proof.
  intros W. split.
  - intros P. destruct (span_cases s sp W) as [L|(name & content & T & [I|[(pre & ws & post & D & B)|(pre & core & c & ws & post & D & Hc & B)]])].
    + rewrite error_text_unknown in P by assumption. discriminate.
    + erewrite error_text_invalid in P by eauto. discriminate.
    + erewrite error_text_blank in P by eauto. discriminate.
    + exists name, content, pre, core, c, ws, post.
      split; [exact T|]. split; [exact D|]. split; [exact Hc|]. split; [exact B|].
      erewrite error_text_text in P by eauto. destruct (is_ascii c); [discriminate|reflexivity].
  - intros (name & content & pre & core & c & ws & post & T & D & Hc & B & A).
    erewrite error_text_text by eauto. now rewrite A.
Qed.
