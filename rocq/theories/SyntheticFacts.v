(** * Proofs about synthetic spans *)
From Coq Require Import List NArith Arith Bool Lia.
From Verif Require Import Base BaseFacts Text TextFacts Path Sources SpecSources SourcesFacts.
Import ListNotations.

Lemma create_all_app sy a b :
  create_all sy (a ++ b) =
  let '(s1, y1) := create_all sy a in
  let '(s2, y2) := create_all y1 b in (s1 ++ s2, y2).
Proof.
  revert sy; induction a as [|[n f] a IH]; intros sy; simpl.
  - destruct (create_all sy b); reflexivity.
  - destruct (create_synthetic_span sy n f) as [sp y]. rewrite IH.
    destruct (create_all y a) as [s1 y1]. destruct (create_all y1 b) as [s2 y2]. reflexivity.
Qed.

Lemma text_under_app n a b : text_under n (a ++ b) = text_under n a ++ text_under n b.
Proof.
  induction a as [|[m f] a IH]; simpl; auto. now rewrite IH, app_assoc.
Qed.

Lemma char_offs_ascii (b : nat) s : ascii_only s -> blen s = length s.
Proof.
  clear b. induction 1 as [|c s H F IH]; simpl; auto.
  apply utf8_len_ascii in H. lia.
Qed.

(** Names in order of first use. *)
Definition names_of (calls : list (str * str)) (names : list str) : Prop :=
  NoDup names /\ forall n, In n names <-> In n (map fst calls).

Record sy_inv (s : sources) (calls : list (str * str)) (sy : synthetic) : Prop := {
  inv_sources : sy_sources sy = s;
  inv_base : sy_base_id sy = length (source_id_strings s);
  inv_names : names_of calls (sy_id_strings sy);
  inv_none : forall n, ~ In n (map fst calls) -> lookup str_eqb n (sy_content sy) = None;
  inv_some : forall i n, nth_error (sy_id_strings sy) i = Some n ->
     exists ci, lookup str_eqb n (sy_content sy) =
                Some (length (source_id_strings s) + i, text_under n calls, ci) /\
       length ci = length (text_under n calls) /\
       (forall before last, calls = before ++ last -> ascii_only (text_under n before) ->
          (text_under n last = [] \/ exists f tl, last = (n, f) :: tl /\ ~ In n (map fst tl)) ->
          ci = char_offs 0 (text_under n calls))
}.

Lemma text_under_notin n calls : ~ In n (map fst calls) -> text_under n calls = [].
Proof.
  induction calls as [|[m f] c IH]; simpl; auto. intros H.
  destruct (str_eqb m n) eqn:E; [apply str_eqb_eq in E; tauto|]. rewrite IH; tauto.
Qed.

(** If the text up to the last contribution is ASCII then splitting points
    agree; used to advance the invariant. *)
Lemma ascii_only_app a b : ascii_only (a ++ b) <-> ascii_only a /\ ascii_only b.
Proof. apply Forall_app. Qed.

Lemma sy_inv_new s : sy_inv s [] (synthetic_new s).
Proof.
  constructor; simpl; auto.
  - split; [constructor|]. simpl. tauto.
  - intros i n H. destruct i; discriminate.
Qed.

Lemma nth_error_snoc {A} (l : list A) x i y :
  nth_error (l ++ [x]) i = Some y -> (nth_error l i = Some y) \/ (i = length l /\ y = x).
Proof.
  destruct (lt_dec i (length l)) as [L|L].
  - rewrite nth_error_app1 by assumption. auto.
  - rewrite nth_error_app2 by lia. intros H. right.
    destruct (i - length l) as [|k] eqn:E; simpl in H.
    + inversion H. split; [lia|auto].
    + destruct k; discriminate.
Qed.

Lemma split_snoc {A} (calls : list A) x before last :
  calls ++ [x] = before ++ last ->
  (last = [] /\ before = calls ++ [x]) \/ exists last', last = last' ++ [x] /\ calls = before ++ last'.
Proof.
  destruct last as [|y last _] using rev_ind.
  - rewrite app_nil_r. intros ->. auto.
  - rewrite app_assoc. intros E. apply app_inj_tail in E as [-> ->]. right. eauto.
Qed.

Lemma sy_inv_step s calls sy n f sp sy' :
  sy_inv s calls sy -> create_synthetic_span sy n f = (sp, sy') ->
  sy_inv s (calls ++ [(n, f)]) sy' /\
  exists i, nth_error (sy_id_strings sy') i = Some n /\
    sp = mk_span (length (source_id_strings s) + i) (blen (text_under n calls))
                 (blen (text_under n calls) + blen f) /\
    (forall j m, nth_error (sy_id_strings sy) j = Some m -> nth_error (sy_id_strings sy') j = Some m).
Proof.
  intros [I1 I2 I3 I4 I5] H.
  pose proof str_eqb_equiv as SE.
  assert (TU : forall m, text_under m (calls ++ [(n, f)]) =
                text_under m calls ++ (if str_eqb n m then f else [])).
  { intros m. rewrite text_under_app. simpl. now rewrite app_nil_r. }
  unfold create_synthetic_span in H.
  destruct (in_dec (list_eq_dec N.eq_dec) n (map fst calls)) as [In_|NotIn].
  - pose proof In_ as In2. apply (proj2 I3) in In2. apply In_nth_error in In2 as [i Hi].
    destruct (I5 i n Hi) as (ci & Lk & Len & Asc).
    rewrite Lk in H. inversion H; subst sp sy'; clear H. split.
    + constructor; simpl; auto.
      * destruct I3 as [ND M]. split; auto. intros m. rewrite M, map_app, in_app_iff. simpl.
        split; [auto|]. intros [A|[<-|[]]]; auto.
      * intros m Hm. rewrite (lookup_insert _ SE).
        rewrite map_app, in_app_iff in Hm. simpl in Hm.
        destruct (str_eqb m n) eqn:E; [apply str_eqb_eq in E; subst; tauto|].
        apply I4. tauto.
      * intros j m Hj. rewrite (lookup_insert _ SE). rewrite TU.
        destruct (str_eqb m n) eqn:E.
        -- apply str_eqb_eq in E; subst m. rewrite str_eqb_refl.
           assert (i = j) by (apply (NoDup_nth_error (sy_id_strings sy)); [apply I3|apply nth_error_Some; congruence|congruence]).
           subst j. eexists; split; [reflexivity|]. split.
           { rewrite !app_length, char_offs_length. lia. }
           intros before last E A L.
           (* the last contribution is this very call, so all of [calls] is ASCII *)
           assert (AllA : ascii_only (text_under n calls)).
           { apply split_snoc in E as [[-> ->]|(last' & -> & ->)].
             - rewrite TU, str_eqb_refl in A. apply ascii_only_app in A. tauto.
             - rewrite text_under_app. apply ascii_only_app. split; auto.
               destruct L as [L|(f' & tl & L & NI)].
               + rewrite text_under_app in L. apply app_eq_nil in L as [-> _]. constructor.
               + destruct last' as [|[a b] last'].
                 * constructor.
                 * exfalso. simpl in L. inversion L; subst. apply NI.
                   rewrite map_app, in_app_iff. right. now left. }
           assert (ci = char_offs 0 (text_under n calls)).
           { apply (Asc calls []); [now rewrite app_nil_r|assumption|now left]. }
           subst ci. rewrite char_offs_app, char_offs_length, (char_offs_ascii 0 _ AllA). reflexivity.
        -- assert (E' : str_eqb n m = false) by (rewrite (proj1 (proj2 SE)); exact E).
           rewrite E', app_nil_r.
           destruct (I5 j m Hj) as (ci2 & Lk2 & Len2 & Asc2).
           exists ci2. split; [assumption|]. split; [assumption|].
           intros before last Eq A L.
           apply split_snoc in Eq as [[-> ->]|(last' & -> & ->)].
           ++ rewrite TU, E', app_nil_r in A. apply (Asc2 calls []); [now rewrite app_nil_r|auto|now left].
           ++ apply (Asc2 before last'); auto.
              destruct L as [L|(f' & tl & L & NI)].
              ** left. rewrite text_under_app in L. apply app_eq_nil in L. tauto.
              ** destruct last' as [|[a b] last'].
                 --- simpl in L. inversion L; subst. rewrite str_eqb_refl in E. discriminate.
                 --- simpl in L. inversion L; subst. right. exists f', last'. split; auto.
                     intros Q. apply NI. rewrite map_app, in_app_iff. now left.
    + exists i. simpl. auto.
  - rewrite I4 in H by assumption. inversion H; subst sp sy'; clear H. split.
    + constructor; simpl; auto.
      * destruct I3 as [ND M]. split.
        { rewrite <- (app_nil_r (sy_id_strings sy ++ [n])).
          rewrite <- app_assoc. apply NoDup_Add with (a := n) (l := sy_id_strings sy).
          - rewrite <- (app_nil_r (sy_id_strings sy)) at 1. apply Add_app.
          - split; auto. rewrite M. exact NotIn. }
        intros m. rewrite map_app, !in_app_iff, M. simpl. tauto.
      * intros m Hm. rewrite (lookup_insert _ SE).
        rewrite map_app, in_app_iff in Hm. simpl in Hm.
        destruct (str_eqb m n) eqn:E; [apply str_eqb_eq in E; subst; tauto|].
        apply I4. tauto.
      * intros j m Hj. rewrite (lookup_insert _ SE), TU.
        apply nth_error_snoc in Hj as [Hj|[-> ->]].
        -- assert (Hm : In m (map fst calls)) by (apply (proj2 I3); eapply nth_error_In; eauto).
           assert (E : str_eqb m n = false) by (apply str_eqb_neq; intros ->; tauto).
           assert (E' : str_eqb n m = false) by (rewrite (proj1 (proj2 SE)); exact E).
           rewrite E, E', app_nil_r.
           destruct (I5 j m Hj) as (ci2 & Lk2 & Len2 & Asc2).
           exists ci2. split; [assumption|]. split; [assumption|].
           intros before last Eq A L.
           apply split_snoc in Eq as [[-> ->]|(last' & -> & ->)].
           ++ rewrite TU, E', app_nil_r in A. apply (Asc2 calls []); [now rewrite app_nil_r|auto|now left].
           ++ apply (Asc2 before last'); auto.
              destruct L as [L|(f' & tl & L & NI)].
              ** left. rewrite text_under_app in L. apply app_eq_nil in L. tauto.
              ** destruct last' as [|[a b] last'].
                 --- simpl in L. inversion L; subst. rewrite str_eqb_refl in E. discriminate.
                 --- simpl in L. inversion L; subst. right. exists f', last'. split; auto.
                     intros Q. apply NI. rewrite map_app, in_app_iff. now left.
        -- rewrite !str_eqb_refl, (text_under_notin n calls NotIn). simpl.
           eexists. split; [rewrite I2; rewrite Nat.add_comm; reflexivity|].
           split; [apply char_offs_length|]. reflexivity.
    + exists (length (sy_id_strings sy)). simpl. repeat split.
      * rewrite nth_error_app2 by lia. now rewrite Nat.sub_diag.
      * rewrite (text_under_notin n calls NotIn). simpl. rewrite I2. f_equal. lia.
      * intros j m Hj. rewrite nth_error_app1; auto. apply nth_error_Some. congruence.
Qed.

(** All calls at once. *)
Lemma sy_inv_all s calls : forall sps sy,
  create_all (synthetic_new s) calls = (sps, sy) ->
  sy_inv s calls sy /\ length sps = length calls /\
  forall before n f after, calls = before ++ (n, f) :: after ->
    exists i sp, nth_error sps (length before) = Some sp /\
      nth_error (sy_id_strings sy) i = Some n /\
      sp = mk_span (length (source_id_strings s) + i) (blen (text_under n before))
                   (blen (text_under n before) + blen f).
Proof.
  induction calls as [|[n f] calls IH] using rev_ind; intros sps sy H.
  - inversion H; subst. split; [apply sy_inv_new|]. split; auto.
    intros before n f after E. destruct before; discriminate.
  - rewrite create_all_app in H.
    destruct (create_all (synthetic_new s) calls) as [s1 y1].
    destruct (IH s1 y1 eq_refl) as (Inv & Len & Sp). clear IH.
    simpl in H. destruct (create_synthetic_span y1 n f) as [sp y2] eqn:C.
    inversion H; subst sps sy; clear H.
    destruct (sy_inv_step s calls y1 n f sp y2 Inv C) as (Inv2 & i & Hi & Hsp & Keep).
    split; [assumption|]. split; [rewrite !app_length; simpl; lia|].
    intros before m g after E.
    apply split_snoc in E as [[E _]|(last' & E & ->)]; [discriminate|].
    destruct last' as [|[a b] last'].
    + simpl in E. inversion E; subst. rewrite app_nil_r in *. exists i.
      eexists. split; [|split; [exact Hi|reflexivity]].
      rewrite nth_error_app2 by lia. rewrite Len, Nat.sub_diag. reflexivity.
    + simpl in E. inversion E; subst.
      destruct (Sp before a b last' eq_refl) as (j & sp' & A & B & D).
      exists j, sp'. repeat split; auto.
      rewrite nth_error_app1; auto. apply nth_error_Some. congruence.
Qed.

(** Resolution of one of the created spans. *)
Lemma sy_adjusted s calls sps sy before n f after sp :
  create_all (synthetic_new s) calls = (sps, sy) ->
  calls = before ++ (n, f) :: after ->
  nth_error sps (length before) = Some sp ->
  designates (text_under n calls) sp (text_under n before) f (text_under n after) /\
  exists ci bs, trimmed_span (text_under n calls) sp = Fine bs /\
    sy_get_adjusted_source sy sp = Fine (text_under n calls, n, bs, byte_to_rune ci bs) /\
    length ci = length (text_under n calls) /\
    (ascii_only (text_under n before) -> ~ In n (map fst after) -> ci = char_offs 0 (text_under n calls)) /\
    (ascii_only (text_under n calls) -> ci = char_offs 0 (text_under n calls)).
Proof.
  intros C E Hsp. destruct (sy_inv_all s calls sps sy C) as (Inv & Len & Sp).
  destruct (Sp before n f after E) as (i & sp' & A & B & D).
  rewrite Hsp in A. injection A as A. rewrite <- A in D. clear A.
  split.
  { subst. repeat split.
    rewrite text_under_app. simpl. rewrite str_eqb_refl. reflexivity. }
  destruct (inv_some _ _ _ Inv i n B) as (ci & Lk & LenC & Asc).
  destruct (trimmed_span_never_panics (text_under n calls) sp) as [bs Hbs].
  exists ci, bs. split; [assumption|]. split; [|split; [assumption|]].
  - unfold sy_get_adjusted_source. rewrite D. simpl sp_source.
    rewrite (inv_base _ _ _ Inv).
    assert (Lt : i < length (sy_id_strings sy)) by (apply nth_error_Some; congruence).
    replace (length (source_id_strings s) <=? length (source_id_strings s) + i) with true
      by (symmetry; apply Nat.leb_le; lia).
    replace (length (source_id_strings s) + i <? length (source_id_strings s) + length (sy_id_strings sy))
      with true by (symmetry; apply Nat.ltb_lt; lia).
    simpl. replace (length (source_id_strings s) + i - length (source_id_strings s)) with i by lia.
    rewrite B, Lk. rewrite D in Hbs. rewrite Hbs. reflexivity.
  - split.
    + intros AB NI. apply (Asc before ((n, f) :: after)); auto. right. eauto.
    + intros AA. apply (Asc calls []); [now rewrite app_nil_r|assumption|now left].
Qed.

Definition sy_lines_known (n : str) (before after calls : list (str * str)) : Prop :=
  ascii_only (text_under n calls) \/
  (ascii_only (text_under n before) /\ ~ In n (map fst after)).

Lemma sy_resolve_text s calls sps sy before n f after sp core c ws :
  create_all (synthetic_new s) calls = (sps, sy) ->
  calls = before ++ (n, f) :: after ->
  nth_error sps (length before) = Some sp ->
  f = core ++ c :: ws -> is_whitespace c = false -> blank ws ->
  sy_error_source_text sy sp = (if is_ascii c then Fine (core ++ [c]) else Panic) /\
  (exists l1 l2, sy_resolve_span sy sp =
     Fine (mk_spanned_source (Some n) l1 l2 (if is_ascii c then core ++ [c] else [])) /\
     (sy_lines_known n before after calls ->
        l1 = 1 + newlines (text_under n before) /\
        l2 = 1 + newlines (text_under n before) + newlines (core ++ [c]))).
Proof.
  intros C E Hsp F Hc Hw.
  destruct (sy_adjusted s calls sps sy before n f after sp C E Hsp) as (D & ci & bs & Hbs & G & Len & K1 & K2).
  subst f.
  rewrite (trimmed_span_text _ _ _ _ _ _ _ D Hc Hw) in Hbs. inversion Hbs; subst bs; clear Hbs.
  split.
  - unfold sy_error_source_text. rewrite G. destruct D as (-> & _ & _). simpl sp_start; simpl sp_end.
    destruct (is_ascii c) eqn:A.
    + apply utf8_len_ascii in A. rewrite adj_get_ascii by assumption. reflexivity.
    + rewrite adj_get_nonascii; [reflexivity|]. intros U. apply utf8_len_ascii in U. congruence.
  - unfold sy_resolve_span. rewrite G.
    set (pre := text_under n before) in *. set (post := text_under n after) in *.
    assert (Get : str_get (text_under n calls) (blen pre) (adj_end pre core c) =
                  if is_ascii c then Some (core ++ [c]) else None).
    { destruct D as (-> & _ & _). destruct (is_ascii c) eqn:A.
      - apply utf8_len_ascii in A. now rewrite adj_get_ascii.
      - apply adj_get_nonascii. intros U. apply utf8_len_ascii in U. congruence. }
    assert (Mono : sp_end (byte_to_rune ci (mk_span (sp_source sp) (blen pre) (adj_end pre core c))) <?
                   sp_start (byte_to_rune ci (mk_span (sp_source sp) (blen pre) (adj_end pre core c))) = false).
    { apply Nat.ltb_ge. simpl. apply partition_point_mono. intros i I.
      apply Nat.ltb_lt in I. apply Nat.ltb_lt. unfold adj_end. lia. }
    unfold spanned_source_of. rewrite Mono. cbv zeta. cbn [sp_start sp_end].
    rewrite Get. eexists _, _. split.
    { f_equal. f_equal. destruct (is_ascii c); reflexivity. }
    intros K. assert (Kc : ci = char_offs 0 (text_under n calls)).
    { destruct K as [K|[Ka Kb]]; auto. }
    rewrite Kc. destruct D as (Dc & _ & _). rewrite Dc.
    replace (pre ++ (core ++ c :: ws) ++ post) with (pre ++ (core ++ [c]) ++ ws ++ post)
      by (rewrite <- !app_assoc; reflexivity).
    rewrite runes_text. simpl sp_start; simpl sp_end.
    rewrite !newlines_count, firstn_app_exact, skipn_app_exact.
    replace (length pre + length core + 1 - length pre) with (length (core ++ [c]))
      by (rewrite app_length; simpl; lia).
    rewrite firstn_app_exact. split; lia.
Qed.

Lemma sy_resolve_blank s calls sps sy before n f after sp :
  create_all (synthetic_new s) calls = (sps, sy) ->
  calls = before ++ (n, f) :: after ->
  nth_error sps (length before) = Some sp -> blank f ->
  sy_error_source_text sy sp = Fine f /\
  exists l1 l2, sy_resolve_span sy sp = Fine (mk_spanned_source (Some n) l1 l2 f).
Proof.
  intros C E Hsp Hw.
  destruct (sy_adjusted s calls sps sy before n f after sp C E Hsp) as (D & ci & bs & Hbs & G & Len & K1 & K2).
  rewrite (trimmed_span_blank _ _ _ _ _ D Hw) in Hbs. inversion Hbs; subst bs; clear Hbs.
  pose proof (designates_get _ _ _ _ _ D) as Get.
  split.
  - unfold sy_error_source_text. now rewrite G, Get.
  - unfold sy_resolve_span. rewrite G. unfold spanned_source_of.
    assert (Mono : sp_end (byte_to_rune ci sp) <? sp_start (byte_to_rune ci sp) = false).
    { apply Nat.ltb_ge. simpl. apply partition_point_mono. intros i I.
      apply Nat.ltb_lt in I. apply Nat.ltb_lt. destruct D as (_ & -> & ->) in I |- *. lia. }
    rewrite Mono, Get. eauto.
Qed.

(** Sources which are not synthetic are looked up unchanged. *)
Lemma sy_get_adjusted_old s calls sps sy sp :
  create_all (synthetic_new s) calls = (sps, sy) ->
  sp_source sp < length (source_id_strings s) ->
  sy_get_adjusted_source sy sp = get_adjusted_source s sp.
Proof.
  intros C L. destruct (sy_inv_all s calls sps sy C) as (Inv & _ & _).
  unfold sy_get_adjusted_source. rewrite (inv_base _ _ _ Inv), (inv_sources _ _ _ Inv).
  replace (length (source_id_strings s) <=? sp_source sp) with false by (symmetry; apply Nat.leb_gt; lia).
  reflexivity.
Qed.
