(** * Facts about written reports *)
From Coq Require Import String Ascii.
From Coq Require Import List NArith Arith Bool Lia Permutation DecimalString DecimalNat Decimal.
From Verif Require Import Base BaseFacts Text TextFacts Path Sources SpecSources SourcesFacts SyntheticFacts Report SpecReport.
Import ListNotations.

(** ** Labels *)

Lemma end_blanks_unique t a b : without_end_blanks t a -> without_end_blanks t b -> a = b.
Proof.
  assert (X : forall core c ws, is_whitespace c = false -> blank (core ++ c :: ws) -> False).
  { intros core c ws H F. apply Forall_app in F as [_ F]. inversion F; congruence. }
  assert (Y : forall x c ws x' c' ws', x ++ c :: ws = x' ++ c' :: ws' -> is_whitespace c = false -> is_whitespace c' = false ->
     blank ws -> blank ws' -> x ++ [c] = x' ++ [c']).
  { induction x as [|y x IH]; intros c ws [|y' x'] c' ws' Q A B F F'; simpl in *.
    - congruence.
    - injection Q as -> ->. exfalso. apply (X x' c' ws' B F).
    - injection Q as -> <-. exfalso. apply (X x c ws A F').
    - injection Q as -> Q. f_equal. eauto. }
  intros A B. inversion A; subst; inversion B; subst; auto; try (exfalso; eapply X; eassumption).
  eapply Y; [symmetry|..]; eassumption.
Qed.

Lemma end_blanks_prefix t a : without_end_blanks t a -> exists ws, t = a ++ ws.
Proof. intros [x B|core c ws A B]; [exists []; now rewrite app_nil_r|exists ws; now rewrite <- app_assoc]. Qed.

Lemma end_blanks_exists t : exists a, without_end_blanks t a.
Proof.
  induction t as [|c t IH] using rev_ind.
  - exists []. constructor. constructor.
  - destruct (is_whitespace c) eqn:Q.
    + destruct IH as [a IH]. inversion IH; subst.
      * exists (a ++ [c]). constructor. apply Forall_app. split; auto.
      * exists (core ++ [c0]). rewrite <- app_assoc. simpl. constructor; auto. apply Forall_app. split; auto.
    + exists (t ++ [c]). apply (web_text t c []); [exact Q|constructor].
Qed.

Lemma runes_end_blanks content sp pre t text post bs :
  designates content sp pre t post -> without_end_blanks t text -> trimmed_span content sp = Fine bs ->
  byte_to_rune (char_offs 0 content) bs = mk_span (sp_source sp) (length pre) (length pre + length text).
Proof.
  intros D B Q. inversion B as [t' Bl|core c ws Hc Bl]; subst.
  - rewrite (trimmed_span_blank _ _ _ _ _ D Bl) in Q. injection Q as <-. destruct D as (-> & A & Z).
    replace sp with (mk_span (sp_source sp) (blen pre) (blen pre + blen text)) at 1 by (destruct sp; simpl in *; congruence).
    eapply runes_valid; reflexivity.
  - rewrite (trimmed_span_text _ _ _ _ _ _ _ D Hc Bl) in Q. injection Q as <-. destruct D as (-> & _ & _).
    replace (pre ++ (core ++ c :: ws) ++ post) with (pre ++ (core ++ [c]) ++ ws ++ post) by (rewrite <- !app_assoc; reflexivity).
    rewrite runes_text. rewrite app_length. simpl. now rewrite Nat.add_assoc.
Qed.

Lemma label_exists s sp : sources_wf s -> exists name runes, name_and_runes (get_adjusted_source s) sp = Fine (name, runes) /\
  label_for s sp name (sp_start runes) (sp_end runes).
Proof.
  intros W. unfold name_and_runes. destruct (le_lt_dec (length (source_id_strings s)) (sp_source sp)) as [Le|Lt].
  - destruct (get_adjusted_unknown s sp W Le) as (name & ids & Q & ->). exists name. eexists. split; [reflexivity|].
    simpl. apply lf_unknown; auto. now rewrite Q.
  - assert (T : exists name content, source_text s (sp_source sp) name content).
    { destruct (span_cases s sp W) as [?|(name & content & T & _)]; [lia|eauto]. }
    destruct T as (name & content & T). destruct (get_adjusted_known s sp name content W T) as (bs & B & ->).
    exists name. eexists. split; [reflexivity|].
    destruct (str_get content (sp_start sp) (sp_end sp)) as [m|] eqn:G.
    + assert (V : valid_span content sp) by (apply valid_span_get; eauto). destruct V as (pre & t & post & D).
      destruct (end_blanks_exists t) as [text Bl]. rewrite (runes_end_blanks _ _ _ _ _ _ _ D Bl B). simpl. econstructor; eauto.
    + assert (V : ~ valid_span content sp) by (intros V; apply valid_span_get in V as [m V]; congruence).
      rewrite (trimmed_span_invalid _ _ V) in B. injection B as <-. rewrite byte_to_rune_zero. simpl. eapply lf_invalid; eauto.
Qed.

(** ** Drawings *)
Section Drawings.
  Context (adjusted : span -> outcome (str * str * span * span)) (where_ : span -> str -> nat -> nat -> Prop).
  Context (OK : forall sp, exists name runes, name_and_runes adjusted sp = Fine (name, runes) /\ where_ sp name (sp_start runes) (sp_end runes)).

  Lemma labels_exist c prefix l : exists ls, make_labels adjusted c prefix l = Fine ls /\
    Forall2 (fun '(name, sp) x => label_of where_ (prefix ++ name) c sp x) l ls.
  Proof.
    induction l as [|[text sp] l (ls & E & F)]; simpl; [eauto|].
    unfold make_label. destruct (OK sp) as (name & runes & -> & X). rewrite E. eexists. split; [reflexivity|].
    constructor; auto. split; [exact X|]. auto.
  Qed.

  Lemma drawing_exists n : exists d, draw_report adjusted n = Fine d /\ asked where_ n d.
  Proof.
    unfold draw_report. destruct (OK (nt_span n)) as (name & runes & -> & X).
    destruct (labels_exist Yellow (lit "in this ") (contexts n)) as (cs & -> & Fc).
    destruct (labels_exist Yellow [] (related n)) as (rs & -> & Fr).
    eexists. split; [reflexivity|]. constructor; simpl; auto. eexists _, cs, rs. split; [reflexivity|].
    split; [|split; auto]. split; [exact X|]. simpl. destruct (nt_kind n); auto.
  Qed.

  Context {W E : Type} (draw : drawing -> list (str * str) -> W -> W * option E) (put : str -> W -> W * option E).

  Lemma written_with texts l : exists ds, Forall2 (fun a d => asked where_ (an_notice a) d) l ds /\
    forall w, write_all_with draw put adjusted (Fine texts) w l = Fine (perform draw put texts (all_actions l ds) w).
  Proof.
    induction l as [|a l (ds & F & H)]; [exists []; split; [constructor|reflexivity]|].
    destruct (drawing_exists (an_notice a)) as (d & D & Q). exists (d :: ds). split; [constructor; auto|]. intros w.
    cbn [write_all_with]. unfold write_report_with. rewrite D. cbn [all_actions]. unfold actions_of.
    simpl. destruct (draw d texts w) as [w1 [e|]]; [reflexivity|].
    destruct (an_annotation a) as [t|]; simpl.
    - change newline with 10%N. destruct (put (t ++ [10%N]) w1) as [w2 [e|]]; [reflexivity|apply H].
    - apply H.
  Qed.
End Drawings.

(** ** Texts *)

Lemma shown_distinct texts name c : NoDup (map fst texts) -> In (name, c) texts -> shown texts name c.
Proof.
  intros N H. apply in_split in H as (l1 & l2 & ->). exists l1, l2. split; auto.
  rewrite map_app in N. simpl in N. apply NoDup_remove_2 in N. intros X. apply N. apply in_or_app. auto.
Qed.

Lemma shown_functional texts name c c' : shown texts name c -> shown texts name c' -> c = c'.
Proof.
  intros (l1 & l2 & E & N) (m1 & m2 & E' & N'). subst texts. revert m1 E'. induction l1 as [|x l1 IH]; intros [|y m1] Q; simpl in Q.
  - congruence.
  - injection Q as <- ->. exfalso. apply N. rewrite map_app. apply in_or_app. simpl. auto.
  - injection Q as -> <-. exfalso. apply N'. rewrite map_app. apply in_or_app. simpl. auto.
  - injection Q as -> Q. eauto.
Qed.

(** ** Numbers *)
Definition digit (c : char) : Prop := (48 <= c <= 57)%N.

Lemma uint_digits u : Forall digit (lit (NilEmpty.string_of_uint u)).
Proof. unfold lit. induction u; simpl; constructor; auto; unfold digit; simpl; lia. Qed.

Lemma show_nat_digits n : Forall digit (show_nat n).
Proof. apply uint_digits. Qed.

Lemma lit_inj a b : lit a = lit b -> a = b.
Proof.
  unfold lit. revert b. induction a as [|x a IH]; intros [|y b] Q; simpl in Q; try discriminate; auto.
  injection Q as Q1 Q2. apply (f_equal ascii_of_N) in Q1. rewrite !ascii_N_embedding in Q1. subst. f_equal. auto.
Qed.

Lemma show_nat_inj a b : show_nat a = show_nat b -> a = b.
Proof.
  unfold show_nat. intros Q. apply lit_inj in Q. apply (f_equal NilEmpty.uint_of_string) in Q. rewrite !NilEmpty.usu in Q.
  injection Q as Q. now apply DecimalNat.Unsigned.to_uint_inj in Q.
Qed.

Lemma digits_then a b c c' x y : Forall digit a -> Forall digit b -> ~ digit c -> ~ digit c' ->
  a ++ c :: x = b ++ c' :: y -> a = b /\ c :: x = c' :: y.
Proof.
  intros A. revert b. induction A as [|d a D A IH]; intros b B N N' Q; destruct B as [|d' b D' B]; simpl in Q.
  - auto.
  - injection Q as -> _. tauto.
  - injection Q as <- _. tauto.
  - injection Q as -> Q. destruct (IH b B N N' Q) as [-> ->]. auto.
Qed.
