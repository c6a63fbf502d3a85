(** * Facts about the token rules *)
From Coq Require Import String Ascii.
From Coq Require Import List NArith Arith Bool Lia.
From Verif Require Import Base BaseFacts Path Types SpecTypes TypesFacts Options SpecOptions OptionsFacts
  Token Regex SpecRegex RegexFacts LexPost SpecLex LexFacts Lexer SpecLexer.
Import ListNotations.
Local Open Scope nat_scope.

(** ** Languages of the regex notation *)

Lemma m_seq_iff a b s : matches (R_Seq a b) s <-> exists t u, s = t ++ u /\ matches a t /\ matches b u.
Proof. split; [apply matches_seq_inv|]. intros (t & u & -> & A & B). now constructor. Qed.

Lemma m_char c s : matches (r_char c) s <-> s = [c].
Proof.
  unfold r_char. rewrite matches_class_inv. split.
  - intros (x & -> & H). apply N.eqb_eq in H as ->. reflexivity.
  - intros ->. exists c. split; [reflexivity|apply N.eqb_refl].
Qed.

Lemma m_char_seq c r s : matches (R_Seq (r_char c) r) s <-> exists t, s = c :: t /\ matches r t.
Proof.
  rewrite m_seq_iff. split.
  - intros (t & u & -> & A & B). apply m_char in A as ->. exists u. auto.
  - intros (t & -> & B). exists [c], t. rewrite m_char. auto.
Qed.

Lemma m_class_seq p r s : matches (R_Seq (R_Class p) r) s <-> exists c t, s = c :: t /\ p c = true /\ matches r t.
Proof.
  rewrite m_seq_iff. split.
  - intros (t & u & -> & A & B). apply matches_class_inv in A as (c & -> & P). exists c, u. auto.
  - intros (c & t & -> & P & B). exists [c], t. rewrite matches_class_inv. eauto.
Qed.

Lemma m_str l : forall s, matches (r_str l) s <-> s = l.
Proof.
  induction l as [|c l IH]; intros s; [apply matches_eps_inv|].
  destruct l as [|d l]; [apply m_char|]. change (r_str (c :: d :: l)) with (R_Seq (r_char c) (r_str (d :: l))).
  rewrite m_char_seq. split; [intros (t & -> & H); apply IH in H as ->; reflexivity|].
  intros ->. exists (d :: l). split; [reflexivity|]. now apply IH.
Qed.

Lemma m_star_class p s : matches (R_Star (R_Class p)) s <-> Forall (fun c => p c = true) s.
Proof.
  split.
  - induction s as [|c s IH]; [constructor|]. intros H. apply star_cons in H as (t & u & -> & A & B).
    apply matches_class_inv in A as (x & E & P). injection E as -> ->. constructor; auto.
  - induction 1 as [|c s P F IH]; [constructor|]. change (c :: s) with ([c] ++ s). constructor; auto. now constructor.
Qed.

Lemma m_star_concat r s : matches (R_Star r) s <-> exists l, s = concat l /\ Forall (matches r) l.
Proof.
  split.
  - intros H. remember (R_Star r) as q eqn:Q. induction H; try discriminate.
    + exists []. auto.
    + injection Q as ->. destruct (IHmatches2 eq_refl) as (l & -> & F). exists (s :: l). auto.
  - intros (l & -> & F). induction F; simpl; constructor; auto.
Qed.

Lemma m_plus_class p s : matches (r_plus (R_Class p)) s <-> s <> [] /\ Forall (fun c => p c = true) s.
Proof.
  unfold r_plus. rewrite m_class_seq. split.
  - intros (c & t & -> & P & M). apply m_star_class in M. split; [discriminate|constructor; auto].
  - intros [N F]. destruct s as [|c s]; [congruence|]. inversion F; subst. exists c, s. rewrite m_star_class. auto.
Qed.

Lemma m_plus_concat r s : matches (r_plus r) s <-> exists x l, s = x ++ concat l /\ Forall (matches r) (x :: l).
Proof.
  unfold r_plus. rewrite m_seq_iff. split.
  - intros (t & u & -> & A & B). apply m_star_concat in B as (l & -> & F). exists t, l. auto.
  - intros (x & l & -> & F). inversion F; subst. exists x, (concat l). rewrite m_star_concat. eauto.
Qed.

Lemma m_opt r s : matches (r_opt r) s <-> s = [] \/ matches r s.
Proof. unfold r_opt. rewrite matches_alt_inv, matches_eps_inv. tauto. Qed.

Lemma m_rep_class p n : forall s, matches (r_rep n (R_Class p)) s <-> List.length s = n /\ Forall (fun c => p c = true) s.
Proof.
  induction n as [|n IH]; intros s.
  - cbn [r_rep]. rewrite matches_eps_inv. split; [intros ->; auto|]. intros [H _]. now apply length_zero_iff_nil.
  - assert (E : matches (r_rep (S n) (R_Class p)) s <-> matches (R_Seq (R_Class p) (r_rep n (R_Class p))) s).
    { destruct n as [|n]; [|reflexivity]. cbn [r_rep]. rewrite m_class_seq, matches_class_inv. split.
      - intros (c & -> & P). exists c, []. rewrite matches_eps_inv. auto.
      - intros (c & t & -> & P & M). apply matches_eps_inv in M as ->. eauto. }
    rewrite E, m_class_seq. split.
    + intros (c & t & -> & P & M). apply IH in M as [L F]. simpl. auto.
    + intros [L F]. destruct s as [|c s]; [discriminate|]. inversion F; subst. exists c, s. rewrite IH. auto.
Qed.

Lemma in_set_spec l c : in_set l c = true <-> In c l.
Proof.
  unfold in_set. induction l as [|d l IH]; simpl; [split; [discriminate|tauto]|].
  rewrite orb_true_iff, IH, N.eqb_eq. split; intros [H|H]; auto.
Qed.

(** ** Digits *)

Lemma num_snoc ds c : decimal_value (ds ++ [c]) = (decimal_value ds * 10 + (c - 48))%N.
Proof. unfold decimal_value. now rewrite fold_left_app. Qed.

Lemma num_bound ds : Forall digit ds -> (decimal_value ds < 10 ^ N.of_nat (List.length ds))%N.
Proof.
  induction ds as [|c ds IH] using rev_ind; [reflexivity|]. intros F. apply Forall_app in F as [F G].
  inversion G as [|? ? D]; subst. specialize (IH F). rewrite num_snoc, app_length. cbn [List.length].
  rewrite Nat.add_1_r, Nnat.Nat2N.inj_succ, N.pow_succ_r'. unfold digit in D. lia.
Qed.

Lemma num_small k ds b : Forall digit ds -> List.length ds = k -> (10 ^ N.of_nat k <= b)%N -> (decimal_value ds < b)%N.
Proof. intros F <- L. pose proof (num_bound ds F). lia. Qed.

(** ** The calendar *)

Lemma mod_zero_iff a y : a <> 0%N -> (y mod a =? 0)%N = true <-> exists k, y = (a * k)%N.
Proof. intros A. rewrite N.eqb_eq. apply N.mod_divides; auto. Qed.

Lemma leap_year_spec y : leap_year y = true <-> leap y.
Proof.
  unfold leap_year, leap. rewrite andb_true_iff, orb_true_iff, negb_true_iff, !mod_zero_iff by discriminate.
  rewrite <- (mod_zero_iff 100) by discriminate. destruct (y mod 100 =? 0)%N; intuition congruence.
Qed.

Lemma month_has_days y m n : month_has y m n -> days_in_month y m = n.
Proof.
  destruct 1 as [m M|m M|L|L]; unfold days_in_month.
  - simpl in M. repeat (destruct M as [<-|M]; [reflexivity|]). destruct M.
  - simpl in M. repeat (destruct M as [<-|M]; [reflexivity|]). destruct M.
  - apply leap_year_spec in L. rewrite L. reflexivity.
  - destruct (leap_year y) eqn:Q; [|reflexivity]. now apply leap_year_spec in Q.
Qed.

Lemma days_month_has y m : (1 <= m <= 12)%N -> month_has y m (days_in_month y m).
Proof.
  intros M. assert (D : In m [1; 2; 3; 4; 5; 6; 7; 8; 9; 10; 11; 12]%N) by (simpl; lia).
  simpl in D. repeat (destruct D as [<-|D]; [try (apply m31; simpl; tauto); try (apply m30; simpl; tauto)|]); [|easy].
  unfold days_in_month. simpl. destruct (leap_year y) eqn:L; [apply m29; now apply leap_year_spec|].
  apply m28. rewrite <- leap_year_spec. congruence.
Qed.

Lemma month_has_range y m n : month_has y m n -> (1 <= m <= 12)%N.
Proof. destruct 1 as [m M|m M| |]; simpl in *; lia. Qed.

Lemma from_calendar_date_spec y m d : (1 <= m <= 12)%N ->
  (calendar_date y m d /\ from_calendar_date y m d = Some (mk_date y m d)) \/
  (~ calendar_date y m d /\ from_calendar_date y m d = None).
Proof.
  intros M. unfold from_calendar_date. destruct ((1 <=? d)%N && (d <=? days_in_month y m)%N) eqn:Q; [left|right]; split; auto.
  - apply andb_true_iff in Q as [A B]. apply N.leb_le in A, B. exists (days_in_month y m). split; [now apply days_month_has|lia].
  - intros (n & H & R). apply month_has_days in H. subst n. apply andb_false_iff in Q as [Q|Q]; apply N.leb_gt in Q; lia.
Qed.

Lemma from_hms_spec h m s : 
  (time_of_day h m s /\ from_hms h m s = Some (mk_time h m s)) \/ (~ time_of_day h m s /\ from_hms h m s = None).
Proof.
  unfold from_hms, time_of_day. destruct ((h <? 24)%N && (m <? 60)%N && (s <? 60)%N) eqn:Q; [left|right]; split; auto.
  - rewrite !andb_true_iff, !N.ltb_lt in Q. tauto.
  - intros (A & B & C). apply N.ltb_lt in A, B, C. now rewrite A, B, C in Q.
Qed.

Section Env.
  Context (E : lexer_env) (UO : unicode_ok (le_unicode E)).
  Let U := le_unicode E.
  Notation decimal_digit := (decimal_digit E).
  Notation digits := (digits E).

  Lemma ascii_decimal_digit c : (c < 128)%N -> decimal_digit c -> digit c.
  Proof.
    intros A D. unfold SpecLexer.decimal_digit in D. destruct (UO c) as (_ & _ & _ & _ & _ & _ & X); [now apply N.ltb_lt|].
    rewrite X in D. now apply is_digit_spec.
  Qed.

  Lemma split_by_app p a b : (forall c, In c a -> p c = false) ->
    split_by p (a ++ b) = match split_by p b with [] => [a] | w :: ws => (a ++ w) :: ws end.
  Proof.
    induction a as [|c a IH]; intros N.
    - simpl. assert (NE : split_by p b <> []).
      { destruct b as [|x b]; [discriminate|]. simpl. destruct (p x); [discriminate|]. destruct (split_by p b); discriminate. }
      destruct (split_by p b); [congruence|reflexivity].
    - simpl. rewrite (N c) by now left. rewrite IH by (intros; apply N; now right).
      destruct (split_by p b); reflexivity.
  Qed.

  Lemma split_by_none p a : (forall c, In c a -> p c = false) -> split_by p a = [a].
  Proof. intros N. rewrite <- (app_nil_r a) at 1. rewrite split_by_app by auto. simpl. now rewrite app_nil_r. Qed.

  Lemma split_by_sep p a c b : (forall c, In c a -> p c = false) -> p c = true ->
    split_by p (a ++ c :: b) = a :: split_by p b.
  Proof. intros N C. rewrite split_by_app by auto. simpl. rewrite C. now rewrite app_nil_r. Qed.

  Lemma digits_no k s c : digits k s -> (c < 48 \/ 57 < c < 128)%N -> ~ In c s.
  Proof.
    intros [_ F] R H. rewrite Forall_forall in F. apply F in H. apply ascii_decimal_digit in H; [unfold digit in H; lia|lia].
  Qed.

  (** Digits are read as their value if they are ASCII. *)
  Lemma parse_below_digits b k s : digits (S k) s -> (10 ^ N.of_nat (S k) <= b)%N -> (b <= 2 ^ 64)%N ->
    (Forall digit s /\ parse_below b s = Some (decimal_value s)) \/ (~ Forall digit s /\ parse_below b s = None).
  Proof.
    intros D B B'. assert (L : List.length s = S k) by apply D.
    assert (Q : {Forall digit s} + {~ Forall digit s}).
    { apply Forall_dec. intros c. destruct (is_ascii_digit c) eqn:X; [left|right]; rewrite <- is_digit_spec; congruence. }
    unfold parse_below. destruct Q as [F|F]; [left|right]; split; auto.
    - pose proof (num_small _ s b F L B) as LT.
      assert (P : parse_usize s = Some (decimal_value s)).
      { apply parse_usize_spec. exists s. split; auto. split; [intros ->; discriminate|]. split; auto. split; auto. lia. }
      rewrite P. apply N.ltb_lt in LT. now rewrite LT.
    - destruct (parse_usize s) as [n|] eqn:P; [|reflexivity]. exfalso. apply parse_usize_spec in P as (ds & [->| ->] & _ & FD & _); [auto|].
      apply (digits_no _ _ 43 D); [lia|now left].
  Qed.

  Lemma pow31 : (10 ^ N.of_nat 4 <= 2 ^ 31)%N. Proof. vm_compute. discriminate. Qed.
  Lemma pow256 : (10 ^ N.of_nat 2 <= 256)%N. Proof. vm_compute. discriminate. Qed.
  Lemma le31 : (2 ^ 31 <= 2 ^ 64)%N. Proof. vm_compute. discriminate. Qed.
  Lemma le256 : (256 <= 2 ^ 64)%N. Proof. vm_compute. discriminate. Qed.

  Lemma not_in_false k s p : digits k s -> (forall c, p c = true -> (c < 48 \/ 57 < c < 128)%N) -> forall c, In c s -> p c = false.
  Proof. intros D P c H. destruct (p c) eqn:Q; [|reflexivity]. exfalso. eapply digits_no; eauto. Qed.

  Lemma nth0 {A} (a : A) l : nth_error (a :: l) 0 = Some a. Proof. reflexivity. Qed.
  Lemma nth1 {A} (a b : A) l : nth_error (a :: b :: l) 1 = Some b. Proof. reflexivity. Qed.
  Lemma nth2 {A} (a b c : A) l : nth_error (a :: b :: c :: l) 2 = Some c. Proof. reflexivity. Qed.

  Lemma parse_date_spec y p m q d : digits 4 y -> digits 2 m -> digits 2 d ->
    p = 45%N \/ p = 47%N -> q = 45%N \/ q = 47%N -> date_reads y m d (parse_date (y ++ p :: m ++ q :: d)).
  Proof.
    intros Y M D P Q. unfold parse_date.
    set (sep := fun c => ((c =? 45)%N || (c =? 47)%N)).
    assert (S45 : forall c, sep c = true -> (c < 48 \/ 57 < c < 128)%N).
    { unfold sep. intros c H. apply orb_true_iff in H as [H|H]; apply N.eqb_eq in H; lia. }
    rewrite (split_by_sep sep y), (split_by_sep sep m), (split_by_none sep d); eauto using not_in_false;
      try (unfold sep; destruct P as [-> | ->], Q as [-> | ->]; reflexivity).
    rewrite nth0, nth1, nth2. cbn [unwrap bind].
    destruct (parse_below_digits (2 ^ 31) 3 y) as [[FY ->]|[FY ->]]; auto using pow31, pow256, le31, le256;
      cbn [unwrap bind]; [|apply dr_panic; left; tauto].
    destruct (parse_below_digits 256 1 m) as [[FM ->]|[FM ->]]; auto using pow31, pow256, le31, le256;
      cbn [unwrap bind]; [|apply dr_panic; left; tauto].
    destruct ((1 <=? decimal_value m)%N && (decimal_value m <=? 12)%N) eqn:R; cbn [negb].
    2:{ apply dr_month; auto. intros [A B]. apply N.leb_le in A, B. now rewrite A, B in R. }
    apply andb_true_iff in R as [A B]. apply N.leb_le in A, B.
    destruct (parse_below_digits 256 1 d) as [[FD ->]|[FD ->]]; auto using pow31, pow256, le31, le256;
      cbn [unwrap bind]; [|apply dr_panic; right; tauto].
    destruct (from_calendar_date_spec (decimal_value y) (decimal_value m) (decimal_value d)) as [[C ->]|[C ->]]; [lia| |];
      [now apply dr_ok|now apply dr_day].
  Qed.

  Lemma colon_sep : forall c, (c =? 58)%N = true -> (c < 48 \/ 57 < c < 128)%N.
  Proof. intros c H. apply N.eqb_eq in H. lia. Qed.

  Lemma parse_time_hours h : digits 1 h \/ digits 2 h ->
    (Forall digit h /\ parse_below 256 h = Some (decimal_value h)) \/ (~ Forall digit h /\ parse_below 256 h = None).
  Proof. intros [H|H]; [apply (parse_below_digits 256 0)|apply (parse_below_digits 256 1)]; auto using pow256, le256; vm_compute; discriminate. Qed.

  Lemma digits_12_sep h : digits 1 h \/ digits 2 h -> forall c, In c h -> (c =? 58)%N = false.
  Proof. intros [H|H]; eapply (not_in_false _ _ (fun c => (c =? 58)%N)); eauto using colon_sep. Qed.

  Lemma parse_time_spec h m : digits 1 h \/ digits 2 h -> digits 2 m ->
    time_reads h m [] (parse_time (h ++ 58%N :: m)).
  Proof.
    intros H M. unfold parse_time.
    rewrite (split_by_sep (fun c => (c =? 58)%N) h), (split_by_none (fun c => (c =? 58)%N) m);
      eauto using (not_in_false _ _ (fun c => (c =? 58)%N)), colon_sep, digits_12_sep.
    rewrite nth0, nth1. change (nth_error [h; m] 2) with (@None str). cbn [unwrap bind].
    destruct (parse_time_hours h H) as [[FH ->]|[FH ->]]; cbn [unwrap bind]; [|apply tr_panic; tauto].
    destruct (parse_below_digits 256 1 m) as [[FM ->]|[FM ->]]; auto using pow31, pow256, le31, le256;
      cbn [unwrap bind]; [|apply tr_panic; tauto].
    change 0%N with (decimal_value []).
    destruct (from_hms_spec (decimal_value h) (decimal_value m) (decimal_value [])) as [[C ->]|[C ->]]; [now apply tr_ok|now apply tr_range].
  Qed.

  Lemma parse_time_seconds_spec h m s : digits 1 h \/ digits 2 h -> digits 2 m -> digits 2 s ->
    time_reads h m s (parse_time (h ++ 58%N :: m ++ 58%N :: s)).
  Proof.
    intros H M D. unfold parse_time.
    rewrite (split_by_sep (fun c => (c =? 58)%N) h), (split_by_sep (fun c => (c =? 58)%N) m), (split_by_none (fun c => (c =? 58)%N) s);
      eauto using (not_in_false _ _ (fun c => (c =? 58)%N)), colon_sep, digits_12_sep.
    rewrite nth0, nth1, nth2. cbn [unwrap bind].
    destruct (parse_time_hours h H) as [[FH ->]|[FH ->]]; cbn [unwrap bind]; [|apply tr_panic; tauto].
    destruct (parse_below_digits 256 1 m) as [[FM ->]|[FM ->]]; auto using pow31, pow256, le31, le256;
      cbn [unwrap bind]; [|apply tr_panic; tauto].
    destruct (parse_below_digits 256 1 s) as [[FS ->]|[FS ->]]; auto using pow31, pow256, le31, le256;
      cbn [unwrap bind]; [|apply tr_panic; tauto].
    destruct (from_hms_spec (decimal_value h) (decimal_value m) (decimal_value s)) as [[C ->]|[C ->]]; [now apply tr_ok|now apply tr_range].
  Qed.

  (** ** The languages of the patterns *)

  Lemma currency_mid_spec c : currency_mid c = true <-> currency_middle c.
  Proof.
    unfold currency_mid, currency_middle. rewrite !orb_true_iff, is_upper_spec, is_digit_spec, in_set_spec.
    simpl. intuition congruence.
  Qed.

  Lemma ident_re (p q : N -> bool) (P Q : N -> Prop) s :
    (forall c, p c = true <-> P c) -> (forall c, q c = true <-> Q c) ->
    matches (R_Seq (R_Class p) (R_Star (R_Class q))) s <-> identifier P Q s.
  Proof.
    intros HP HQ. rewrite m_class_seq. unfold identifier. split.
    - intros (c & t & -> & A & B). apply m_star_class in B. exists c, t. split; auto. split; [now apply HP|].
      revert B. apply Forall_impl. apply HQ.
    - intros (c & t & -> & A & B). exists c, t. split; auto. split; [now apply HP|]. apply m_star_class.
      revert B. apply Forall_impl. apply HQ.
  Qed.

  Lemma m_currency s : matches currency_re s <-> currency_text s.
  Proof.
    unfold currency_re, currency_text, r_upper. rewrite matches_alt_inv, m_char_seq.
    rewrite (ident_re _ _ upper currency_middle) by auto using is_upper_spec, currency_mid_spec.
    split; (intros [H|H]; [now left|right]).
    - destruct H as (t & -> & H). apply m_seq_iff in H as (a & b & -> & A & B).
      rewrite (ident_re _ _ upper currency_middle) in B by auto using is_upper_spec, currency_mid_spec.
      exists a, b. split; auto. split; auto. apply m_star_class in A. revert A. apply Forall_impl. intros c H.
      rewrite orb_true_iff, is_digit_spec, in_set_spec in H. unfold currency_middle, upper, digit in *. simpl in H.
      split; [intuition auto|]. intuition lia.
    - destruct H as (a & b & -> & A & B). exists (a ++ b). split; auto. apply m_seq_iff. exists a, b. split; auto.
      rewrite (ident_re _ _ upper currency_middle) by auto using is_upper_spec, currency_mid_spec. split; auto.
      apply m_star_class. revert A. apply Forall_impl. intros c [H N].
      rewrite orb_true_iff, is_digit_spec, in_set_spec. unfold currency_middle in H. simpl. intuition congruence.
  Qed.

  Lemma m_digits n s : matches (r_rep n (r_digit E)) s <-> digits n s.
  Proof. apply m_rep_class. Qed.

  Lemma m_date_sep r s : matches (R_Seq date_sep r) s <-> exists p t, s = p :: t /\ (p = 45%N \/ p = 47%N) /\ matches r t.
  Proof.
    unfold date_sep. rewrite m_class_seq. split; intros (p & t & -> & P & M); exists p, t; split; auto; split; auto.
    - apply in_set_spec in P. simpl in P. intuition auto.
    - apply in_set_spec. simpl. intuition auto.
  Qed.

  Lemma m_date s : matches (date_re E) s <->
    exists y p m q d, s = y ++ p :: m ++ q :: d /\ digits 4 y /\ digits 2 m /\ digits 2 d /\
      (p = 45%N \/ p = 47%N) /\ (q = 45%N \/ q = 47%N).
  Proof.
    unfold date_re. rewrite m_seq_iff. split.
    - intros (y & t & -> & Y & H). apply m_date_sep in H as (p & u & -> & P & H).
      apply m_seq_iff in H as (m & v & -> & M & H). apply m_date_sep in H as (q & d & -> & Q & H).
      apply m_digits in Y, M, H. exists y, p, m, q, d. auto 8.
    - intros (y & p & m & q & d & -> & Y & M & D & P & Q). apply m_digits in Y, M, D.
      exists y, (p :: m ++ q :: d). split; auto. split; auto. apply m_date_sep. exists p, (m ++ q :: d). split; auto. split; auto.
      apply m_seq_iff. exists m, (q :: d). split; auto. split; auto. apply m_date_sep. exists q, d. auto.
  Qed.

  Lemma m_hours s : matches (R_Seq (r_digit E) (r_opt (r_digit E))) s <-> digits 1 s \/ digits 2 s.
  Proof.
    unfold r_digit. rewrite m_class_seq. unfold SpecLexer.digits. split.
    - intros (c & t & -> & P & M). apply m_opt in M as [->|M]; [left; auto|].
      apply matches_class_inv in M as (d & -> & Q). right. auto.
    - intros [[L F]|[L F]].
      + destruct s as [|c [|? ?]]; try discriminate. inversion F; subst. exists c, []. rewrite m_opt. auto.
      + destruct s as [|c [|d [|? ?]]]; try discriminate. inversion F as [|? ? ? F']; inversion F'; subst.
        exists c, [d]. rewrite m_opt, matches_class_inv. eauto 6.
  Qed.

  Lemma m_time s : matches (time_re E) s <->
    exists h m, (digits 1 h \/ digits 2 h) /\ digits 2 m /\
      (s = h ++ 58%N :: m \/ exists sec, digits 2 sec /\ s = h ++ 58%N :: m ++ 58%N :: sec).
  Proof.
    unfold time_re. rewrite m_seq_iff. split.
    - intros (h & t & -> & H & M). apply m_hours in H. apply m_char_seq in M as (u & -> & M).
      apply m_seq_iff in M as (m & v & -> & M & S). apply m_digits in M. exists h, m. split; auto. split; auto.
      apply m_opt in S as [->|S]; [left; now rewrite app_nil_r|right].
      apply m_char_seq in S as (sec & -> & S). apply m_digits in S. eauto.
    - intros (h & m & H & M & S). apply m_hours in H. apply m_digits in M. destruct S as [->|(sec & S & ->)].
      + exists h, (58%N :: m). split; auto. split; auto. apply m_char_seq. exists m. split; auto.
        apply m_seq_iff. exists m, []. rewrite app_nil_r, m_opt. auto.
      + exists h, (58%N :: m ++ 58%N :: sec). split; auto. split; auto. apply m_char_seq. exists (m ++ 58%N :: sec). split; auto.
        apply m_seq_iff. exists m, (58%N :: sec). rewrite m_opt, m_char_seq. apply m_digits in S. eauto 8.
  Qed.

  Lemma account_rest_spec c : account_rest E c = true <-> account_char E c.
  Proof. unfold account_rest, account_char. rewrite !orb_true_iff, N.eqb_eq. tauto. Qed.

  Lemma join_colon_cons w ws : join_colon (w :: ws) = w ++ flat_map (fun x => 58%N :: x) ws.
  Proof.
    revert w. induction ws as [|x ws IH]; intros w; [simpl; now rewrite app_nil_r|].
    change (join_colon (w :: x :: ws)) with (w ++ 58%N :: join_colon (x :: ws)). now rewrite IH.
  Qed.

  Lemma m_account s : matches (R_Seq (account_type_re E) (r_plus (R_Seq (r_char 58) (account_name_re E)))) s <-> account_text E s.
  Proof.
    assert (N : forall w, matches (R_Seq (r_char 58) (account_name_re E)) w <->
      exists x, w = 58%N :: x /\ identifier (fun c => u_Lu U c = true \/ u_Lo U c = true \/ u_N U c = true) (account_char E) x).
    { intros w. rewrite m_char_seq. unfold account_name_re.
      split; intros (x & -> & M); exists x; split; auto;
      (rewrite (ident_re _ _ (fun c => u_Lu U c = true \/ u_Lo U c = true \/ u_N U c = true) (account_char E)) in *;
        [exact M|intros c; rewrite !orb_true_iff; unfold U; tauto|apply account_rest_spec]). }
    assert (NS : forall l, Forall (matches (R_Seq (r_char 58) (account_name_re E))) l <->
      exists ns, l = map (cons 58%N) ns /\ Forall (identifier (fun c => u_Lu U c = true \/ u_Lo U c = true \/ u_N U c = true) (account_char E)) ns).
    { induction l as [|w l IH].
      - split; [intros _; exists []; auto|constructor].
      - split.
        + intros F. inversion F as [|? ? A B]; subst. apply N in A as (x & -> & X). apply IH in B as (ns & -> & B). exists (x :: ns). auto.
        + intros (ns & Q & F). destruct ns as [|x ns]; [discriminate|]. injection Q as -> ->. inversion F; subst.
          constructor; [apply N; eauto|apply IH; eauto]. }
    rewrite m_seq_iff. unfold account_type_re, account_text. split.
    - intros (t & u & -> & A & B). apply m_plus_concat in B as (x & l & -> & F). apply NS in F as (ns & Q & F).
      destruct ns as [|n ns]; [discriminate|]. injection Q as -> ->.
      rewrite (ident_re _ _ (fun c => u_Lu U c = true \/ u_Lo U c = true) (account_char E)) in A;
        [|intros c; rewrite !orb_true_iff; unfold U; tauto|apply account_rest_spec].
      exists t, n, ns. split; auto. rewrite join_colon_cons, flat_map_concat_map. reflexivity.
    - intros (t & n & ns & -> & A & F). exists t, (concat (map (cons 58%N) (n :: ns))).
      split; [now rewrite join_colon_cons, flat_map_concat_map|]. split.
      + rewrite (ident_re _ _ (fun c => u_Lu U c = true \/ u_Lo U c = true) (account_char E)); auto;
          [intros c; rewrite !orb_true_iff; unfold U; tauto|apply account_rest_spec].
      + apply m_plus_concat. exists (58%N :: n), (map (cons 58%N) ns). split; auto. apply (NS (map (cons 58%N) (n :: ns))). eauto.
  Qed.

  Lemma m_string s : matches string_literal_re s <-> exists b, s = 34%N :: b ++ [34%N] /\ string_body b.
  Proof.
    unfold string_literal_re, quote, backslash. rewrite m_char_seq.
    assert (B : forall b, matches (R_Star (R_Alt (R_Class (fun c => negb ((c =? 92)%N || (c =? 34)%N)))
                            (R_Seq (r_char 92) dot_class))) b <-> string_body b).
    { intros b. split.
      - intros H. apply m_star_concat in H as (l & -> & F). induction F as [|x l X F IH]; [constructor|]. simpl.
        apply matches_alt_inv in X as [X|X].
        + apply matches_class_inv in X as (c & -> & C). apply negb_true_iff, orb_false_iff in C as [C D].
          apply N.eqb_neq in C, D. simpl. now constructor.
        + apply m_char_seq in X as (t & -> & X). apply matches_class_inv in X as (c & -> & C).
          apply negb_true_iff, N.eqb_neq in C. simpl. now constructor.
      - induction 1 as [|c b C D H IH|c b C H IH]; [constructor| |].
        + change (c :: b) with ([c] ++ b). constructor; auto. apply m_left. constructor.
          apply N.eqb_neq in C, D. now rewrite C, D.
        + change (92%N :: c :: b) with ([92%N; c] ++ b). constructor; auto. apply m_right. apply m_char_seq.
          exists [c]. split; auto. constructor. apply N.eqb_neq in C. now rewrite C. }
    split.
    - intros (t & -> & H). apply m_seq_iff in H as (b & q & -> & H & Q). apply m_char in Q as ->. apply B in H. eauto.
    - intros (b & -> & H). exists (b ++ [34%N]). split; auto. apply m_seq_iff. exists b, [34%N]. rewrite m_char, B. auto.
  Qed.

  Lemma m_number s : matches (number_re E) s <-> exists i gs f, number_text E i gs f s.
  Proof.
    unfold number_re, comma, number_text. rewrite m_seq_iff.
    assert (G : forall l, Forall (matches (R_Seq (r_char 44) (r_rep 3 (r_digit E)))) l <->
              exists gs, l = map (cons 44%N) gs /\ Forall (digits 3) gs).
    { induction l as [|w l IH].
      - split; [intros _; exists []; auto|constructor].
      - split.
        + intros F. inversion F as [|? ? A B]; subst. apply m_char_seq in A as (x & -> & X). apply m_digits in X.
          apply IH in B as (gs & -> & B). exists (x :: gs). auto.
        + intros (gs & Q & F). destruct gs as [|x gs]; [discriminate|]. injection Q as -> ->. inversion F; subst.
          constructor; [apply m_char_seq; exists x; split; auto; now apply m_digits|apply IH; eauto]. }
    split.
    - intros (i & t & -> & I & H). apply m_plus_class in I as [IN IF]. apply m_seq_iff in H as (g & u & -> & HG & HF).
      apply m_star_concat in HG as (l & -> & F). apply G in F as (gs & -> & F).
      apply m_opt in HF as [->|HF].
      + exists i, gs, None. repeat (split; auto); [discriminate|discriminate|]. now rewrite flat_map_concat_map.
      + apply m_char_seq in HF as (d & -> & D). apply m_plus_class in D as [DN DF]. exists i, gs, (Some d).
        split; auto. split; auto. split; auto. split; [intros d' Q; injection Q as <-; auto|]. now rewrite flat_map_concat_map.
    - intros (i & gs & f & IN & IF & F & D & ->). eexists i, _. split; [reflexivity|]. split; [now apply m_plus_class|].
      apply m_seq_iff. eexists _, _. split; [reflexivity|]. split.
      + rewrite flat_map_concat_map. apply m_star_concat. eexists. split; [reflexivity|]. apply G. eauto.
      + apply m_opt. destruct f as [d|]; [right|left; reflexivity]. apply m_char_seq. exists d. split; auto.
        apply m_plus_class. now apply D.
  Qed.

  Lemma alnum_spec c : ascii_alnum c = true <-> upper c \/ lower c \/ digit c.
  Proof. unfold ascii_alnum. rewrite !orb_true_iff, is_upper_spec, is_lower_spec, is_digit_spec. tauto. Qed.

  Lemma m_label s : matches tag_or_link_re s <-> label s.
  Proof.
    unfold tag_or_link_re, label. rewrite m_plus_class.
    assert (X : Forall (fun c => ascii_alnum c || in_set (lit "-_/.") c = true) s <->
      Forall (fun c => identifier_char c \/ c = 47%N \/ c = 46%N) s); [|tauto].
    apply Forall_iff. intros c. rewrite orb_true_iff, alnum_spec, in_set_spec. unfold identifier_char. simpl. intuition congruence.
  Qed.

  Lemma m_key s : matches key_re s <-> key_text s.
  Proof.
    unfold key_re, key_text, identifier. rewrite m_class_seq.
    assert (X : forall t, Forall (fun c => ascii_alnum c || in_set (lit "-_") c = true) t <-> Forall identifier_char t).
    { intros t. apply Forall_iff. intros c. rewrite orb_true_iff, alnum_spec, in_set_spec. unfold identifier_char. simpl. intuition congruence. }
    split.
    - intros (c & t & -> & P & M). apply m_plus_class in M as [N M]. apply is_lower_spec in P. apply X in M.
      split; [exists c, t; auto|]. destruct t; [congruence|simpl; lia].
    - intros [(c & t & -> & P & M) L]. exists c, t. split; auto. split; [now apply is_lower_spec|]. apply m_plus_class.
      split; [intros ->; simpl in L; lia|]. now apply X.
  Qed.

  Lemma m_dots s : matches (R_Star dot_class) s <-> no_newline s.
  Proof.
    unfold dot_class, no_newline. rewrite m_star_class, Forall_forall. split.
    - intros H I. apply H in I. discriminate.
    - intros H c I. apply negb_true_iff, N.eqb_neq. intros ->. auto.
  Qed.

  Lemma m_eol s : matches eol_re s <-> line_end s.
  Proof.
    unfold eol_re, line_end. rewrite m_seq_iff. split.
    - intros (t & u & -> & A & B). apply m_char in B as ->. apply m_opt in A as [->|A]; [auto|]. apply m_char in A as ->. auto.
    - intros [-> | ->]; [exists [], [10%N]|exists [13%N], [10%N]]; rewrite m_opt, !m_char; auto.
  Qed.

  Lemma m_ignored s : matches ignored_whole_line s <-> ignored_line s.
  Proof.
    unfold ignored_whole_line, ignored_line. rewrite m_class_seq. split.
    - intros (c & t & -> & P & M). apply m_seq_iff in M as (u & e & -> & A & B). apply m_dots in A. apply m_eol in B.
      apply in_set_spec in P. exists c, u, e. auto.
    - intros (c & t & e & -> & P & A & B). exists c, (t ++ e). split; auto. split; [now apply in_set_spec|].
      apply m_seq_iff. exists t, e. rewrite m_dots, m_eol. auto.
  Qed.

  Lemma m_comment_opt s : matches (r_opt comment_to_eol) s <-> s = [] \/ comment s.
  Proof.
    unfold comment_to_eol, comment. rewrite m_opt, m_char_seq. split; (intros [H|(t & -> & M)]; [auto|right]).
    - exists t. rewrite <- m_dots. auto.
    - exists t. rewrite m_dots. auto.
  Qed.

  Lemma m_line_break s : matches (R_Seq (r_opt comment_to_eol) (R_Seq eol_re (R_Star ignored_whole_line))) s <-> line_break s.
  Proof.
    unfold line_break. rewrite m_seq_iff. split.
    - intros (c & t & -> & C & M). apply m_comment_opt in C. apply m_seq_iff in M as (e & u & -> & A & B).
      apply m_eol in A. apply m_star_concat in B as (ls & -> & F). exists c, e, ls. split; auto. split; auto. split; auto.
      revert F. apply Forall_impl. apply m_ignored.
    - intros (c & e & ls & -> & C & A & F). exists c, (e ++ concat ls). split; auto. rewrite m_comment_opt. split; auto.
      apply m_seq_iff. exists e, (concat ls). rewrite m_eol, m_star_concat. split; auto. split; auto. exists ls. split; auto.
      revert F. apply Forall_impl. apply m_ignored.
  Qed.

  Lemma m_blanks s : matches (r_plus blank) s <-> blanks s.
  Proof.
    unfold blank, blanks. rewrite m_plus_class.
    assert (X : Forall (fun c => in_set [32%N; 9%N] c = true) s <-> Forall is_blank s); [|tauto].
    apply Forall_iff. intros c. rewrite in_set_spec. unfold is_blank. simpl. intuition congruence.
  Qed.

  Lemma m_indent s : matches (R_Seq (r_opt comment_to_eol) (R_Seq eol_re (R_Seq (R_Star ignored_whole_line) (r_plus blank)))) s <->
    exists t b, s = t ++ b /\ line_break t /\ blanks b.
  Proof.
    split.
    - intros H. apply m_seq_iff in H as (c & t & -> & C & M). apply m_seq_iff in M as (e & u & -> & A & B).
      apply m_seq_iff in B as (i & b & -> & I & B). apply m_blanks in B. exists (c ++ e ++ i), b.
      split; [now rewrite !app_assoc|]. split; auto. apply m_line_break. apply m_seq_iff. exists c, (e ++ i). split; auto.
      split; auto. apply m_seq_iff. eauto.
    - intros (t & b & -> & L & B). apply m_line_break in L. apply m_seq_iff in L as (c & u & -> & C & M).
      apply m_seq_iff in M as (e & i & -> & A & I). apply m_seq_iff. exists c, (e ++ i ++ b). split; [now rewrite !app_assoc|].
      split; auto. apply m_seq_iff. exists e, (i ++ b). split; auto. split; auto. apply m_seq_iff. apply m_blanks in B. eauto.
  Qed.

  Lemma m_comment_only s : matches (R_Seq (r_char 59) (R_Star (R_Class (fun c => negb ((c =? 13) || (c =? 10))%N)))) s <->
    exists t, s = 59%N :: t /\ ~ In 13%N t /\ no_newline t.
  Proof.
    rewrite m_char_seq. split; intros (t & -> & M); exists t; split; auto.
    - rewrite m_star_class, Forall_forall in M. split; intros I; apply M in I; discriminate.
    - rewrite m_star_class, Forall_forall. destruct M as [A B]. intros c I. apply negb_true_iff, orb_false_iff.
      split; apply N.eqb_neq; intros ->; auto.
  Qed.

  (** ** The rules are the lexemes *)

  Lemma unquoted_spec b : unquoted (34%N :: b ++ [34%N]) = b.
  Proof.
    unfold unquoted. cbn [tl List.length]. rewrite app_length. cbn [List.length].
    replace (S (List.length b + 1) - 2) with (List.length b) by lia. apply firstn_len.
  Qed.

  Lemma existsb_eq c s : existsb (N.eqb c) s = true <-> In c s.
  Proof.
    rewrite existsb_exists. split.
    - intros (x & I & X). apply N.eqb_eq in X as ->. exact I.
    - intros I. exists c. split; [exact I|apply N.eqb_refl].
  Qed.

  Lemma filter_all {A} (p : A -> bool) l : Forall (fun x => p x = true) l -> filter p l = l.
  Proof. induction 1 as [|x l H F IH]; [reflexivity|]. simpl. now rewrite H, IH. Qed.

  Lemma no_commas s : Forall decimal_digit s -> filter (fun c => negb (c =? comma)%N) s = s.
  Proof.
    intros F. apply filter_all. revert F. apply Forall_impl. intros c D. apply negb_true_iff, N.eqb_neq. intros ->.
    apply ascii_decimal_digit in D; [unfold digit, comma in D; lia|reflexivity].
  Qed.

  Lemma parse_number_spec i gs f s : number_text E i gs f s ->
    parse_number E s = le_decimal E (i ++ concat gs ++ match f with Some d => 46%N :: d | None => [] end).
  Proof.
    intros (IN & IF & G & D & ->). unfold parse_number.
    set (s := i ++ _). assert (FS : filter (fun c => negb (c =? comma)%N) s =
      i ++ concat gs ++ match f with Some d => 46%N :: d | None => [] end).
    { unfold s. rewrite !filter_app. f_equal; [now apply no_commas|]. f_equal.
      - induction G as [|g gs [L F] G IH]; [reflexivity|]. simpl. rewrite filter_app, no_commas by auto. now rewrite IH.
      - destruct f as [d|]; [|reflexivity]. destruct (D d eq_refl) as [_ F]. simpl. now rewrite no_commas. }
    destruct (existsb (N.eqb comma) s) eqn:C; [now rewrite FS|]. rewrite <- FS. f_equal. symmetry. apply filter_all.
    apply Forall_forall. intros c I. apply negb_true_iff, N.eqb_neq. intros ->. apply existsb_eq in I. congruence.
  Qed.

  Lemma date_of_text_read s : date_of_text s = read_as T_Date (parse_date s).
  Proof. unfold date_of_text. destruct (parse_date s) as [[d|e]|]; reflexivity. Qed.

  Lemma time_of_text_read s : time_of_text s = read_as T_Time (parse_time s).
  Proof. unfold time_of_text. destruct (parse_time s) as [[d|e]|]; reflexivity. Qed.

  Lemma give_map_ok {A} (g : A -> token) r : Fine (Some (map_ok g r)) = read_as g (Fine r).
  Proof. destruct r; reflexivity. Qed.

  Lemma number_lexeme s : matches (number_re E) s -> lexeme E s (give (fun s => map_ok T_Number (parse_number E s)) s).
  Proof.
    intros M. apply m_number in M as (i & gs & g & N). unfold give. rewrite give_map_ok, (parse_number_spec _ _ _ _ N).
    now apply lx_number.
  Qed.

  Lemma date_lexeme s : matches (date_re E) s -> lexeme E s (date_of_text s).
  Proof.
    intros M. apply m_date in M as (y & p & m & q & d & -> & Y & M & D & P & Q). rewrite date_of_text_read.
    apply lx_date; auto. now apply parse_date_spec.
  Qed.

  Lemma time_lexeme s : matches (time_re E) s -> lexeme E s (time_of_text s).
  Proof.
    intros M. apply m_time in M as (h & m & H & M & [->|(sec & S & ->)]); rewrite time_of_text_read.
    - apply lx_time; auto. now apply parse_time_spec.
    - apply lx_time_seconds; auto. now apply parse_time_seconds_spec.
  Qed.

  Lemma string_lexeme s : matches string_literal_re s ->
    lexeme E s (give (fun s => map_ok T_String (unescape_string_literal E (unquoted s))) s).
  Proof.
    intros M. apply m_string in M as (b & -> & B). unfold give. rewrite unquoted_spec. unfold unescape_string_literal.
    destruct (existsb (N.eqb backslash) b) eqn:X.
    - apply existsb_eq in X. rewrite give_map_ok. now apply lx_string_escapes.
    - apply (lx_string E b B). intros I. apply existsb_eq in I. unfold backslash in X. congruence.
  Qed.

  Lemma first_lexeme s a : first_rule (token_rules E) s a -> lexeme E s (a s).
  Proof.
    unfold token_rules, literal. intros H.
    do 44 (let N := fresh "N" in apply first_rule_cons in H as [[M ->]|[N H]];
      [apply m_str in M as ->;
       match goal with
       | |- lexeme _ _ (unit_token (T_Keyword ?k) _) => exact (lx_keyword E k)
       | |- _ => apply (lx_symbol E); simpl; tauto
       end|rewrite m_str in N]).
    apply first_rule_cons in H as [[M ->]|[_ H]]; [apply m_blanks in M; now apply lx_blank|].
    apply first_rule_cons in H as [[M ->]|[_ H]].
    { apply m_currency in M. apply lx_currency; auto. simpl. intuition congruence. }
    apply first_rule_cons in H as [[M ->]|[_ H]].
    { apply m_char_seq in M as (t & -> & M). apply matches_class_inv in M as (c & -> & C).
      unfold flag_of. cbn [nth_error unwrap bind]. unfold flag_letter_try_from. rewrite C.
      apply (lx_flag E c). now apply is_upper_spec. }
    apply first_rule_cons in H as [[M ->]|[_ H]]; [now apply date_lexeme|].
    apply first_rule_cons in H as [[M ->]|[_ H]]; [now apply time_lexeme|].
    apply first_rule_cons in H as [[M ->]|[_ H]]; [apply m_account in M; now apply lx_account|].
    apply first_rule_cons in H as [[M ->]|[_ H]]; [now apply string_lexeme|].
    apply first_rule_cons in H as [[M ->]|[_ H]]; [now apply number_lexeme|].
    apply first_rule_cons in H as [[M ->]|[_ H]].
    { apply m_char_seq in M as (t & -> & M). apply m_label in M. now apply (lx_tag E t). }
    apply first_rule_cons in H as [[M ->]|[_ H]].
    { apply m_char_seq in M as (t & -> & M). apply m_label in M. now apply (lx_link E t). }
    apply first_rule_cons in H as [[M ->]|[_ H]].
    { apply m_key in M. apply (lx_key E); auto. intros []; assumption. }
    apply first_rule_cons in H as [[M ->]|[_ H]].
    { apply m_indent in M as (t & b & -> & L & B). now apply (lx_indent E). }
    apply first_rule_cons in H as [[M ->]|[_ H]]; [apply m_line_break in M; now apply (lx_eol E)|].
    apply first_rule_cons in H as [[M ->]|[_ H]].
    { apply m_comment_only in M as (t & -> & A & B). now apply (lx_comment E). }
    destruct H as (b & ? & ? & X & _). destruct b; discriminate.
  Qed.

  Lemma in_rule {A} (rules : list (re * (str -> outcome (option A)))) r a s : In (r, a) rules -> matches r s -> some_rule rules s.
  Proof. intros I M. exists r, a. auto. Qed.

  Lemma literal_rule x t s : In (literal x t) (token_rules E) -> s = lit x -> some_rule (token_rules E) s.
  Proof. intros I ->. eapply in_rule; [exact I|]. now apply m_str. Qed.

  Ltac rule_in := unfold token_rules; repeat (first [left; reflexivity|right]).

  Lemma lexeme_rule s o : lexeme E s o -> some_rule (token_rules E) s.
  Proof.
    intros H. destruct H.
    - eapply in_rule; [|now apply m_blanks]. rule_in.
    - simpl in H. repeat (destruct H as [H|H]; [injection H as <- <-; eapply literal_rule; [|reflexivity]; rule_in|]). destruct H.
    - destruct k; (eapply literal_rule; [|reflexivity]; rule_in).
    - eapply in_rule; [|now apply m_currency]. rule_in.
    - eapply (in_rule _ (R_Seq (r_char 39) r_upper)); [rule_in|]. apply m_char_seq. exists [c]. split; auto.
      constructor. now apply is_upper_spec.
    - eapply in_rule; [|apply m_date; exists y, p, m, q, d; auto 8]. rule_in.
    - eapply in_rule; [|apply m_time; exists h, m; auto]. rule_in.
    - eapply in_rule; [|apply m_time; exists h, m; eauto 8]. rule_in.
    - eapply in_rule; [|now apply m_account]. rule_in.
    - eapply in_rule; [|apply m_string; eauto]. rule_in.
    - eapply in_rule; [|apply m_string; eauto]. rule_in.
    - eapply in_rule; [|apply m_number; eauto]. rule_in.
    - eapply (in_rule _ (R_Seq (r_char 35) tag_or_link_re)); [rule_in|]. apply m_char_seq. exists s. rewrite m_label. auto.
    - eapply (in_rule _ (R_Seq (r_char 94) tag_or_link_re)); [rule_in|]. apply m_char_seq. exists s. rewrite m_label. auto.
    - eapply in_rule; [|now apply m_key]. rule_in.
    - eapply in_rule; [|apply m_indent; eauto]. rule_in.
    - eapply in_rule; [|now apply m_line_break]. rule_in.
    - eapply in_rule; [|apply m_comment_only; eauto]. rule_in.
  Qed.

  Lemma first_recovery_lexeme s a : first_rule (recovery_rules E) s a -> recovery_lexeme E s (a s).
  Proof.
    unfold recovery_rules, literal. intros H.
    do 3 (let N := fresh "N" in apply first_rule_cons in H as [[M ->]|[N H]];
      [apply m_str in M as ->; apply (rl_symbol E); simpl; tauto|clear N]).
    apply first_rule_cons in H as [[M ->]|[_ H]].
    { apply m_date in M as (y & p & m & q & d & -> & Y & M & D & P & Q). rewrite date_of_text_read.
      apply rl_date; auto. now apply parse_date_spec. }
    apply first_rule_cons in H as [[M ->]|[_ H]].
    { apply m_number in M as (i & gs & g & N). unfold give. rewrite give_map_ok, (parse_number_spec _ _ _ _ N).
      now apply rl_number. }
    destruct H as (b & ? & ? & X & _). destruct b; discriminate.
  Qed.

  Lemma recovery_lexeme_rule s o : recovery_lexeme E s o -> some_rule (recovery_rules E) s.
  Proof.
    intros H. destruct H.
    - simpl in H. repeat (destruct H as [H|H]; [injection H as <- <-; eapply in_rule; [|apply m_str; reflexivity]; unfold recovery_rules, literal; simpl; tauto|]). destruct H.
    - eapply in_rule; [|apply m_date; exists y, p, m, q, d; auto 8]. unfold recovery_rules; simpl; tauto.
    - eapply in_rule; [|apply m_number; eauto]. unfold recovery_rules; simpl; tauto.
  Qed.

  (** ** Cutting *)
  Section Cutting.
    Context (rules : list (re * (str -> outcome (option (result token str))))).
    Context (lexeme : str -> outcome (option (result token str)) -> Prop).
    Context (FL : forall s a, first_rule rules s a -> lexeme s (a s)).
    Context (LR : forall s o, lexeme s o -> some_rule rules s).

    Lemma some_first s : some_rule rules s -> exists a, first_rule rules s a.
    Proof.
      clear. induction rules as [|[r a] l IH]; intros H; [destruct (some_rule_nil _ H)|].
      destruct (nullable (fold_left (fun r c => deriv c r) s r)) eqn:N.
      - exists a. apply first_rule_cons. left. split; auto. clear -N. revert r N. induction s as [|c s IH]; intros r N.
        + now apply nullable_spec.
        + apply deriv_spec. now apply IH.
      - assert (M : ~ matches r s).
        { clear -N. revert r N. induction s as [|c s IH]; intros r N M.
          - apply nullable_spec in M. simpl in N. congruence.
          - apply deriv_spec in M. now apply (IH _ N). }
        apply some_rule_cons in H as [H|H]; [contradiction|]. apply IH in H as (b & F). exists b.
        apply first_rule_cons. right. auto.
    Qed.

    Lemma lexeme_some s : some_rule rules s <-> is_lexeme lexeme s.
    Proof.
      split; [|intros (o & H); eauto]. intros H. destruct (some_first s H) as (a & F). exists (a s). now apply FL.
    Qed.

    Lemma munch_longest t rest a : munch rules t rest a -> longest lexeme t rest /\ lexeme t (a t).
    Proof.
      intros [N F L]. assert (Q : first_rule rules t a) by exact F. split; [|now apply FL].
      split; auto. split; [exists (a t); now apply FL|]. intros u v R NU I. apply (L u v R NU). now apply lexeme_some.
    Qed.

    Lemma stuck_no s : stuck rules s -> no_lexeme lexeme s.
    Proof. intros H t u Q N I. apply (H t u Q N). now apply lexeme_some. Qed.

    Lemma tokenized_cut off s items : tokenized rules (Err (lit "unrecognized token")) off s items -> cut lexeme off s items.
    Proof.
      induction 1 as [|off t rest a items M A T IH|off t rest a x items M A T IH|off t rest items N S T IH].
      - constructor.
      - destruct (munch_longest _ _ _ M) as [L X]. rewrite A in X. now apply cut_skip.
      - destruct (munch_longest _ _ _ M) as [L X]. rewrite A in X. now apply cut_item.
      - apply cut_fail; auto. now apply stuck_no.
    Qed.

    Lemma panics_cut s : panics rules s -> cut_panics lexeme s.
    Proof.
      induction 1 as [t rest a M A|t rest a o M A P IH|t rest N S P IH].
      - destruct (munch_longest _ _ _ M) as [L X]. rewrite A in X. now apply cp_here.
      - destruct (munch_longest _ _ _ M) as [L X]. rewrite A in X. now apply (cp_later _ _ _ o).
      - apply cp_fail; auto. now apply stuck_no.
    Qed.
  End Cutting.

  Lemma raw_lex_spec s :
    match raw_lex E s with
    | Panic => cut_panics (lexeme E) s
    | Fine None => False
    | Fine (Some items) => cut (lexeme E) 0 s items
    end.
  Proof.
    unfold raw_lex. pose proof (lexed_spec (token_rules E) unrecognized (le_err_len E) (List.length s) 0 s (le_n _)) as H.
    destruct (lexed _ _ _ _ _ _) as [[items|]|]; auto.
    - eapply tokenized_cut; eauto using first_lexeme, lexeme_rule.
    - eapply panics_cut; eauto using first_lexeme, lexeme_rule.
  Qed.

  Lemma recovery_lex_spec s :
    match recovery_lex E s with
    | Panic => cut_panics (recovery_lexeme E) s
    | Fine items => cut (recovery_lexeme E) 0 s items
    end.
  Proof.
    unfold recovery_lex. pose proof (lexed_spec (recovery_rules E) unrecognized (le_recovery_err_len E) (List.length s) 0 s (le_n _)) as H.
    destruct (lexed _ _ _ _ _ _) as [[items|]|]; [|destruct H|].
    - eapply tokenized_cut; eauto using first_recovery_lexeme, recovery_lexeme_rule.
    - eapply panics_cut; eauto using first_recovery_lexeme, recovery_lexeme_rule.
  Qed.
End Env.
