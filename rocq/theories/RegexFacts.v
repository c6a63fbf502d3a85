(** * Facts about [Regex] *)
From Coq Require Import List NArith Arith Bool Lia.
From Verif Require Import Base Regex SpecRegex.
Import ListNotations.
Local Open Scope nat_scope.

Lemma matches_none s : ~ matches R_None s.
Proof. intro H. inversion H. Qed.

Lemma matches_seq_inv a b s : matches (R_Seq a b) s -> exists t u, s = t ++ u /\ matches a t /\ matches b u.
Proof. intro H. inversion H; subst. eauto. Qed.

Lemma matches_alt_inv a b s : matches (R_Alt a b) s <-> matches a s \/ matches b s.
Proof. split; [intro H; inversion H; subst; auto|intros [H|H]; [now apply m_left|now apply m_right]]. Qed.

Lemma matches_eps_inv s : matches R_Eps s <-> s = [].
Proof. split; [intro H; inversion H; auto|intros ->; constructor]. Qed.

Lemma matches_class_inv p s : matches (R_Class p) s <-> exists c, s = [c] /\ p c = true.
Proof. split; [intro H; inversion H; subst; eauto|intros (c & -> & H); now constructor]. Qed.

Lemma matches_seq a b s : matches (seq a b) s <-> matches (R_Seq a b) s.
Proof.
  assert (Eps_l : matches b s <-> matches (R_Seq R_Eps b) s).
  { split.
    - intro H. change s with ([] ++ s). constructor; [constructor|exact H].
    - intro H. apply matches_seq_inv in H. destruct H as (t & u & -> & H1 & H2).
      apply matches_eps_inv in H1. subst. exact H2. }
  assert (None_l : matches R_None s <-> matches (R_Seq R_None b) s).
  { split; intro H; [inversion H|]. apply matches_seq_inv in H. destruct H as (t & u & -> & H1 & H2). inversion H1. }
  assert (None_r : matches R_None s <-> matches (R_Seq a R_None) s).
  { split; intro H; [inversion H|]. apply matches_seq_inv in H. destruct H as (t & u & -> & H1 & H2). inversion H2. }
  assert (Eps_r : matches a s <-> matches (R_Seq a R_Eps) s).
  { split.
    - intro H. rewrite <- (app_nil_r s). constructor; [exact H|constructor].
    - intro H. apply matches_seq_inv in H. destruct H as (t & u & -> & H1 & H2).
      apply matches_eps_inv in H2. subst. now rewrite app_nil_r. }
  destruct a; try exact None_l; destruct b; try exact None_r; try exact Eps_l; try exact Eps_r; reflexivity.
Qed.

Lemma matches_alt a b s : matches (alt a b) s <-> matches (R_Alt a b) s.
Proof.
  rewrite matches_alt_inv.
  assert (None_l : matches b s <-> matches R_None s \/ matches b s).
  { split; auto. intros [H|H]; [inversion H|exact H]. }
  assert (None_r : matches a s <-> matches a s \/ matches R_None s).
  { split; auto. intros [H|H]; [exact H|inversion H]. }
  destruct a; try exact None_l; destruct b; try exact None_r; apply matches_alt_inv.
Qed.

Lemma nullable_spec r : nullable r = true <-> matches r [].
Proof.
  induction r as [| |p|a IHa b IHb|a IHa b IHb|a IHa]; cbn [nullable].
  - split; [discriminate|intro H; inversion H].
  - split; [constructor|reflexivity].
  - split; [discriminate|intro H; inversion H].
  - rewrite andb_true_iff, IHa, IHb. split.
    + intros [H1 H2]. change (@nil N) with (@nil N ++ []). now constructor.
    + intro H. apply matches_seq_inv in H. destruct H as (t & u & E & H1 & H2).
      symmetry in E. apply app_eq_nil in E. destruct E as [-> ->]. auto.
  - rewrite orb_true_iff, IHa, IHb. symmetry. apply matches_alt_inv.
  - split; [constructor|reflexivity].
Qed.

Lemma star_cons a c s : matches (R_Star a) (c :: s) -> exists t u, s = t ++ u /\ matches a (c :: t) /\ matches (R_Star a) u.
Proof.
  intro H. remember (R_Star a) as r. remember (c :: s) as w. revert s Heqw.
  induction H as [| | | | | |a' x y H1 _ H2 IH]; intros w' E; try discriminate.
  inversion Heqr; subst a'. destruct x as [|c' x].
  - cbn in E. apply IH; auto.
  - cbn in E. inversion E; subst. exists x, y. auto.
Qed.

Lemma deriv_spec c r : forall s, matches (deriv c r) s <-> matches r (c :: s).
Proof.
  induction r as [| |p|a IHa b IHb|a IHa b IHb|a IHa]; intro s; cbn [deriv].
  - split; intro H; inversion H.
  - split; intro H; inversion H.
  - destruct (p c) eqn:P; rewrite matches_class_inv.
    + rewrite matches_eps_inv. split; [intros ->; eauto|]. intros (c' & E & _). now inversion E.
    + split; [intro H; inversion H|]. intros (c' & E & P'). inversion E; subst. congruence.
  - rewrite matches_alt, matches_alt_inv, matches_seq. split.
    + intros [H|H].
      * apply matches_seq_inv in H. destruct H as (t & u & -> & H1 & H2). apply IHa in H1.
        change (c :: t ++ u) with ((c :: t) ++ u). now constructor.
      * destruct (nullable a) eqn:Na; [|inversion H]. apply IHb in H. apply nullable_spec in Na.
        change (c :: s) with ([] ++ c :: s). now constructor.
    + intro H. apply matches_seq_inv in H. destruct H as (t & u & E & H1 & H2). destruct t as [|c' t].
      * cbn in E. subst u. right. apply nullable_spec in H1. rewrite H1. now apply IHb.
      * cbn in E. inversion E; subst. left. constructor; [now apply IHa|exact H2].
  - rewrite matches_alt, !matches_alt_inv, IHa, IHb. reflexivity.
  - rewrite matches_seq. split.
    + intro H. apply matches_seq_inv in H. destruct H as (t & u & -> & H1 & H2). apply IHa in H1.
      change (c :: t ++ u) with ((c :: t) ++ u). now constructor.
    + intro H. apply star_cons in H. destruct H as (t & u & -> & H1 & H2). constructor; [now apply IHa|exact H2].
Qed.

Section Lexer.
  Context {A : Type}.
  Notation action := (list N -> outcome (option A)).

  Definition step (c : char) (rules : list (re * action)) : list (re * action) :=
    filter (fun r => negb (is_none (fst r))) (map (fun '(r, a) => (deriv c r, a)) rules).

  (** [a] belongs to the first rule matching [t]. *)
  Definition first_rule (rules : list (re * action)) (t : str) (a : action) : Prop :=
    exists before r after, rules = before ++ (r, a) :: after /\ matches r t /\ ~ some_rule before t.

  Lemma some_rule_cons (r : re) (a : action) rules t :
    some_rule ((r, a) :: rules) t <-> matches r t \/ some_rule rules t.
  Proof.
    split.
    - intros (r' & a' & [E|I] & M); [inversion E; subst; auto|right; exists r', a'; auto].
    - intros [M|(r' & a' & I & M)]; [exists r, a; split; [now left|exact M]|exists r', a'; split; [now right|exact M]].
  Qed.

  Lemma some_rule_nil t : ~ some_rule (@nil (re * action)) t.
  Proof. intros (r & a & [] & _). Qed.

  Lemma first_rule_cons (r : re) (a : action) rules t b :
    first_rule ((r, a) :: rules) t b <-> (matches r t /\ b = a) \/ (~ matches r t /\ first_rule rules t b).
  Proof.
    split.
    - intros (before & r' & after & E & M & N). destruct before as [|[r0 a0] before]; cbn in E; inversion E; subst.
      + auto.
      + right. rewrite some_rule_cons in N. split; [tauto|]. exists before, r', after. split; [reflexivity|]. split; [exact M|tauto].
    - intros [[M ->]|[N (before & r' & after & -> & M & N')]].
      + exists [], r, rules. split; [reflexivity|]. split; [exact M|]. apply some_rule_nil.
      + exists ((r, a) :: before), r', after. split; [reflexivity|]. split; [exact M|]. rewrite some_rule_cons. tauto.
  Qed.

  Lemma is_none_spec r : is_none r = true -> r = R_None.
  Proof. destruct r; try discriminate. reflexivity. Qed.

  Lemma step_cons c r a rules :
    step c ((r, a) :: rules) = if is_none (deriv c r) then step c rules else (deriv c r, a) :: step c rules.
  Proof. unfold step. cbn [map filter fst]. destruct (is_none (deriv c r)); reflexivity. Qed.

  Lemma step_some c rules : forall t, some_rule (step c rules) t <-> some_rule rules (c :: t).
  Proof.
    induction rules as [|[r a] rules IH]; intro t.
    - split; intro H; destruct (some_rule_nil _ H).
    - rewrite step_cons, some_rule_cons, <- IH. destruct (is_none (deriv c r)) eqn:E.
      + apply is_none_spec in E. rewrite <- deriv_spec, E. split; auto. intros [H|H]; [inversion H|exact H].
      + rewrite some_rule_cons, deriv_spec. reflexivity.
  Qed.

  Lemma step_first c rules : forall t a, first_rule (step c rules) t a <-> first_rule rules (c :: t) a.
  Proof.
    induction rules as [|[r a] rules IH]; intros t b.
    - split; intros (x & r & y & E & _); destruct x; discriminate.
    - rewrite step_cons, first_rule_cons. destruct (is_none (deriv c r)) eqn:E.
      + apply is_none_spec in E. rewrite <- deriv_spec, E, IH. split; auto.
        * intro H. right. split; [apply matches_none|exact H].
        * intros [[H _]|[_ H]]; [inversion H|exact H].
      + rewrite first_rule_cons, deriv_spec, IH. reflexivity.
  Qed.

  Lemma find_first rules : 
    match find (fun r : re * action => nullable (fst r)) rules with
    | Some (_, a) => first_rule rules [] a
    | None => ~ some_rule rules []
    end.
  Proof.
    induction rules as [|[r a] rules IH]; [apply some_rule_nil|]. cbn [find fst].
    destruct (nullable r) eqn:Nr.
    - apply first_rule_cons. left. split; [now apply nullable_spec|reflexivity].
    - assert (Nm : ~ matches r []) by (rewrite <- nullable_spec; congruence).
      destruct (find (fun r : re * action => nullable (fst r)) rules) as [[r' a']|].
      + apply first_rule_cons. right. auto.
      + rewrite some_rule_cons. tauto.
  Qed.

  Lemma first_some rules t a : first_rule rules t a -> some_rule rules t.
  Proof.
    intros (b & r & c & -> & M & _). exists r, a. split; [apply in_or_app; right; now left|exact M].
  Qed.

  Lemma first_unique rules t a b : first_rule rules t a -> first_rule rules t b -> a = b.
  Proof.
    induction rules as [|[r c] rules IH].
    - intros (x & r & y & E & _). destruct x; discriminate.
    - rewrite !first_rule_cons. intros [[M ->]|[N H]] [[M' ->]|[N' H']]; auto; contradiction.
  Qed.

  (** The result of [scan]: the longest match, or [best] if there is none. *)
  Lemma scan_spec : forall s rules n best,
    match scan rules n s best with
    | None => best = None /\ forall t u, s = t ++ u -> t <> [] -> ~ some_rule rules t
    | Some (m, a) =>
        (exists t u, s = t ++ u /\ t <> [] /\ m = n + List.length t /\ first_rule rules t a /\
           forall v w, u = v ++ w -> v <> [] -> ~ some_rule rules (t ++ v)) \/
        (best = Some (m, a) /\ forall t u, s = t ++ u -> t <> [] -> ~ some_rule rules t)
    end.
  Proof.
    induction s as [|c s IH]; intros rules n best.
    - cbn [scan]. destruct best as [[m a]|].
      + right. split; [reflexivity|]. intros t u E Nt. symmetry in E. apply app_eq_nil in E. destruct E. contradiction.
      + split; [reflexivity|]. intros t u E Nt. symmetry in E. apply app_eq_nil in E. destruct E. contradiction.
    - cbn [scan]. fold (step c rules).
      pose proof (find_first (step c rules)) as F.
      destruct (step c rules) as [|r0 rs] eqn:Es.
      + cbn [find]. 
        assert (None_ : forall t u, c :: s = t ++ u -> t <> [] -> ~ some_rule rules t).
        { intros [|c' t] u E Nt H; [contradiction|]. cbn in E. inversion E; subst c'.
          apply step_some in H. rewrite Es in H. apply (some_rule_nil _ H). }
        destruct best as [[m a]|]; [right|]; auto.
      + rewrite <- Es in *. clear Es r0 rs.
        set (best' := match find (fun r : re * action => nullable (fst r)) (step c rules) with
                      | Some (_, a) => Some (S n, a) | None => best end).
        specialize (IH (step c rules) (S n) best').
        destruct (scan (step c rules) (S n) s best') as [[m a]|].
        * destruct IH as [(t & u & -> & Nt & -> & Fr & Mx)|[Eb No]].
          -- left. exists (c :: t), u. split; [reflexivity|]. split; [discriminate|]. split; [cbn; lia|].
             split; [now apply step_first|]. intros v w Ev Nv H. apply (Mx v w Ev Nv). now apply step_some.
          -- unfold best' in Eb.
             destruct (find (fun r : re * action => nullable (fst r)) (step c rules)) as [[r' a']|] eqn:Ef.
             ++ inversion Eb; subst. left. exists [c], s. split; [reflexivity|]. split; [discriminate|].
                split; [cbn; lia|]. split; [now apply step_first|].
                intros v w Ev Nv H. apply (No v w Ev Nv). apply step_some. exact H.
             ++ right. split; [exact Eb|]. intros [|c' t] u E Nt H; [contradiction|]. cbn in E. inversion E; subst.
                destruct t as [|c'' t].
                ** apply F. now apply step_some.
                ** apply (No (c'' :: t) u eq_refl ltac:(discriminate)). now apply step_some.
        * destruct IH as [Eb No]. unfold best' in Eb.
          destruct (find (fun r : re * action => nullable (fst r)) (step c rules)) as [[r' a']|] eqn:Ef; [discriminate|].
          split; [exact Eb|]. intros [|c' t] u E Nt H; [contradiction|]. cbn in E. inversion E; subst.
          destruct t as [|c'' t].
          -- apply F. now apply step_some.
          -- apply (No (c'' :: t) u eq_refl ltac:(discriminate)). now apply step_some.
  Qed.

  Lemma scan_munch (rules : list (re * action)) s :
    match scan rules 0 s None with
    | Some (n, a) => exists t u, s = t ++ u /\ n = List.length t /\ munch rules t u a
    | None => stuck rules s
    end.
  Proof.
    pose proof (scan_spec s rules 0 None) as H.
    destruct (scan rules 0 s None) as [[n a]|].
    - destruct H as [(t & u & E & Nt & En & Fr & Mx)|[E _]]; [|discriminate].
      exists t, u. split; [exact E|]. split; [exact En|]. constructor; auto.
    - exact (proj2 H).
  Qed.

  Lemma munch_unique (rules : list (re * action)) t u a t' u' a' :
    munch rules t u a -> munch rules t' u' a' -> t ++ u = t' ++ u' -> t = t' /\ u = u' /\ a = a'.
  Proof.
    intros M M' E.
    assert (L : forall t u a t' u' a', munch rules t u a -> munch rules t' u' a' -> t ++ u = t' ++ u' ->
      List.length t <= List.length t').
    { clear. intros t u a t' u' a' M M' E.
      destruct (le_lt_dec (List.length t) (List.length t')) as [Hl|L]; [exact Hl|exfalso].
      assert (exists v, t = t' ++ v /\ v <> []) as (v & -> & Nv).
      { exists (skipn (List.length t') t). split.
        - rewrite <- (firstn_skipn (List.length t') t) at 1. f_equal.
          assert (X : firstn (List.length t') (t ++ u) = firstn (List.length t') (t' ++ u')) by (now rewrite E).
          rewrite firstn_app in X. replace (List.length t' - List.length t) with 0 in X by lia. cbn in X.
          rewrite app_nil_r, firstn_app, Nat.sub_diag, firstn_all in X. cbn in X. now rewrite app_nil_r in X.
        - intro H. apply (f_equal (@List.length _)) in H. rewrite skipn_length in H. cbn in H. lia. }
      rewrite <- app_assoc in E. apply app_inv_head in E.
      apply (mu_longest _ _ _ _ M' v u); [now symmetry|exact Nv|].
      destruct (mu_first _ _ _ _ M) as (b & r & c & -> & Mr & _).
      exists r, a. split; [apply in_or_app; right; now left|exact Mr]. }
    assert (Len : List.length t = List.length t').
    { apply Nat.le_antisymm; [eapply L; eassumption|eapply L; try eassumption; now symmetry]. }
    assert (t = t').
    { apply (f_equal (firstn (List.length t))) in E. rewrite firstn_app, Nat.sub_diag, firstn_all in E. cbn in E.
      rewrite app_nil_r in E. rewrite Len, firstn_app, Nat.sub_diag, firstn_all in E. cbn in E.
      now rewrite app_nil_r in E. }
    subst t'. apply app_inv_head in E. subst u'. split; [reflexivity|]. split; [reflexivity|].
    eapply first_unique; [exact (mu_first _ _ _ _ M)|exact (mu_first _ _ _ _ M')].
  Qed.

  Lemma munch_not_stuck (rules : list (re * action)) t u a : munch rules t u a -> ~ stuck rules (t ++ u).
  Proof.
    intros M H. destruct (mu_first _ _ _ _ M) as (b & r & c & -> & Mr & _).
    apply (H t u eq_refl (mu_nonempty _ _ _ _ M)). exists r, a. split; [apply in_or_app; right; now left|exact Mr].
  Qed.

  Context (rules : list (re * action)) (unmatched : A) (err_len : str -> nat).

  Lemma firstn_len : forall (t u : str), firstn (List.length t) (t ++ u) = t.
  Proof. intros. rewrite firstn_app, Nat.sub_diag, firstn_all. cbn. apply app_nil_r. Qed.
  Lemma skipn_len : forall (t u : str), skipn (List.length t) (t ++ u) = u.
  Proof. intros. rewrite skipn_app, Nat.sub_diag, skipn_all. reflexivity. Qed.

  Lemma failed_split s : s <> [] -> exists t u, s = t ++ u /\ t <> [] /\ failed_chars err_len s = List.length t.
  Proof.
    intro H. exists (firstn (failed_chars err_len s) s), (skipn (failed_chars err_len s) s).
    split; [symmetry; apply firstn_skipn|].
    assert (L : failed_chars err_len s <= List.length s).
    { unfold failed_chars. destruct s; [contradiction|]. cbn [List.length]. lia. }
    assert (List.length (firstn (failed_chars err_len s) s) = failed_chars err_len s) as L' by (rewrite firstn_length; lia).
    split; [|now symmetry]. intro E. rewrite E in L'. unfold failed_chars in L'. cbn in L'. lia.
  Qed.

  (** Soundness, and totality when there is fuel for each char. *)
  Lemma lexed_spec : forall fuel off s, List.length s <= fuel ->
    match lexed rules unmatched err_len fuel off s with
    | Panic => panics rules s
    | Fine None => False
    | Fine (Some items) => tokenized rules unmatched off s items
    end.
  Proof.
    induction fuel as [|fuel IH]; intros off s L.
    - destruct s; [constructor|cbn in L; lia].
    - destruct s as [|c s]; [constructor|]. cbn [lexed]. remember (c :: s) as w eqn:Ew.
      assert (Nw : w <> []) by (subst; discriminate). clear Ew c s.
      pose proof (scan_munch rules w) as M. destruct (scan rules 0 w None) as [[n a]|].
      + destruct M as (t & u & -> & -> & M). rewrite firstn_len, skipn_len.
        assert (Lu : List.length u <= fuel).
        { rewrite app_length in L. pose proof (mu_nonempty _ _ _ _ M). destruct t; [contradiction|]. cbn in L. lia. }
        specialize (IH (off + blen t) u Lu).
        destruct (a t) as [[x|]|] eqn:Ea.
        * destruct (lexed rules unmatched err_len fuel (off + blen t) u) as [[items|]|]; cbn.
          -- eapply tz_item; eauto.
          -- exact IH.
          -- eapply pa_later; eauto.
        * destruct (lexed rules unmatched err_len fuel (off + blen t) u) as [[items|]|].
          -- eapply tz_skip; eauto.
          -- exact IH.
          -- eapply pa_later; eauto.
        * eapply pa_here; eauto.
      + destruct (failed_split w Nw) as (t & u & Ew & Nt & ->). subst w. rewrite firstn_len, skipn_len.
        assert (Lu : List.length u <= fuel).
        { rewrite app_length in L. destruct t; [contradiction|]. cbn in L. lia. }
        specialize (IH (off + blen t) u Lu).
        destruct (lexed rules unmatched err_len fuel (off + blen t) u) as [[items|]|]; cbn.
        * eapply tz_fail; eauto.
        * exact IH.
        * eapply pa_fail; eauto.
  Qed.
End Lexer.
