(** * The tokens of a text do not depend on its layout *)
From Coq Require Import String Ascii.
From Coq Require Import List NArith Arith Bool Lia.
From Verif Require Import Base BaseFacts Types SpecTypes Token SpecOptions LexPost SpecLex LexFacts P_Lex Lexer SpecLexer LexerFacts P_Lexer DisplayLex DisplayText DisplayLexed DisplayDump SpecLayout.
Import ListNotations.
Local Open Scope nat_scope.

(** ** Up to the first newline *)
Lemma first_newline a b x y : ~ In 10%N a -> ~ In 10%N b -> a ++ 10%N :: x = b ++ 10%N :: y -> a = b /\ x = y.
Proof.
  revert b. induction a as [|c a IH]; intros [|d b] Ha Hb Q; cbn in *.
  - injection Q as ->. auto.
  - injection Q as <- _. tauto.
  - injection Q as -> _. tauto.
  - injection Q as -> Q. destruct (IH b) as [-> ->]; auto.
Qed.

Lemma end_newline e : line_end e -> exists p, e = p ++ [10%N] /\ ~ In 10%N p.
Proof. intros [->| ->]; [exists []|exists [13%N]]; (split; [reflexivity|]); cbn; intuition discriminate. Qed.

Lemma ignored_split l : ignored_line l -> exists c p, l = c :: p ++ [10%N] /\ ignored_first c /\ ~ In 10%N (c :: p).
Proof.
  intros (c & t & e & -> & Hc & Ht & He). destruct (end_newline e He) as (p & -> & Hp). exists c, (t ++ p). rewrite <- app_assoc. split; [reflexivity|]. split; [exact Hc|].
  cbn. intros [X|X]; [subst c; unfold ignored_first in Hc; cbn in Hc; intuition discriminate|]. apply in_app_or in X. unfold no_newline in Ht. tauto.
Qed.
Lemma break_split s : line_break s -> exists p ls, s = p ++ 10%N :: concat ls /\ ~ In 10%N p /\ Forall ignored_line ls.
Proof.
  intros (c & e & ls & -> & Hc & He & Hl). destruct (end_newline e He) as (p & -> & Hp). exists (c ++ p), ls. rewrite <- !app_assoc. split; [reflexivity|]. split; [|exact Hl].
  intro X. apply in_app_or in X. destruct X as [X|X]; [|tauto]. destruct Hc as [->|(t & -> & Ht)]; [destruct X|]. destruct X as [X|X]; [discriminate|]. unfold no_newline in Ht. tauto.
Qed.

(** Of two runs of ignored lines in front of a text, one goes on from the other. *)
Lemma ignored_runs ls : Forall ignored_line ls -> forall ls' x y, Forall ignored_line ls' -> concat ls ++ x = concat ls' ++ y ->
  (exists more, Forall ignored_line more /\ x = concat more ++ y) \/ (exists more, Forall ignored_line more /\ y = concat more ++ x).
Proof.
  induction 1 as [|l ls Hl F IH]; intros ls' x y F' Q.
  - left. exists ls'. auto.
  - destruct F' as [|l' ls' Hl' F'].
    + right. exists (l :: ls). split; [constructor; auto|]. cbn in *. auto.
    + destruct (ignored_split l Hl) as (c & p & -> & Hc & Hp). destruct (ignored_split l' Hl') as (c' & p' & -> & Hc' & Hp').
      cbn [concat] in Q. rewrite <- !app_assoc in Q. change ((c :: p) ++ 10%N :: concat ls ++ x = (c' :: p') ++ 10%N :: concat ls' ++ y) in Q || idtac.
      replace ((c :: p ++ [10%N]) ++ concat ls ++ x) with ((c :: p) ++ 10%N :: concat ls ++ x) in Q by (cbn; rewrite <- app_assoc; reflexivity).
      replace ((c' :: p' ++ [10%N]) ++ concat ls' ++ y) with ((c' :: p') ++ 10%N :: concat ls' ++ y) in Q by (cbn; rewrite <- app_assoc; reflexivity).
      destruct (first_newline _ _ _ _ Hp Hp' Q) as [_ Q']. apply (IH ls' x y F' Q').
Qed.
Lemma ignored_head ls x : Forall ignored_line ls -> ls <> [] -> exists c r, concat ls ++ x = c :: r /\ ignored_first c.
Proof.
  intros F N. destruct F as [|l ls Hl F]; [congruence|]. destruct (ignored_split l Hl) as (c & p & -> & Hc & _). exists c. eexists. split; [reflexivity|exact Hc].
Qed.
Lemma ignored_not_blank c : ignored_first c -> ~ is_blank c.
Proof. unfold ignored_first, is_blank. cbn. intros H [->| ->]; intuition discriminate. Qed.

(** Chars of words, and strings may have others. *)
Definition ink (c : N) : Prop := (c <> 32 /\ c <> 9 /\ c <> 10 /\ c <> 13 /\ c <> 59)%N.
Lemma ink_range c : (33 <= c <= 58 \/ 60 <= c)%N -> ink c.
Proof. unfold ink. lia. Qed.

Section LayoutLex.
  Context (L : lexer_env) (UO : unicode_ok (le_unicode L)).
  Notation lexeme := (lexeme L).

  (** ** Chars of words *)
  Lemma digit_ink c : decimal_digit L c -> ink c.
  Proof. intro H. apply (digit_first L UO) in H. apply ink_range. lia. Qed.
  Lemma start_ink c : u_Lu (le_unicode L) c = true \/ u_Lo (le_unicode L) c = true \/ u_N (le_unicode L) c = true -> ink c.
  Proof.
    intro H. apply ink_range. destruct (N.lt_ge_cases c 128) as [Lt|]; [|lia]. destruct (ascii_class L UO c Lt) as (_ & A & B & D & _).
    rewrite A, B, D in H. unfold is_ascii_uppercase, is_ascii_digit in H.
    destruct H as [H|[H|H]]; try discriminate; apply andb_true_iff in H; destruct H as [Q W]; apply N.leb_le in Q, W; lia.
  Qed.
  Lemma account_ink c : account_char L c -> ink c.
  Proof.
    intro H. apply ink_range. destruct (N.lt_ge_cases c 128) as [Lt|]; [|lia]. destruct (ascii_class L UO c Lt) as (A & _ & _ & D & _).
    unfold account_char in H. rewrite A, D in H. unfold is_ascii_uppercase, is_ascii_lowercase, is_ascii_digit in H.
    destruct H as [H|[H|H]]; [| |lia]; [apply orb_true_iff in H; destruct H as [H|H]|]; apply andb_true_iff in H; destruct H as [Q W]; apply N.leb_le in Q, W; lia.
  Qed.
  Lemma middle_ink c : currency_middle c -> ink c.
  Proof. intro H. apply ink_range. unfold currency_middle, upper, digit in H. intuition lia. Qed.
  Lemma identifier_ink c : identifier_char c -> ink c.
  Proof. intro H. apply ink_range. unfold identifier_char, upper, lower, digit in H. intuition lia. Qed.

  Lemma digits_ink n s : digits L n s -> Forall ink s.
  Proof. intros [_ F]. eapply Forall_impl; [|exact F]. exact digit_ink. Qed.
  Lemma ident_ink (p q : N -> Prop) s : (forall c, p c -> ink c) -> (forall c, q c -> ink c) -> identifier p q s -> Forall ink s.
  Proof. intros P Q (c & t & -> & Hc & Ht). constructor; [auto|]. eapply Forall_impl; [|exact Ht]. auto. Qed.

  Definition break_token (b : str) : token := match b with [] => T_Eol | _ => T_EolThenIndent end.

  Lemma lexeme_kinds s o : lexeme s o ->
    (s <> [] /\ Forall ink s) \/ (exists b, s = 34%N :: b ++ [34%N] /\ string_body b) \/ (blanks s /\ o = Fine None) \/
    (exists x b, line_break x /\ Forall is_blank b /\ s = x ++ b /\ o = tok (break_token b)) \/
    (last_comment s /\ o = tok T_EolComment).
  Proof.
    intro H.
    assert (Ap : forall a c b, Forall ink a -> ink c -> Forall ink b -> (a ++ c :: b) <> [] /\ Forall ink (a ++ c :: b)).
    { intros a c b A C B. split; [now destruct a|]. apply Forall_app. split; [exact A|]. constructor; auto. }
    destruct H.
    - right. right. left. auto.
    - left. cbn in H. repeat (destruct H as [H|H]; [injection H as <- <-; split; [discriminate|]; repeat (constructor; [apply ink_range; cbn; lia|]); constructor|]). destruct H.
    - left. split; [destruct k; discriminate|]. destruct k; repeat (constructor; [apply ink_range; cbn; lia|]); constructor.
    - left. assert (I1 : forall b, identifier upper currency_middle b -> Forall ink b).
      { intro b. apply ident_ink; [intros c Hc; apply ink_range; unfold upper in Hc; lia|exact middle_ink]. }
      destruct H as [H|(a & b & -> & Ha & Hb)].
      + split; [|auto]. destruct H as (c & t & -> & _). discriminate.
      + split; [discriminate|]. constructor; [apply ink_range; lia|]. apply Forall_app. split; [|auto]. eapply Forall_impl; [|exact Ha]. intros c [Hc _]. apply middle_ink. exact Hc.
    - left. split; [discriminate|]. constructor; [apply ink_range; lia|]. constructor; [|constructor]. apply ink_range. unfold upper in H. lia.
    - left. apply Ap; [eapply digits_ink; eassumption|apply ink_range; lia|]. apply Ap; [eapply digits_ink; eassumption|apply ink_range; lia|eapply digits_ink; eassumption].
    - left. apply Ap; [destruct H as [H|H]; eapply digits_ink; eassumption|apply ink_range; lia|eapply digits_ink; eassumption].
    - left. apply Ap; [destruct H as [H|H]; eapply digits_ink; eassumption|apply ink_range; lia|].
      apply Ap; [eapply digits_ink; eassumption|apply ink_range; lia|eapply digits_ink; eassumption].
    - left. destruct (account_first _ _ H) as (c & r & -> & _). split; [discriminate|]. destruct H as (t & n & ns & -> & Ht & Hn).
      assert (J : forall ws, Forall (fun w => Forall ink w) ws -> Forall ink (join_colon ws)).
      { clear. induction 1 as [|w [|w' ws] Hw F IH]; cbn [join_colon]; [constructor|exact Hw|]. apply Forall_app. split; [exact Hw|]. constructor; [apply ink_range; lia|exact IH]. }
      apply J. constructor.
      + eapply ident_ink; [| |exact Ht]; [cbn; intros; apply start_ink; tauto|exact account_ink].
      + eapply Forall_impl; [|exact Hn]. intros w Hw. eapply ident_ink; [| |exact Hw]; [cbn; intros; apply start_ink; tauto|exact account_ink].
    - right. left. eauto.
    - right. left. eauto.
    - left. destruct (number_first _ _ _ _ _ H) as (c & r & -> & _). split; [discriminate|]. destruct H as (_ & Hi & Hg & Hf & ->).
      assert (Dk : forall d, Forall (decimal_digit L) d -> Forall ink d) by (intros d Hd; eapply Forall_impl; [|exact Hd]; exact digit_ink).
      apply Forall_app. split; [auto|]. apply Forall_app. split.
      + apply Forall_flat_map. eapply Forall_impl; [|exact Hg]. intros g G. constructor; [apply ink_range; lia|eapply digits_ink; exact G].
      + destruct f as [d|]; constructor; [apply ink_range; lia|]. apply Dk. apply (Hf d eq_refl).
    - left. split; [discriminate|]. constructor; [apply ink_range; lia|]. eapply Forall_impl; [|apply H]. intros c [Hc|Hc]; [apply identifier_ink; exact Hc|apply ink_range; lia].
    - left. split; [discriminate|]. constructor; [apply ink_range; lia|]. eapply Forall_impl; [|apply H]. intros c [Hc|Hc]; [apply identifier_ink; exact Hc|apply ink_range; lia].
    - left. destruct H as [H _]. split; [destruct H as (c & t & -> & _); discriminate|]. eapply ident_ink; [| |exact H]; [intros c Hc; apply ink_range; unfold lower in Hc; lia|exact identifier_ink].
    - right. right. right. left. exists s, b. destruct H0 as [Nb Fb]. repeat split; auto. destruct b; [congruence|reflexivity].
    - right. right. right. left. exists s, []. repeat split; auto. symmetry. apply app_nil_r.
    - right. right. right. right. split; [|reflexivity]. exists s. auto.
  Qed.

  Lemma break_first x : line_break x -> exists c r, x = c :: r /\ (c = 10%N \/ c = 13%N \/ c = 59%N).
  Proof.
    intros (c & e & ls & -> & [->|(t & -> & _)] & [->| ->] & _); cbn; eauto 6.
  Qed.

  (** ** The longest lexeme *)
  (** After a word there is the end, or what is in no word. *)
  Definition word_ends (rest : str) : Prop := forall c r, rest = c :: r -> ~ ink c.

  Lemma body_quote b : string_body b -> forall w, ~ string_body (b ++ 34%N :: w).
  Proof.
    induction 1 as [|c b N1 N2 S IH|c b N S IH]; intros w H.
    - inversion H; congruence.
    - inversion H; subst; [eapply IH; eassumption|congruence].
    - inversion H; subst; [congruence|eapply IH; eassumption].
  Qed.

  Lemma word_longest' w t rest : lexeme w (tok t) -> is_eol t = false -> word_ends rest -> longest lexeme w rest.
  Proof.
    intros H Ht R.
    assert (Nw : w <> []).
    { destruct (lexeme_kinds _ _ H) as [[X _]|[(b & -> & _)|Y]]; [exact X|discriminate|].
      destruct Y as [[_ Y]|[(x & b & _ & _ & _ & Y)|[_ Y]]]; try discriminate; injection Y as ->; [destruct b|]; discriminate. }
    apply (longest_by L _ _ (tok t) Nw H). intros c u v o' Er H'.
    assert (Nc : ~ ink c) by (eapply R; exact Er).
    destruct (lexeme_kinds _ _ H') as [[_ X]|X].
    { apply Forall_app in X. destruct X as [_ X]. inversion X; subst. contradiction. }
    destruct (lexeme_kinds _ _ H) as [[_ Fw]|[(b & -> & Sb)|Y]].
    - destruct w as [|d w]; [congruence|]. inversion Fw as [|? ? Id Fw']; subst.
      destruct X as [(b & Q & Sb)|[[[_ F] _]|[(x & b & Hx & _ & Q & _)|[(q & Q & _) _]]]].
      + cbn in Q. injection Q as -> Q.
        (* a lexeme which starts with a quote is a string *)
        destruct (lexeme_follows L UO _ _ 34%N w H eq_refl) as (b0 & Qw & Sb0). subst w.
        assert (exists w', b = b0 ++ 34%N :: w').
        { destruct (exists_last (l := c :: u)) as (w' & z & Ew); [discriminate|]. exists w'. rewrite <- app_assoc in Q. cbn [app] in Q. rewrite Ew in Q.
          change (b0 ++ 34%N :: w' ++ [z] = b ++ [34%N]) in Q. rewrite app_comm_cons, app_assoc in Q. apply app_inj_tail in Q. symmetry. apply Q. }
        destruct H0 as [w' ->]. exact (body_quote b0 Sb0 w' Sb).
      + cbn in F. inversion F as [|? ? B _]; subst. destruct B as [->| ->]; unfold ink in Id; tauto.
      + destruct (break_first x Hx) as (c' & r' & -> & Hc'). cbn in Q. injection Q as -> _. unfold ink in Id. intuition congruence.
      + cbn in Q. injection Q as -> _. unfold ink in Id. tauto.
    - cbn [app] in H'. rewrite <- app_assoc in H'. cbn [app] in H'.
      destruct (lexeme_follows L UO _ _ 34%N (b ++ 34%N :: c :: u) H' eq_refl) as (b' & Q & Sb').
      assert (exists w', b' = b ++ 34%N :: w').
      { destruct (exists_last (l := c :: u)) as (w' & z & Ew); [discriminate|]. exists w'. rewrite Ew in Q.
        change (b ++ 34%N :: w' ++ [z] = b' ++ [34%N]) in Q. rewrite app_comm_cons, app_assoc in Q. apply app_inj_tail in Q. symmetry. apply Q. }
      destruct H0 as [w' ->]. exact (body_quote b Sb w' Sb').
    - destruct Y as [[_ Y]|[(x & b & _ & _ & _ & Y)|[_ Y]]]; try discriminate; injection Y as ->; [destruct b|]; discriminate.
  Qed.

  Lemma word_first w t : lexeme w (tok t) -> is_eol t = false -> exists c r, w = c :: r /\ ink c.
  Proof.
    intros H Ht. destruct (lexeme_kinds _ _ H) as [[Nw Fw]|[(b & -> & _)|Y]].
    - destruct w as [|c w]; [congruence|]. inversion Fw; subst. eauto.
    - exists 34%N. eexists. split; [reflexivity|]. apply ink_range. lia.
    - destruct Y as [[_ Y]|[(x & b & _ & _ & _ & Y)|[_ Y]]]; try discriminate; injection Y as ->; [destruct b|]; discriminate.
  Qed.

  Lemma blanks_longest b rest : blanks b -> no_blank rest -> longest lexeme b rest.
  Proof.
    intros [Nb Fb] R. apply (longest_by L _ _ (Fine None) Nb); [apply lx_blank; split; auto|]. intros c u v o' Er H'.
    destruct b as [|d b]; [congruence|]. inversion Fb as [|? ? Bd Fb']; subst.
    assert (Nd : ~ ink d) by (unfold ink; destruct Bd as [->| ->]; tauto).
    destruct (lexeme_kinds _ _ H') as [[_ F]|[(q & Q & _)|[[[_ F] _]|[(x & q & Hx & _ & Q & _)|[(q & Q & _) _]]]]].
    - inversion F; contradiction.
    - cbn in Q. injection Q as -> _. destruct Bd; discriminate.
    - apply Forall_app in F. destruct F as [_ F]. inversion F as [|? ? B _]; subst. exact (R _ _ eq_refl B).
    - destruct (break_first x Hx) as (c' & r' & -> & Hc'). cbn in Q. injection Q as -> _. destruct Bd as [->| ->]; intuition discriminate.
    - cbn in Q. injection Q as -> _. destruct Bd; discriminate.
  Qed.

  Lemma break_longest x b rest : line_break x -> Forall is_blank b -> no_blank rest -> (b = [] -> forall c r, rest = c :: r -> ~ ignored_first c) ->
    longest lexeme (x ++ b) rest /\ lexeme (x ++ b) (tok (break_token b)).
  Proof.
    intros Hx Hb R Ri.
    assert (H : lexeme (x ++ b) (tok (break_token b))).
    { destruct b as [|d b]; [rewrite app_nil_r; apply lx_eol; exact Hx|]. apply (lx_indent L x (d :: b) Hx). split; [discriminate|exact Hb]. }
    split; [|exact H]. destruct (break_first x Hx) as (d & x0 & Qx & Hd).
    assert (Nd : ~ ink d) by (unfold ink; intuition).
    apply (longest_by L _ _ (tok (break_token b))); [subst x; discriminate|exact H|]. intros c u v o' Er H'.
    destruct (break_split x Hx) as (p & ls & Qp & Np & Fl).
    assert (Nl : In 10%N (x ++ b)) by (rewrite Qp; apply in_or_app; left; apply in_or_app; right; left; reflexivity).
    destruct (lexeme_kinds _ _ H') as [[_ F]|[(q & Q & _)|[[[_ F] _]|[(x' & b' & Hx' & Hb' & Q & _)|[(q & Q & Nq & _) _]]]]].
    - rewrite Qx in F. inversion F; contradiction.
    - rewrite Qx in Q. cbn in Q. injection Q as -> _. intuition discriminate.
    - rewrite Qx in F. inversion F as [|? ? B _]; subst. destruct B as [->| ->]; intuition discriminate.
    - destruct (break_split x' Hx') as (p' & ls' & Qp' & Np' & Fl'). rewrite Qp, Qp' in Q. rewrite <- !app_assoc in Q. cbn [app] in Q.
      destruct (first_newline _ _ _ _ Np Np' Q) as [_ Q']. clear Q.
      destruct (ignored_runs ls Fl ls' _ _ Fl' Q') as [(more & Fm & Qm)|(more & Fm & Qm)].
      + destruct more as [|m more].
        * cbn in Qm. subst b'. apply Forall_app in Hb'. destruct Hb' as [_ F]. inversion F as [|? ? B _]; subst. exact (R _ _ eq_refl B).
        * destruct (ignored_head (m :: more) b' Fm) as (e & r & Qh & He); [discriminate|]. rewrite Qh in Qm. destruct b as [|f b].
          -- cbn in Qm. injection Qm as -> _. exact (Ri eq_refl _ _ Er He).
          -- cbn in Qm. injection Qm as -> _. inversion Hb; subst. exact (ignored_not_blank _ He H2).
      + destruct more as [|m more].
        * cbn in Qm. subst b'. apply Forall_app in Hb'. destruct Hb' as [_ F]. inversion F as [|? ? B _]; subst. exact (R _ _ eq_refl B).
        * destruct (ignored_head (m :: more) (b ++ c :: u) Fm) as (e & r & Qh & He); [discriminate|]. rewrite Qh in Qm. subst b'. inversion Hb'; subst. exact (ignored_not_blank _ He H2).
    - assert (X : In 10%N (59%N :: q)) by (rewrite <- Q; apply in_or_app; left; exact Nl). destruct X as [X|X]; [discriminate|contradiction].
  Qed.

  (** ** Cutting *)
  Definition cuts (s : str) (raw : list token) : Prop :=
    forall off, exists its, well_cut lexeme off s its /\ map fst its = map (@Ok _ _) raw.

  Lemma cuts_nil : cuts [] [].
  Proof. intro off. exists []. split; [constructor|reflexivity]. Qed.
  Lemma cuts_item w t s raw : lexeme w (tok t) -> longest lexeme w s -> cuts s raw -> cuts (w ++ s) (t :: raw).
  Proof.
    intros H Lg C off. destruct (C (off + blen w)) as (its & W & M). exists ((Ok t, (off, off + blen w)) :: its). split; [apply wc_item; auto|]. cbn. rewrite M. reflexivity.
  Qed.
  Lemma cuts_blanks b s raw : Forall is_blank b -> no_blank s -> cuts s raw -> cuts (b ++ s) raw.
  Proof.
    intros Hb Ns C off. destruct b as [|d b]; [apply C|]. destruct (C (off + blen (d :: b))) as (its & W & M). exists its. split; [|exact M].
    assert (B : blanks (d :: b)) by (split; [discriminate|exact Hb]). apply wc_skip; [apply blanks_longest; assumption|apply lx_blank; exact B|exact W].
  Qed.
  Lemma cuts_break x b s raw : line_break x -> Forall is_blank b -> no_blank s -> (b = [] -> forall c r, s = c :: r -> ~ ignored_first c) ->
    cuts s raw -> cuts (x ++ b ++ s) (break_token b :: raw).
  Proof.
    intros Hx Hb Ns Ni C. destruct (break_longest x b s Hx Hb Ns Ni) as [Lg H]. rewrite app_assoc. apply cuts_item; assumption.
  Qed.

  Definition eols (l : list token) : Prop := Forall (fun t => is_eol t = true) l.
  Definition brk (i : bool) : token := if i then T_EolThenIndent else T_Eol.

  Lemma closes_no_blank c : c = 10%N \/ c = 13%N \/ c = 59%N -> ~ is_blank c /\ ~ ignored_first c.
  Proof. unfold is_blank, ignored_first. cbn. intros [->|[->| ->]]; split; intuition discriminate. Qed.

  Lemma gaps_first i g : gaps (Some i) g -> exists c r, g = c :: r /\ (c = 10%N \/ c = 13%N \/ c = 59%N).
  Proof.
    intro H. remember (Some i) as o. destruct H as [|e He|e b He Hb|e b j g He Hb Hg]; try discriminate; destruct (break_first e He) as (c & r & -> & Hc); cbn; eauto.
  Qed.
  Lemma gaps_no_blank o g s : gaps o g -> no_blank s -> no_blank (g ++ s).
  Proof.
    intros H Ns. destruct o as [i|]; [|inversion H; subst; exact Ns]. destruct (gaps_first i g H) as (c & r & -> & Hc).
    intros d q Q. cbn in Q. injection Q as <- _. apply closes_no_blank. exact Hc.
  Qed.

  Lemma cuts_gaps o g s raw : gaps o g -> no_blank s -> (o = Some false -> ~ ignored_start s) -> cuts s raw ->
    exists run, eols run /\ match o with None => run = [] | Some i => exists run', run = run' ++ [brk i] end /\ cuts (g ++ s) (run ++ raw).
  Proof.
    intros H Ns Ni C. induction H as [|e He|e b He Hb|e b i g He Hb Hg IH].
    - exists []. split; [constructor|]. auto.
    - exists [T_Eol]. split; [constructor; [reflexivity|constructor]|]. split; [exists []; reflexivity|].
      apply (cuts_break e [] s raw He); auto. intros _ c r -> Hc. apply Ni; [reflexivity|]. exists c, r. auto.
    - exists [T_EolThenIndent]. split; [constructor; [reflexivity|constructor]|]. split; [exists []; reflexivity|].
      rewrite <- app_assoc. destruct Hb as [Nb Fb]. replace (T_EolThenIndent) with (break_token b) by (destruct b; [congruence|reflexivity]).
      apply (cuts_break e b s raw He Fb Ns); [congruence|exact C].
    - destruct (IH Ni) as (run & Er & (run' & ->) & Cg). exists (break_token b :: run' ++ [brk i]). split; [constructor; [destruct b; reflexivity|exact Er]|].
      split; [exists (break_token b :: run'); reflexivity|]. rewrite <- !app_assoc. cbn [app]. apply cuts_break; auto.
      + apply (gaps_no_blank _ _ _ Hg Ns).
      + intros _ c r Q. destruct (gaps_first i g Hg) as (d & q & -> & Hd). cbn in Q. injection Q as <- _. apply closes_no_blank. exact Hd.
  Qed.

  Lemma worded_no_blank ws rest s : worded L ws rest s -> no_blank rest -> no_blank s.
  Proof.
    intros H N. destruct H as [|w t b ws rest s Hw Ht Hb Lg W]; [exact N|]. destruct (word_first w t Hw Ht) as (c & r & -> & Hc).
    intros d q Q. cbn in Q. injection Q as <- _. unfold ink in Hc. intros [->| ->]; tauto.
  Qed.
  Lemma cuts_worded ws rest s : worded L ws rest s -> no_blank rest -> forall raw, cuts rest raw -> cuts s (map snd ws ++ raw).
  Proof.
    intros H N. induction H as [|w t b ws rest s Hw Ht Hb Lg W IH]; intros raw C; [exact C|].
    cbn [map snd app]. apply cuts_item; [exact Hw|exact Lg|]. apply cuts_blanks; [exact Hb|apply (worded_no_blank _ _ _ W N)|apply IH; auto].
  Qed.

  Lemma comment_no_blank c : last_comment c -> no_blank c.
  Proof. intros (t & -> & _) d r Q. injection Q as <- _. intros [X|X]; discriminate. Qed.
  Lemma cuts_comment c : last_comment c -> cuts c [T_EolComment].
  Proof.
    intros (t & -> & N1 & N2). rewrite <- (app_nil_r (59%N :: t)). assert (H : lexeme (59%N :: t) (tok T_EolComment)) by (apply lx_comment; assumption).
    apply cuts_item; [exact H| |apply cuts_nil]. apply (longest_by L _ _ _ (fun X => @nil_cons _ _ _ (eq_sym X)) H). discriminate.
  Qed.
  Lemma lined_no_blank fin ls s : lined L fin ls s -> no_blank s.
  Proof.
    induction 1 as [|g Hg|o g c Hg Hc|fin i ws ls g s rest Hg W B I l IH].
    - discriminate.
    - rewrite <- (app_nil_r g). apply (gaps_no_blank _ _ _ Hg). discriminate.
    - apply (gaps_no_blank _ _ _ Hg). apply comment_no_blank. exact Hc.
    - apply (gaps_no_blank _ _ _ Hg). apply (worded_no_blank _ _ _ W IH).
  Qed.

  (** The tokens before keys and ends of lines are settled. *)
  Definition piece (r : list token * (bool * list token)) : list token := fst r ++ brk (fst (snd r)) :: snd (snd r).
  Definition final (fin : bool) (f : list token) : Prop :=
    if fin then exists run z, f = run ++ [z] /\ eols run /\ (z = T_Eol \/ z = T_EolComment) else f = [].
  Definition unlaid (l : words_line) : bool * list token := (fst l, map snd (snd l)).

  Lemma cuts_lined fin ls s : lined L fin ls s ->
    exists rs f, cuts s (flat_map piece rs ++ f) /\ map snd rs = map unlaid ls /\ Forall (fun r => eols (fst r)) rs /\ final fin f.
  Proof.
    induction 1 as [|g Hg|o g c Hg Hc|fin i ws ls g s rest Hg W B I l IH].
    - exists [], []. split; [apply cuts_nil|]. repeat split; constructor.
    - destruct (cuts_gaps _ g [] [] Hg) as (run & Er & (run' & ->) & C); [discriminate|intros _ (c & r & X & _); discriminate|apply cuts_nil|].
      rewrite !app_nil_r in C. exists [], (run' ++ [T_Eol]). split; [exact C|]. split; [reflexivity|]. split; [constructor|].
      exists run', T_Eol. split; [reflexivity|]. split; [|auto]. apply Forall_app in Er. apply Er.
    - destruct (cuts_gaps o g c [T_EolComment] Hg) as (run & Er & _ & C); [apply comment_no_blank; exact Hc| |apply cuts_comment; exact Hc|].
      { intros _ (d & r & X & Hd). destruct Hc as (t & -> & _). injection X as <- _. cbn in Hd. intuition discriminate. }
      exists [], (run ++ [T_EolComment]). split; [exact C|]. split; [reflexivity|]. split; [constructor|]. exists run, T_EolComment. auto.
    - destruct IH as (rs & f & C & Mr & Fr & Ff). pose proof (lined_no_blank _ _ _ l) as Nr.
      pose proof (cuts_worded ws rest s W Nr _ C) as C'.
      assert (I' : Some i = Some false -> ~ ignored_start s) by (intro Q; injection Q as ->; auto).
      destruct (cuts_gaps (Some i) g s _ Hg (worded_no_blank _ _ _ W Nr) I' C') as (run & Er & (run' & ->) & Cg).
      exists ((run', (i, map snd ws)) :: rs), f. split; [|split; [cbn; rewrite Mr; reflexivity|split; [constructor; [cbn; apply Forall_app in Er; apply Er|exact Fr]|exact Ff]]].
      cbn [flat_map]. unfold piece at 1. cbn [fst snd]. rewrite <- !app_assoc in *. cbn [app] in *. exact Cg.
  Qed.

  (** ** The whole text *)
  Lemma cuts_set_out fin ls s : set_out L fin ls s ->
    (ls = [] /\ exists run, eols run /\ cuts s run) \/
    exists i ws ls' run rs f, ls = (i, ws) :: ls' /\ begins ws /\ eols run /\ cuts s (run ++ map snd ws ++ flat_map piece rs ++ f) /\
      map snd rs = map unlaid ls' /\ Forall (fun r => eols (fst r)) rs /\ final fin f.
  Proof.
    intros [fin' b o g c Hb Hg Hc|fin' i ws ls' b o g s' rest Hb Hg W B I l].
    - left. split; [reflexivity|].
      assert (Cc : exists z, eols z /\ cuts c z).
      { destruct Hc as [->|Hc]; [exists []; split; [constructor|apply cuts_nil]|exists [T_EolComment]; split; [constructor; [reflexivity|constructor]|apply cuts_comment; exact Hc]]. }
      assert (Nc : no_blank c) by (destruct Hc as [->|Hc]; [discriminate|apply comment_no_blank; exact Hc]).
      destruct Cc as (z & Ez & Cz). destruct (cuts_gaps o g c z Hg Nc) as (run & Er & _ & C); [|exact Cz|].
      { intros _ (d & r & X & Hd). destruct Hc as [->|(t & -> & _)]; [discriminate|]. injection X as <- _. cbn in Hd. intuition discriminate. }
      exists (run ++ z). split; [apply Forall_app; auto|]. apply cuts_blanks; [exact Hb|apply (gaps_no_blank _ _ _ Hg Nc)|exact C].
    - right. destruct (cuts_lined _ _ _ l) as (rs & f & C & Mr & Fr & Ff). pose proof (lined_no_blank _ _ _ l) as Nr.
      pose proof (cuts_worded ws rest s' W Nr _ C) as C'. pose proof (worded_no_blank _ _ _ W Nr) as Ns.
      destruct (cuts_gaps o g s' _ Hg Ns I C') as (run & Er & _ & Cg).
      exists i, ws, ls', run, rs, f. split; [reflexivity|]. split; [exact B|]. split; [exact Er|]. split; [|auto].
      apply cuts_blanks; [exact Hb|apply (gaps_no_blank _ _ _ Hg Ns)|exact Cg].
  Qed.

  Context (ND : forall c, u_Nd (le_unicode L) c = true -> u_Lu (le_unicode L) c = false /\ u_Lo (le_unicode L) c = false).

  Lemma cuts_lexed s raw : cuts s raw -> exists keys, map fst keys = tkeyed raw /\ lex L s = Fine (handle_eol_indent keys (Some (blen s, blen s))).
  Proof.
    intro C. apply (spelled_lexed L UO ND). intros rest off items -> W.
    assert (items = []) as ->.
    { remember ([] : str) as e. destruct W as [|o1 t r its Lg|o1 t r x its Lg]; [reflexivity| |]; destruct Lg as [Nt _]; destruct t; discriminate || congruence. }
    destruct (C off) as (its & W' & M). exists its. rewrite !app_nil_r. auto.
  Qed.
End LayoutLex.

(** ** Keys and ends of lines *)
Lemma words_tokens_keyed l : words_tokens l = tkeyed l.
Proof.
  induction l as [|t l IH]; [reflexivity|]. cbn [tkeyed]. rewrite <- IH. destruct t; try reflexivity. destruct l as [|u l]; [reflexivity|]. destruct u; reflexivity.
Qed.
Lemma tkeyed_eols l r : eols l -> tkeyed (l ++ r) = l ++ tkeyed r.
Proof.
  induction 1 as [|t l Ht F IH]; [reflexivity|]. cbn [app tkeyed]. rewrite IH. f_equal. destruct t; try reflexivity. discriminate.
Qed.
Lemma tkeyed_eol_only l : eols l -> tkeyed l = l.
Proof. intro H. pose proof (tkeyed_eols l [] H) as Q. rewrite !app_nil_r in Q. exact Q. Qed.
Lemma eols_no_colon l r : eols l -> l <> [] -> no_colon_first (l ++ r).
Proof. intros F N. destruct F as [|t l Ht F]; [congruence|]. destruct t; try exact Logic.I. discriminate. Qed.
Definition keyed_piece (r : list token * (bool * list token)) := (fst r, (fst (snd r), tkeyed (snd (snd r)))).
Lemma final_no_colon fin f : final fin f -> no_colon_first f /\ tkeyed f = f.
Proof.
  destruct fin; [|intros ->; split; [exact Logic.I|reflexivity]]. intros (run & z & -> & Er & Hz).
  assert (F : eols (run ++ [z])) by (apply Forall_app; split; [exact Er|]; constructor; [destruct Hz as [->| ->]; reflexivity|constructor]).
  split; [|apply tkeyed_eol_only; exact F]. rewrite <- (app_nil_r (run ++ [z])). apply eols_no_colon; [exact F|now destruct run].
Qed.
Lemma pieces_no_colon rs f fin : Forall (fun r => eols (fst r)) rs -> final fin f -> no_colon_first (flat_map piece rs ++ f).
Proof.
  intros F Ff. destruct F as [|r rs Hr F]; [apply (final_no_colon fin f Ff)|]. cbn [flat_map]. unfold piece at 1.
  destruct r as [run [i ts]]. cbn [fst snd] in *. destruct Hr as [|t run Ht F']; cbn; [destruct i; exact Logic.I|]. destruct t; try exact Logic.I. discriminate.
Qed.
Lemma tkeyed_pieces rs f fin : Forall (fun r => eols (fst r)) rs -> final fin f -> tkeyed (flat_map piece rs ++ f) = flat_map piece (map keyed_piece rs) ++ f.
Proof.
  intros F Ff. induction F as [|r rs Hr F IH]; [apply (final_no_colon fin f Ff)|]. cbn [flat_map map]. rewrite <- !app_assoc.
  destruct r as [run [i ts]]. unfold piece at 1 3, keyed_piece at 1. cbn [fst snd] in *. rewrite <- !app_assoc, tkeyed_eols by exact Hr. f_equal.
  cbn [app]. replace (tkeyed (brk i :: ts ++ flat_map piece rs ++ f)) with (brk i :: tkeyed (ts ++ flat_map piece rs ++ f)) by (destruct i; reflexivity).
  rewrite tkeyed_app by (eapply pieces_no_colon; eassumption). rewrite IH. reflexivity.
Qed.

Lemma lines_ranged_g fin f rest : Forall (fun l => eols (fst l) /\ clear (snd (snd l))) rest -> final fin f -> forall l : list rtoken, map fst l = flat_map piece rest ++ f ->
  exists ls, SpecLex.lines_of l ls /\ (ls = [] <-> rest = [] /\ fin = false) /\ kept_list ls = ls /\ map fst (flat_map emit ls) = flat_map laid (map snd rest) ++ (if fin then [T_Eol] else []).
Proof.
  intros F Ff. induction F as [|[run [i c]] rest [Er (Cn & Cc & Ce)] F IH]; intros l Q.
  - cbn [flat_map app map] in *. destruct fin.
    + destruct Ff as (run & z & -> & Er & Hz). apply map_eq_app in Q as (r & q & -> & Qr & Qz). destruct q as [|[t x] [|? ?]]; try discriminate. injection Qz as ->.
      assert (Fr : Forall (fun y : rtoken => is_eol (fst y) = true) r) by (apply (proj1 (Forall_map fst (fun t => is_eol t = true) r)); rewrite Qr; exact Er).
      exists [(r ++ [(z, x)], [])]. split; [|split; [split; [discriminate|intros [_ X]; discriminate]|split]].
      * constructor; [cbn; now rewrite !app_nil_r| |].
        -- intros r' t' [X|[]]. injection X as <- <-. split; [now destruct r|]. split; [|constructor]. apply Forall_app. split; [exact Fr|]. constructor; [destruct Hz as [->| ->]; reflexivity|constructor].
        -- intros a r' t' d X N. destruct a as [|? [|? ?]]; injection X; intros; congruence || discriminate.
      * unfold kept_list, ignored_b. cbn [filter fst snd]. rewrite last_last. destruct z; reflexivity.
      * cbn [flat_map]. rewrite app_nil_r. unfold emit, break_of. cbn [fst snd]. rewrite app_nil_r. rewrite last_last. destruct r as [|[u [a e]] r]; cbn [app]; destruct x, Hz as [->| ->]; reflexivity.
    + rewrite Ff in Q. destruct l; [|discriminate]. exists []. split; [|split; [tauto|split; reflexivity]].
      constructor; [reflexivity|intros ? ? []|]. intros a r t b X. destruct a; discriminate.
  - cbn [flat_map fst snd] in Q. unfold piece in Q at 1. cbn [fst snd] in Q. rewrite <- !app_assoc in Q.
    apply map_eq_app in Q as (r & z & -> & Qr & Q). cbn [app] in Q. destruct z as [|[t x] z]; [discriminate|]. injection Q as Qt Q.
    apply map_eq_app in Q as (c' & l' & -> & Qc & Ql). cbn [fst snd] in *. subst c.
    destruct (IH l' Ql) as (ls & Ls & Ln & Lk & Le). exists ((r ++ [(t, x)], c') :: ls).
    assert (Fr : Forall (fun y : rtoken => is_eol (fst y) = true) r) by (apply (proj1 (Forall_map fst (fun t => is_eol t = true) r)); rewrite Qr; exact Er).
    assert (Ht : t = T_Eol \/ t = T_EolThenIndent) by (subst t; destruct i; auto).
    assert (Hi : is_eol t = true) by (destruct Ht as [->| ->]; reflexivity).
    assert (Nc : c' <> []) by (intros ->; apply Cn; reflexivity).
    split; [|split; [split; [discriminate|intros [X _]; discriminate]|split]].
    + assert (J := lo_all _ _ Ls). rewrite J in Ls |- *.
      replace (r ++ (t, x) :: c' ++ SpecLex.joined ls) with (SpecLex.joined ((r ++ [(t, x)], c') :: ls)) by (cbn; rewrite <- !app_assoc; reflexivity).
      apply lines_cons; auto; [now destruct r| |apply ranged_not_eol; exact Ce]. apply Forall_app. split; [exact Fr|]. constructor; [exact Hi|constructor].
    + unfold kept_list in *. cbn [filter]. rewrite kept_run; [|exact Ht|]. 2:{ intros q d ->. destruct Cc. }
      cbn [negb]. f_equal. exact Lk.
    + cbn [flat_map map]. rewrite map_app, Le, <- app_assoc, emit_run by assumption. unfold laid. cbn [fst snd]. subst t. destruct i; cbn; rewrite ?app_assoc; reflexivity.
Qed.

Lemma layout_lines_g fin f run c rest (l : list rtoken) e : clear c -> eols run -> Forall (fun l => eols (fst l) /\ clear (snd (snd l))) rest -> final fin f ->
  map fst l = run ++ c ++ flat_map piece rest ++ f ->
  exists out, handle_eol_indent l (Some e) = Some out /\
    map fst out = c ++ match rest with [] => [T_Eol] | _ => flat_map laid (map snd rest) ++ (if fin then [T_Eol] else []) end.
Proof.
  intros (Cn & Cc & Ce) Er F Ff Q. apply map_eq_app in Q. destruct Q as (r & l1 & -> & Qr & Q). apply map_eq_app in Q. destruct Q as (c' & l' & -> & Qc & Ql). subst c.
  assert (Fr : Forall (fun y : rtoken => is_eol (fst y) = true) r) by (apply (proj1 (Forall_map fst (fun t => is_eol t = true) r)); rewrite Qr; exact Er).
  destruct (lines_ranged_g fin f rest F Ff l' Ql) as (ls & Ls & Ln & Lk & Le).
  assert (Nc : c' <> []) by (intros ->; apply Cn; reflexivity).
  set (h := (T_Eol, (0, 0)) :: r).
  assert (Lo : SpecLex.lines_of ((T_Eol, (0, 0)) :: r ++ c' ++ l') ((h, c') :: ls)).
  { assert (J := lo_all _ _ Ls). rewrite J in Ls |- *. change ((T_Eol, (0, 0)) :: r ++ c' ++ SpecLex.joined ls) with (h ++ c' ++ SpecLex.joined ls).
    replace (h ++ c' ++ SpecLex.joined ls) with (SpecLex.joined ((h, c') :: ls)) by (cbn; rewrite <- ?app_assoc; reflexivity).
    apply lines_cons; auto; [discriminate| |apply ranged_not_eol; exact Ce]. constructor; [reflexivity|exact Fr]. }
  exists (layout ((h, c') :: ls) (Some e)). split; [apply handle_eol_indent_layout; exact Lo|].
  assert (St : strip ((h, c') :: ls) = Some (c', ls)).
  { cbn [strip]. destruct c' as [|[u q] c']; [congruence|]. destruct u; try reflexivity. destruct Cc. }
  unfold layout. rewrite St, Lk. unfold ending. rewrite Lk, !map_app, Le. f_equal.
  destruct rest as [|x rest].
  - destruct fin.
    + destruct ls as [|y ls]; [destruct (proj1 Ln eq_refl); discriminate|reflexivity].
    + rewrite (proj2 Ln (conj eq_refl eq_refl)). reflexivity.
  - destruct ls as [|y ls]; [destruct (proj1 Ln eq_refl); discriminate|]. rewrite app_nil_r. reflexivity.
Qed.

Lemma layout_none (l : list rtoken) e : eols (map fst l) -> handle_eol_indent l e = Some [].
Proof.
  intro F. apply Forall_map in F. rewrite (handle_eol_indent_layout l e [((T_Eol, (0, 0)) :: l, [])]); [reflexivity|].
  constructor; [cbn; rewrite !app_nil_r; reflexivity| |].
  - intros r t [X|[]]. injection X as <- <-. split; [discriminate|]. split; [constructor; [reflexivity|exact F]|constructor].
  - intros a r t b X N. destruct a as [|? [|? ?]]; injection X; intros; congruence || discriminate.
Qed.

Lemma tkeyed_clear ts : ts <> [] -> no_colon_first ts -> Forall (fun t => is_eol t = false) ts -> clear (tkeyed ts).
Proof.
  intros N C F. split; [destruct ts; [congruence|discriminate]|]. split.
  - destruct ts as [|t ts]; [exact Logic.I|]. cbn [tkeyed]. destruct t; try exact Logic.I; try (exfalso; exact C). destruct ts as [|u ts]; [exact Logic.I|]. destruct u; exact Logic.I.
  - clear N C. induction F as [|t ts Ht F IH]; [constructor|]. cbn [tkeyed]. constructor; [|exact IH]. destruct t; try exact Ht. destruct ts as [|u ts]; [exact Ht|]. destruct u; reflexivity.
Qed.
