(** * How displayed text is cut into tokens *)
From Coq Require Import String Ascii.
From Coq Require Import List NArith Arith Bool Lia Permutation.
From Verif Require Import Base Types SpecTypes Token SpecOptions SpecLex Lexer SpecLexer.
Import ListNotations.
Local Open Scope nat_scope.

Section Cutting.
  Context (L : lexer_env) (UO : unicode_ok (le_unicode L)).
  Notation U := (le_unicode L).
  Notation lexeme := (lexeme L).

  (** ** Classes of chars *)
  Lemma ascii_class c : (c < 128)%N ->
    u_L U c = (is_ascii_uppercase c || is_ascii_lowercase c) /\ u_Lu U c = is_ascii_uppercase c /\
    u_Lo U c = false /\ u_N U c = is_ascii_digit c /\ u_Nd U c = is_ascii_digit c.
  Proof. intro H. destruct (UO c) as (_ & _ & A & B & C & D & F); [apply N.ltb_lt; exact H|]. auto. Qed.

  (** Those between or at the end of words. *)
  Definition gap (c : N) : Prop := In c [32; 10; 41; 125; 44]%N.
  Lemma gap_ascii c : gap c -> (c < 128)%N.
  Proof. unfold gap. cbn. intuition lia. Qed.
  Lemma gap_cases c : gap c -> c = 32%N \/ c = 10%N \/ c = 41%N \/ c = 125%N \/ c = 44%N.
  Proof. unfold gap. cbn. intuition auto. Qed.
  Ltac gaps H := apply gap_cases in H; destruct H as [H|[H|[H|[H|H]]]]; match type of H with ?x = _ => first [discriminate H | subst x] end.

  Lemma gap_not_digit c : gap c -> decimal_digit L c -> False.
  Proof. intros G D. unfold decimal_digit in D. destruct (ascii_class c (gap_ascii c G)) as (_ & _ & _ & _ & X). rewrite X in D. gaps G; discriminate. Qed.
  Lemma gap_not_account c : gap c -> account_char L c -> False.
  Proof.
    intros G [D|[D|D]]; [| |gaps G; discriminate]; destruct (ascii_class c (gap_ascii c G)) as (X & _ & _ & Y & _); rewrite ?X, ?Y in D; gaps G; discriminate.
  Qed.
  Lemma gap_not_middle c : gap c -> currency_middle c -> False.
  Proof. intros G D. unfold currency_middle, upper, digit in D. gaps G; intuition lia. Qed.
  Lemma gap_not_identifier c : gap c -> identifier_char c -> False.
  Proof. intros G D. unfold identifier_char, upper, lower, digit in D. gaps G; intuition lia. Qed.

  (** Those which start what may have gaps inside. *)
  Definition opening (c : N) : Prop := In c [32; 9; 34; 59; 10; 13]%N.
  Definition opens (s : str) : Prop := exists c r, s = c :: r /\ opening c.

  Lemma in_digits c n s : gap c -> digits L n s -> ~ In c s.
  Proof. intros G [_ F] X. rewrite Forall_forall in F. exact (gap_not_digit c G (F c X)). Qed.
  Lemma in_number c i gs f s : gap c -> number_text L i gs f s -> In c s -> c = 44%N.
  Proof.
    intros G (_ & Fi & Fg & Ff & ->) X. apply in_app_or in X. destruct X as [X|X].
    { rewrite Forall_forall in Fi. destruct (gap_not_digit c G (Fi c X)). }
    apply in_app_or in X. destruct X as [X|X].
    - apply in_flat_map in X. destruct X as (g & Hg & [X|X]); [auto|]. rewrite Forall_forall in Fg.
      destruct (in_digits c 3 g G (Fg g Hg) X).
    - destruct f as [d|]; [|destruct X]. destruct X as [X|X]; [subst; gaps G; discriminate|]. destruct (Ff d eq_refl) as [_ Fd]. rewrite Forall_forall in Fd.
      destruct (gap_not_digit c G (Fd c X)).
  Qed.
  Lemma in_join c ws : c <> 58%N -> In c (join_colon ws) -> exists w, In w ws /\ In c w.
  Proof.
    intro Ne. induction ws as [|w [|w' ws] IH]; cbn [join_colon].
    - intros [].
    - intro X. exists w. split; [left; reflexivity|exact X].
    - intro X. apply in_app_or in X. destruct X as [X|[X|X]]; [exists w; split; [left; reflexivity|exact X]|congruence|].
      destruct (IH X) as (v & Hv & Hc). exists v. split; [right; exact Hv|exact Hc].
  Qed.
  Lemma in_account c s : gap c -> account_text L s -> ~ In c s.
  Proof.
    intros G (t & n & ns & -> & Ht & Hn) X. apply in_join in X; [|gaps G; discriminate]. destruct X as (w & Hw & X).
    assert (F : forall first, identifier first (account_char L) w -> (forall c, first c -> u_Lu U c = true \/ u_Lo U c = true \/ u_N U c = true) -> False).
    { intros first (a & r & -> & Fa & Fr) Hf. destruct X as [->|X].
      - destruct (ascii_class c (gap_ascii c G)) as (A & B & C & D & _).
        destruct (Hf c Fa) as [Q|[Q|Q]]; rewrite ?B, ?C, ?D in Q; gaps G; discriminate.
      - rewrite Forall_forall in Fr. exact (gap_not_account c G (Fr c X)). }
    destruct Hw as [<-|Hw]; [eapply F; [exact Ht|cbn; tauto]|]. rewrite Forall_forall in Hn. eapply F; [exact (Hn w Hw)|cbn; tauto].
  Qed.
  Lemma in_currency c s : gap c -> currency_text s -> ~ In c s.
  Proof.
    intros G H X.
    assert (P : forall b, identifier upper currency_middle b -> ~ In c b).
    { intros b (a & r & -> & Ha & Hr) [->|Y]; [apply (gap_not_middle c G); left; exact Ha|]. rewrite Forall_forall in Hr. exact (gap_not_middle c G (Hr c Y)). }
    destruct H as [H|(a & b & -> & Ha & Hb)]; [exact (P s H X)|]. destruct X as [X|X]; [subst; gaps G; discriminate|].
    apply in_app_or in X. destruct X as [X|X]; [|exact (P b Hb X)]. rewrite Forall_forall in Ha. exact (gap_not_middle c G (proj1 (Ha c X))).
  Qed.

  Lemma line_break_opens s b : line_break s -> opens (s ++ b).
  Proof.
    intros (c & e & ls & -> & Hc & He & _). destruct Hc as [->|(t & -> & _)]; [|exists 59%N; eexists; split; [reflexivity|cbn; auto]].
    destruct He as [->| ->]; [exists 10%N|exists 13%N]; eexists; (split; [reflexivity|cbn; auto 10]).
  Qed.

  (** A lexeme with a gap in it. *)
  Lemma inside s o c : lexeme s o -> gap c -> In c s ->
    opens s \/ (c = 41%N /\ s = [41%N]) \/ (c = 125%N /\ exists r, s = 125%N :: r) \/
    (c = 44%N /\ (s = [44%N] \/ exists i gs f, number_text L i gs f s)).
  Proof.
    intros H G X. destruct H.
    - destruct H as [Ne F]. destruct s as [|a s]; [congruence|]. left. exists a, s. split; [reflexivity|]. inversion F; subst. unfold is_blank in H1. cbn. intuition auto.
    - cbn in H. repeat (destruct H as [H|H]; [injection H as <- <-; cbn in X; gaps G; intuition (try discriminate); eauto 6|]). destruct H.
    - exfalso. gaps G; destruct k; cbn in X; intuition discriminate.
    - destruct (in_currency c s G H X).
    - exfalso. cbn in X. unfold upper in H. gaps G; intuition lia.
    - exfalso. apply in_app_or in X. destruct X as [X|[X|X]]; [exact (in_digits c 4 y G H X)|gaps G; intuition lia|].
      apply in_app_or in X. destruct X as [X|[X|X]]; [exact (in_digits c 2 m G H0 X)|gaps G; intuition lia|exact (in_digits c 2 d G H1 X)].
    - exfalso. apply in_app_or in X. destruct X as [X|[X|X]]; [destruct H as [H|H]; exact (in_digits _ _ _ G H X)|subst; gaps G|first [exact (in_digits _ _ _ G H0 X)|exact (in_digits _ _ _ G H1 X)]].
    - exfalso. apply in_app_or in X. destruct X as [X|[X|X]]; [destruct H as [H|H]; exact (in_digits _ _ _ G H X)|subst; gaps G|].
      apply in_app_or in X. destruct X as [X|[X|X]]; [first [exact (in_digits _ _ _ G H0 X)|exact (in_digits _ _ _ G H1 X)]|subst; gaps G|first [exact (in_digits _ _ _ G H0 X)|exact (in_digits _ _ _ G H1 X)]].
    - destruct (in_account c s G H X).
    - left. exists 34%N. eexists. split; [reflexivity|cbn; auto].
    - left. exists 34%N. eexists. split; [reflexivity|cbn; auto].
    - pose proof (in_number _ _ _ _ _ G H X). right. right. right. split; [assumption|]. right. eauto.
    - exfalso. destruct X as [X|X]; [gaps G; discriminate|]. destruct H as [_ F]. rewrite Forall_forall in F.
      destruct (F c X) as [Y|[Y|Y]]; [exact (gap_not_identifier c G Y)|gaps G; discriminate..].
    - exfalso. destruct X as [X|X]; [gaps G; discriminate|]. destruct H as [_ F]. rewrite Forall_forall in F.
      destruct (F c X) as [Y|[Y|Y]]; [exact (gap_not_identifier c G Y)|gaps G; discriminate..].
    - exfalso. destruct H as [(a & r & -> & Ha & Hr) _]. destruct X as [->|X]; [apply (gap_not_identifier c G); right; left; exact Ha|].
      rewrite Forall_forall in Hr. exact (gap_not_identifier c G (Hr c X)).
    - left. apply line_break_opens. exact H.
    - left. rewrite <- (app_nil_r s). apply line_break_opens. exact H.
    - left. exists 59%N. eexists. split; [reflexivity|cbn; auto].
  Qed.

  (** ** What may follow *)
  Definition starts (c : N) (s : str) : Prop := exists r, s = c :: r.

  (** After a word: the end, a space, the end of the line, a closing bracket
      or a comma and a space. *)
  Definition after_word (rest : str) : Prop :=
    rest = [] \/ starts 32 rest \/ starts 10 rest \/ starts 41 rest \/ starts 125 rest \/ (exists r, rest = 44%N :: 32%N :: r).
  (** After a line: the end, or the end of the line. *)
  Definition after_line (rest : str) : Prop := rest = [] \/ starts 10 rest.
  Definition no_blank (rest : str) : Prop := forall c r, rest = c :: r -> ~ is_blank c.

  Lemma after_line_word rest : after_line rest -> after_word rest.
  Proof. unfold after_line, after_word. tauto. Qed.
  Lemma after_line_blank rest : after_line rest -> no_blank rest.
  Proof. intros [->|(r & ->)] c q X; [discriminate|]. injection X as <- _. unfold is_blank. lia. Qed.

  (** [t] starts with what starts nothing with gaps in it. *)
  Definition word (t : str) : Prop := exists c r, t = c :: r /\ ~ opening c /\ c <> 125%N.

  Lemma word_not_opens t u : word t -> ~ opens (t ++ u).
  Proof. intros (c & r & -> & N & _) (c' & r' & X & Y). injection X as -> _. auto. Qed.

  Lemma number_ends i gs f s : number_text L i gs f (s ++ [44%N]) -> False.
  Proof.
    intros (Ne & Fi & Fg & Ff & X).
    assert (Z : forall a x b, s ++ [44%N] = a ++ x :: b -> Forall (decimal_digit L) (x :: b) -> False).
    { intros a x b Q F. assert (In 44%N (x :: b)).
      { destruct (exists_last (l := x :: b)) as (q & z & Eq); [discriminate|]. rewrite Eq in Q |- *. rewrite app_assoc in Q. apply app_inj_tail in Q. destruct Q as [_ <-].
        apply in_or_app. right. left. reflexivity. }
      rewrite Forall_forall in F. refine (gap_not_digit 44 _ (F _ H)). cbn. auto 10. }
    destruct f as [d|].
    - destruct (Ff d eq_refl) as [Nd Fd]. destruct d as [|x d]; [congruence|]. apply (Z (i ++ flat_map (fun g => 44%N :: g) gs ++ [46%N]) x d); [|exact Fd].
      rewrite X, <- !app_assoc. reflexivity.
    - rewrite app_nil_r in X. destruct gs as [|g0 gs0].
      + cbn in X. rewrite app_nil_r in X. destruct i as [|x i]; [congruence|]. exact (Z [] x i X Fi).
      + destruct (exists_last (l := g0 :: gs0)) as (q & g & Eq); [discriminate|]. rewrite Eq in *. apply Forall_app in Fg. destruct Fg as [_ Fg]. inversion Fg as [|? ? [Lg Dg] _]; subst.
        destruct g as [|x g]; [discriminate|]. apply (Z (i ++ flat_map (fun g => 44%N :: g) q ++ [44%N]) x g); [|exact Dg].
        rewrite X, flat_map_app. cbn [flat_map]. rewrite app_nil_r, <- !app_assoc. reflexivity.
  Qed.

  Lemma word_longest t rest o : word t -> lexeme t o -> after_word rest -> longest lexeme t rest.
  Proof.
    intros W H A. pose proof W as (h & r & Et & No & N125).
    split; [subst; discriminate|]. split; [exists o; exact H|]. intros u v -> Nu [o' H'].
    destruct u as [|c u]; [congruence|].
    assert (Gap : forall c', gap c' -> c' <> 44%N -> In c' (t ++ c :: u) -> False).
    { intros c' G N44 X. destruct (inside _ _ c' H' G X) as [Y|[[Q Y]|[[Q (q & Y)]|[Q _]]]].
      - exact (word_not_opens _ _ W Y).
      - rewrite Et in Y. cbn in Y. injection Y as -> Y. destruct r; discriminate.
      - rewrite Et in Y. cbn in Y. injection Y as -> Y. congruence.
      - congruence. }
    assert (Hd : forall x, gap x -> x <> 44%N -> starts x ((c :: u) ++ v) -> False).
    { intros x G Nx (q & Q). cbn in Q. injection Q as -> _. apply (Gap x G Nx), in_or_app. right. left. reflexivity. }
    destruct A as [A|[A|[A|[A|[A|(q & A)]]]]]; [discriminate|apply (Hd 32%N)|apply (Hd 10%N)|apply (Hd 41%N)|apply (Hd 125%N)|]; try (cbn; auto 10; discriminate); try assumption; try discriminate.
    cbn in A. injection A as -> A. destruct u as [|c' u].
    - destruct (inside _ _ 44%N H') as [Y|[[Q Y]|[[Q (z & Y)]|[_ [Y|(i & gs & f & Y)]]]]]; try discriminate.
      + cbn. auto 10.
      + apply in_or_app. right. left. reflexivity.
      + exact (word_not_opens _ _ W Y).
      + rewrite Et in Y. cbn in Y. injection Y as -> Y. destruct r; discriminate.
      + exact (number_ends _ _ _ _ Y).
    - cbn in A. injection A as -> _. apply (Gap 32%N); [cbn; auto|discriminate|]. apply in_or_app. right. right. left. reflexivity.
  Qed.

  (** ** Single chars *)
  Ltac starting H := destruct H as [c0 [r0 [-> [H0 H1]]]].

  Lemma account_first s : account_text L s -> exists c r, s = c :: r /\ (u_Lu U c = true \/ u_Lo U c = true).
  Proof. intros (t & n & ns & -> & (c & r & -> & Hc & _) & _). exists c. eexists. split; [reflexivity|exact Hc]. Qed.
  Lemma number_first i gs f s : number_text L i gs f s -> exists c r, s = c :: r /\ decimal_digit L c.
  Proof. intros (Ne & Fi & _ & _ & ->). destruct i as [|c i]; [congruence|]. inversion Fi; subst. exists c. eexists. split; [reflexivity|assumption]. Qed.
  Lemma digits_first n s : digits L (S n) s -> exists c r, s = c :: r /\ decimal_digit L c.
  Proof. intros [Ls F]. destruct s as [|c s]; [discriminate|]. inversion F; subst. eauto. Qed.

  (** What each first char says about the rest of a lexeme. *)
  Definition follows (c : N) (r : str) : Prop :=
    match c with
    | 45%N | 43%N | 42%N | 40%N | 41%N | 44%N | 58%N | 126%N => r = []
    | 123%N => r = [] \/ r = [123%N]
    | 125%N => r = [] \/ r = [125%N]
    | 34%N => exists b, r = b ++ [34%N] /\ string_body b
    | 32%N => Forall is_blank r
    | 10%N => exists ls b, r = concat ls ++ b /\ Forall ignored_line ls /\ Forall is_blank b
    | _ => True
    end.

  Lemma follows_word c r : (48 <= c <= 57 \/ 65 <= c <= 90 \/ 97 <= c <= 122 \/ c = 35 \/ c = 39 \/ c = 47 \/ c = 59 \/ c = 94 \/ c = 9 \/ c = 13 \/ c >= 128)%N -> follows c r.
  Proof.
    intro H. unfold follows. destruct c as [|p]; [exact Logic.I|].
    do 8 (destruct p as [p|p|]; try exact Logic.I; try (exfalso; lia)).
  Qed.

  Lemma digit_first c : decimal_digit L c -> (48 <= c <= 57 \/ c >= 128)%N.
  Proof.
    unfold decimal_digit. intro H. destruct (N.lt_ge_cases c 128) as [Lt|]; [|lia]. destruct (ascii_class c Lt) as (_ & _ & _ & _ & X). rewrite X in H.
    unfold is_ascii_digit in H. apply andb_true_iff in H. destruct H as [A B]. apply N.leb_le in A, B. lia.
  Qed.
  Lemma letter_first c : u_Lu U c = true \/ u_Lo U c = true -> (65 <= c <= 90 \/ c >= 128)%N.
  Proof.
    intro H. destruct (N.lt_ge_cases c 128) as [Lt|]; [|lia]. destruct (ascii_class c Lt) as (_ & A & B & _). rewrite A, B in H. destruct H as [H|H]; [|discriminate].
    unfold is_ascii_uppercase in H. apply andb_true_iff in H. destruct H as [Q W]. apply N.leb_le in Q, W. lia.
  Qed.

  Lemma lexeme_follows s o c r : lexeme s o -> s = c :: r -> follows c r.
  Proof.
    intros H Es.
    assert (Dg : forall n w x, digits L (S n) w -> s = w ++ x -> follows c r).
    { intros n w x Hw Q. destruct (digits_first _ _ Hw) as (a & q & -> & Ha). rewrite Es in Q. cbn in Q. injection Q as -> ->. apply follows_word. apply digit_first in Ha. lia. }
    assert (Lb : forall x b, line_break x -> Forall is_blank b -> s = x ++ b -> follows c r).
    { intros x b (cm & e & ls & -> & Hc & He & Hl) Hb Q. destruct Hc as [->|(t & -> & _)].
      - destruct He as [->| ->]; rewrite Es in Q; cbn in Q; injection Q as -> ->; [|apply follows_word; lia]. cbn. exists ls, b. auto.
      - rewrite Es in Q. cbn in Q. injection Q as -> ->. apply follows_word. lia. }
    destruct H.
    - destruct H as [_ F]. subst s. inversion F as [|? ? B F']; subst. destruct B as [->| ->]; [exact F'|apply follows_word; lia].
    - cbn in H. repeat (destruct H as [H|H]; [injection H as <- <-; cbn in Es; injection Es as <- <-; cbn; auto|]). destruct H.
    - destruct k; cbn in Es; injection Es as <- <-; exact Logic.I.
    - destruct H as [(a & q & -> & Ha & _)|(a & b & -> & _)]; injection Es as <- <-; apply follows_word; unfold upper in *; lia.
    - injection Es as <- <-. exact Logic.I.
    - eapply Dg; [exact H|reflexivity].
    - destruct H as [H|H]; (eapply Dg; [exact H|reflexivity]).
    - destruct H as [H|H]; (eapply Dg; [exact H|reflexivity]).
    - destruct (account_first _ H) as (a & q & -> & Ha). injection Es as -> ->. apply follows_word. apply letter_first in Ha. lia.
    - injection Es as <- <-. cbn. eauto.
    - injection Es as <- <-. cbn. eauto.
    - destruct (number_first _ _ _ _ H) as (a & q & -> & Ha). injection Es as -> ->. apply follows_word. apply digit_first in Ha. lia.
    - injection Es as <- <-. exact Logic.I.
    - injection Es as <- <-. exact Logic.I.
    - destruct H as [(a & q & -> & Ha & _) _]. injection Es as -> ->. apply follows_word. unfold lower in *. lia.
    - eapply Lb; [exact H|apply H0|reflexivity].
    - eapply (Lb s []); [exact H|constructor|symmetry; apply app_nil_r].
    - injection Es as <- <-. apply follows_word. lia.
  Qed.

  Lemma longest_by t rest o : t <> [] -> lexeme t o ->
    (forall c u v o', rest = c :: u ++ v -> lexeme (t ++ c :: u) o' -> False) -> longest lexeme t rest.
  Proof.
    intros Ne H F. split; [exact Ne|]. split; [exists o; exact H|]. intros u v -> Nu [o' H']. destruct u as [|c u]; [congruence|]. exact (F c u v o' eq_refl H').
  Qed.

  (** One which stands alone whatever follows. *)
  Lemma alone_longest c rest o : In c [45; 43; 42; 40; 41; 44; 58; 126]%N -> lexeme [c] o -> longest lexeme [c] rest.
  Proof.
    intros Hc H. apply (longest_by _ _ o); [discriminate|exact H|]. intros c' u v o' _ H'. apply (lexeme_follows _ _ c (c' :: u)) in H'; [|reflexivity].
    cbn in Hc. repeat (destruct Hc as [<-|Hc]; [discriminate H'|]). destruct Hc.
  Qed.
  Lemma lcurl_longest rest o : lexeme [123%N] o -> ~ starts 123 rest -> longest lexeme [123%N] rest.
  Proof.
    intros H N. apply (longest_by _ _ o); [discriminate|exact H|]. intros c' u v o' Er H'. apply (lexeme_follows _ _ 123%N (c' :: u)) in H'; [|reflexivity].
    destruct H' as [H'|H']; [discriminate|]. injection H' as -> ->. apply N. exists v. exact Er.
  Qed.
  Lemma rcurl_longest rest o : lexeme [125%N] o -> ~ starts 125 rest -> longest lexeme [125%N] rest.
  Proof.
    intros H N. apply (longest_by _ _ o); [discriminate|exact H|]. intros c' u v o' Er H'. apply (lexeme_follows _ _ 125%N (c' :: u)) in H'; [|reflexivity].
    destruct H' as [H'|H']; [discriminate|]. injection H' as -> ->. apply N. exists v. exact Er.
  Qed.
  Lemma space_longest rest : no_blank rest -> longest lexeme [32%N] rest.
  Proof.
    intro N. apply (longest_by _ _ (Fine None)); [discriminate|apply lx_blank; split; [discriminate|repeat constructor]|].
    intros c' u v o' Er H'. apply (lexeme_follows _ _ 32%N (c' :: u)) in H'; [|reflexivity]. inversion H' as [|? ? B _]; subst. exact (N _ _ eq_refl B).
  Qed.
  Lemma body_stops b : ~ In 34%N b -> ~ In 92%N b -> forall w, ~ string_body (b ++ 34%N :: w).
  Proof.
    induction b as [|c b IH]; intros N1 N2 w H; inversion H; subst; cbn in *; try tauto. eapply IH; [| |eassumption]; tauto.
  Qed.
  Lemma string_longest b rest o : ~ In 34%N b -> ~ In 92%N b -> lexeme (34%N :: b ++ [34%N]) o -> longest lexeme (34%N :: b ++ [34%N]) rest.
  Proof.
    intros N1 N2 H. apply (longest_by _ _ o); [discriminate|exact H|]. intros c' u v o' _ H'. cbn [app] in H'. rewrite <- app_assoc in H'. cbn [app] in H'.
    apply (lexeme_follows _ _ 34%N (b ++ 34%N :: c' :: u)) in H'; [|reflexivity]. destruct H' as (b' & Q & S).
    assert (exists w, b' = b ++ 34%N :: w).
    { destruct (exists_last (l := c' :: u)) as (w & z & Ew); [discriminate|]. exists w. rewrite Ew in Q. change (b ++ 34%N :: w ++ [z] = b' ++ [34%N]) in Q.
      rewrite app_comm_cons, app_assoc in Q. apply app_inj_tail in Q. symmetry. apply Q. }
    destruct H0 as [w ->]. exact (body_stops b N1 N2 w S).
  Qed.
  Definition ignored_first (c : N) : Prop := In c (lit "*!&#?%:").
  Lemma indent_longest rest : no_blank rest -> longest lexeme [10; 32; 32]%N rest.
  Proof.
    intro N. apply (longest_by _ _ (tok T_EolThenIndent)); [discriminate| |].
    { apply (lx_indent L [10%N] [32; 32]%N); [|split; [discriminate|repeat constructor]].
      exists [], [10%N], []. split; [reflexivity|]. split; [auto|]. split; [left; reflexivity|constructor]. }
    intros c' u v o' Er H'. apply (lexeme_follows _ _ 10%N (32%N :: 32%N :: c' :: u)) in H'; [|reflexivity].
    destruct H' as (ls & b & Q & Fl & Fb). destruct ls as [|l ls].
    - cbn in Q. subst b. inversion Fb as [|? ? _ F1]; subst. inversion F1 as [|? ? _ F2]; subst. inversion F2 as [|? ? B _]; subst. exact (N _ _ eq_refl B).
    - inversion Fl as [|? ? (x & t & e & -> & Hx & _) _]; subst. cbn in Q. injection Q as <- _. cbn in Hx. intuition discriminate.
  Qed.
  Lemma eol_longest rest : (forall c r, rest = c :: r -> ~ is_blank c /\ ~ ignored_first c) -> longest lexeme [10%N] rest.
  Proof.
    intro N. apply (longest_by _ _ (tok T_Eol)); [discriminate| |].
    { apply (lx_eol L [10%N]). exists [], [10%N], []. split; [reflexivity|]. split; [auto|]. split; [left; reflexivity|constructor]. }
    intros c' u v o' Er H'. apply (lexeme_follows _ _ 10%N (c' :: u)) in H'; [|reflexivity].
    destruct (N _ _ Er) as [Nb Ni]. destruct H' as (ls & b & Q & Fl & Fb). destruct ls as [|l ls].
    - cbn in Q. subst b. inversion Fb; subst. tauto.
    - inversion Fl as [|? ? (x & t & e & -> & Hx & _) _]; subst. cbn in Q. injection Q as <- _. tauto.
  Qed.
End Cutting.
