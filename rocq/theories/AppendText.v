(** * Facts for C72: the tokens of one text after another *)
From Coq Require Import String Ascii.
From Coq Require Import List NArith ZArith Arith Bool Lia Permutation.
From Verif Require Import Base BaseFacts Path SpecPath SpecPragma Sources Types SpecTypes Token SpecOptions LexPost SpecLex LexFacts P_Lex Lexer SpecLexer LexerFacts P_Lexer
  DisplayLex DisplayText DisplayLexed DisplayDump SpecLayout LayoutLex
  Grammar SpecGrammar SpecDirective P_Grammar Read SpecRead Parse SpecParse SpecWhole P_File P_Parse SpecAlike SimWhole P_Layout P_Words P_Display P_Newline ExprFacts SpecAppend.
Import SpecLexer SpecLayout.
Import ListNotations.
Local Open Scope nat_scope.

(** ** What can be computed in two texts can be in one *)
Section Joined.
  Context (A B J : input) (Q : map fst (in_tokens J) = map fst (in_tokens A) ++ map fst (in_tokens B)) (Ed : ended (map fst (in_tokens A))).
  Let n := List.length (in_tokens A).
  Lemma joined_tok k t : SpecGrammar.tok J k t <-> (k < n /\ SpecGrammar.tok A k t) \/ (n <= k /\ SpecGrammar.tok B (k - n) t).
  Proof.
    assert (T : forall I k, SpecGrammar.tok I k t <-> nth_error (map fst (in_tokens I)) k = Some t).
    { intros I k0. unfold SpecGrammar.tok. rewrite nth_error_map. destruct (nth_error (in_tokens I) k0) as [[x r]|]; cbn; split; intro H.
      - destruct H as [r' H]. injection H as -> _. reflexivity.
      - injection H as ->. eauto.
      - destruct H; discriminate.
      - discriminate. }
    rewrite !T, Q. assert (Ln : List.length (map fst (in_tokens A)) = n) by apply map_length.
    destruct (lt_dec k n) as [H|H].
    - rewrite nth_error_app1 by lia. split; [auto|]. intros [X|X]; [tauto|lia].
    - rewrite nth_error_app2 by lia. rewrite Ln. split; [right; split; [lia|assumption]|]. intros [X|X]; [lia|tauto].
  Qed.
  Lemma joined_last t : 0 < n -> SpecGrammar.tok A (n - 1) t -> t = T_Eol.
  Proof.
    intros Hn [r H]. destruct Ed as [Z|(us & Z)].
    - apply map_eq_nil in Z. subst n. rewrite Z in Hn. cbn in Hn. lia.
    - apply (map_nth_error fst) in H. rewrite Z in H. assert (Ln : n = List.length us + 1).
      { subst n. rewrite <- (map_length fst), Z, app_length. reflexivity. }
      rewrite Ln, Nat.add_sub, nth_error_app2, Nat.sub_diag in H by lia. cbn in H. congruence.
  Qed.
  Lemma joined_next k t : k < n -> SpecGrammar.tok J k t -> t <> T_Eol -> S k < n /\ SpecGrammar.tok A k t.
  Proof.
    intros Hk T Ne. apply joined_tok in T. destruct T as [[_ T]|[X _]]; [|lia]. split; [|exact T].
    destruct (Nat.eq_dec k (n - 1)) as [->|]; [|lia]. exfalso. apply Ne. eapply joined_last; [lia|exact T].
  Qed.
  Lemma joined_later k t : n <= k -> SpecGrammar.tok J k t -> SpecGrammar.tok B (k - n) t.
  Proof. intros Hk T. apply joined_tok in T. destruct T as [[X _]|[_ T]]; [lia|exact T]. Qed.
  Let split_at (R : input -> nat -> nat -> expr -> Prop) (i j : nat) (e : expr) : Prop :=
    (i < n -> j < n /\ R A i j e) /\ (n <= i -> i <= j /\ R B (i - n) (j - n) e).
  Ltac next := match goal with T : SpecGrammar.tok J ?k ?t, H : ?k < n |- _ => destruct (joined_next k t H T ltac:(discriminate)) as [? ?]; clear T end.
  Ltac later := match goal with T : SpecGrammar.tok J ?k ?t, H : n <= ?k |- _ => pose proof (joined_later k t H T); clear T end.
  Lemma joined_expr :
    (forall i j e, sum J i j e -> split_at sum i j e) /\ (forall i j e, product J i j e -> split_at product i j e) /\
    (forall i j e, factor J i j e -> split_at factor i j e) /\ (forall i j e, primary J i j e -> split_at primary i j e).
  Proof.
    assert (Sub : forall k, n <= k -> S k - n = S (k - n)) by (intros; lia).
    assert (two : forall (R1 R2 R3 : input -> nat -> nat -> expr -> Prop) t f, t <> T_Eol ->
      (forall I i j k a b, R1 I i j a -> SpecGrammar.tok I j t -> R2 I (S j) k b -> R3 I i k (f a b)) ->
      forall i j k a b, split_at R1 i j a -> SpecGrammar.tok J j t -> split_at R2 (S j) k b -> split_at R3 i k (f a b)).
    { intros R1 R2 R3 t f Ne R i j k a b [X1 Y1] T [X2 Y2]. split; intro Hi.
      - destruct (X1 Hi) as [Hj Ra]. destruct (joined_next _ _ Hj T Ne) as [Hs Ta]. destruct (X2 Hs) as [Hk Rb]. split; [exact Hk|]. eapply R; eassumption.
      - destruct (Y1 Hi) as [Hj Ra]. assert (Hj' : n <= j) by lia. pose proof (joined_later _ _ Hj' T) as Tb. destruct (Y2 ltac:(lia)) as [Hk Rb]. split; [lia|]. rewrite Sub in Rb by exact Hj'. eapply R; eassumption. }
    apply expr_mutind.
    - intros i j e _ [X Y]. split; intro H; [destruct (X H)|destruct (Y H)]; (split; [assumption|constructor; assumption]).
    - intros i j k a b _ IH1 T _ IH2. eapply (two sum product sum T_Plus); [discriminate|exact sum_add|eassumption..].
    - intros i j k a b _ IH1 T _ IH2. eapply (two sum product sum T_Minus); [discriminate|exact sum_sub|eassumption..].
    - intros i j e _ [X Y]. split; intro H; [destruct (X H)|destruct (Y H)]; (split; [assumption|constructor; assumption]).
    - intros i j k a b _ IH1 T _ IH2. eapply (two product factor product T_Asterisk); [discriminate|exact product_mul|eassumption..].
    - intros i j k a b _ IH1 T _ IH2. eapply (two product factor product T_Slash); [discriminate|exact product_div|eassumption..].
    - intros i j e _ [X Y]. split; intro H; [destruct (X H)|destruct (Y H)]; (split; [assumption|constructor; assumption]).
    - intros i j e T _ [X Y]. split; intro H.
      + next. destruct (X ltac:(assumption)). split; [assumption|]. apply factor_plus; assumption.
      + later. destruct (Y ltac:(lia)) as [? R]. split; [lia|]. rewrite Sub in R by exact H. apply factor_plus; assumption.
    - intros i j e T _ [X Y]. split; intro H.
      + next. destruct (X ltac:(assumption)). split; [assumption|]. apply factor_minus; assumption.
      + later. destruct (Y ltac:(lia)) as [? R]. split; [lia|]. rewrite Sub in R by exact H. apply factor_minus; assumption.
    - intros i d T. split; intro H.
      + next. split; [assumption|]. constructor. assumption.
      + later. split; [lia|]. rewrite Sub by exact H. constructor. assumption.
    - intros i j e T1 _ [X Y] T2. split; intro H.
      + next. destruct (X ltac:(assumption)) as [Hj R]. next. split; [assumption|]. constructor; assumption.
      + later. destruct (Y ltac:(lia)) as [Hj R]. assert (Hj' : n <= j) by lia. later. split; [lia|]. rewrite Sub in R |- * by assumption. constructor; assumption.
  Qed.
  Lemma joined_up (I : input) (m : nat) : (forall k t, SpecGrammar.tok I k t -> SpecGrammar.tok J (m + k) t) ->
    (forall i j e, sum I i j e -> sum J (m + i) (m + j) e) /\ (forall i j e, product I i j e -> product J (m + i) (m + j) e) /\
    (forall i j e, factor I i j e -> factor J (m + i) (m + j) e) /\ (forall i j e, primary I i j e -> primary J (m + i) (m + j) e).
  Proof.
    intro Up. apply expr_mutind; intros; try rewrite !Nat.add_succ_r in *; repeat match goal with T : SpecGrammar.tok I _ _ |- _ => apply Up in T end; try (constructor; assumption).
    - eapply sum_add; eassumption.
    - eapply sum_sub; eassumption.
    - eapply product_mul; eassumption.
    - eapply product_div; eassumption.
  Qed.
  Lemma up_A k t : SpecGrammar.tok A k t -> SpecGrammar.tok J (0 + k) t.
  Proof. intro T. apply joined_tok. left. split; [|exact T]. destruct T as [r T]. subst n. apply nth_error_Some. cbn. rewrite T. discriminate. Qed.
  Lemma up_B k t : SpecGrammar.tok B k t -> SpecGrammar.tok J (n + k) t.
  Proof. intro T. apply joined_tok. right. split; [lia|]. replace (n + k - n) with k by lia. exact T. Qed.

  Lemma joined_computable E : computable E A -> computable E B -> computable E J.
  Proof.
    intros [A1 A2] [B1 B2]. split.
    - intros i s T. apply joined_tok in T. destruct T as [[_ T]|[_ T]]; eauto.
    - intros i j e M [S0 Lo]. destruct (proj1 joined_expr _ _ _ S0) as [X Y]. destruct (lt_dec i n) as [H|H].
      + destruct (X H) as [Hj Sa]. apply (A2 i j e).
        * intros k t Qk T. destruct (M k t Qk) as [M1 M2]; [exact (up_A _ _ T)|]. split; [exact M1|]. intro Et. destruct (M2 Et) as [Z1 Z2]. split; intro Z; [apply Z1|apply Z2]; exact (up_A _ _ Z).
        * split; [exact Sa|]. intros k b Sb. apply (Lo k b). exact (proj1 (joined_up A 0 up_A) _ _ _ Sb).
      + destruct (Y ltac:(lia)) as [Hj Sb]. apply (B2 (i - n) (j - n) e).
        * intros k t Qk T. destruct (M (n + k) t ltac:(lia)) as [M1 M2]; [exact (up_B _ _ T)|]. split; [exact M1|]. intro Et. destruct (M2 Et) as [Z1 Z2].
          split; intro Z; [apply Z1|apply Z2]; apply up_B in Z; replace (n + (i - n)) with i in Z by lia; exact Z.
        * split; [exact Sb|]. intros k b Sk. apply (proj1 (joined_up B n up_B)) in Sk. replace (n + (i - n)) with i in Sk by lia. specialize (Lo _ _ Sk). lia.
  Qed.
  Lemma joined_fine_options : fine_options A -> fine_options B -> fine_options J.
  Proof.
    intros FA FB i name value c T1 T2 T3 H. destruct (lt_dec i n) as [Hi|Hi].
    - destruct (joined_next _ _ Hi T1 ltac:(discriminate)) as [H1 T1']. destruct (joined_next _ _ H1 T2 ltac:(discriminate)) as [H2 T2'].
      destruct (joined_next _ _ H2 T3 ltac:(discriminate)) as [_ T3']. exact (FA i name value c T1' T2' T3' H).
    - pose proof (joined_later i _ ltac:(lia) T1) as T1'. pose proof (joined_later (S i) _ ltac:(lia) T2) as T2'. pose proof (joined_later (S (S i)) _ ltac:(lia) T3) as T3'.
      replace (S i - n) with (S (i - n)) in T2' by lia. replace (S (S i) - n) with (S (S (i - n))) in T3' by lia. exact (FB (i - n) name value c T1' T2' T3' H).
  Qed.
End Joined.

(** ** The lines of two texts *)
Section Lines.
  Context (L : lexer_env) (U : unicode_ok (le_unicode L))
          (ND : forall c, u_Nd (le_unicode L) c = true -> u_Lu (le_unicode L) c = false /\ u_Lo (le_unicode L) c = false).

  Lemma longest_onto w t rest b : lexeme L w (tok t) -> is_eol t = false -> longest (lexeme L) w rest -> longest (lexeme L) w (rest ++ 10%N :: b).
  Proof.
    intros H Ht (Nw & Is & Lo). split; [exact Nw|]. split; [exact Is|]. intros u v Q Nu (o & Lx).
    assert (Sp : (exists v', rest = u ++ v') \/ exists u', u = rest ++ 10%N :: u').
    { clear - Q. revert u Q. induction rest as [|c rest IH]; intros u Q.
      - destruct u as [|d u]; [left; exists []; reflexivity|]. cbn in Q. injection Q as <- Q. right. exists u. reflexivity.
      - destruct u as [|d u]; [left; exists (c :: rest); reflexivity|]. cbn in Q. injection Q as <- Q. destruct (IH u Q) as [(v' & ->)|(u' & ->)]; [left; exists v'; reflexivity|right; exists u'; reflexivity]. }
    destruct Sp as [(v' & ->)|(u' & ->)]; [exact (Lo u v' eq_refl Nu (ex_intro _ o Lx))|].
    destruct (word_head L U _ _ H Ht) as (c & r & -> & Hc).
    destruct (lexeme_kinds L U _ _ Lx) as [[_ F]|[(b0 & Qb & Sb)|[[[_ F] _]|[(x & b0 & Hx & _ & Qx & _)|[(q & Qq & _) _]]]]].
    - apply Forall_app in F. destruct F as [_ F]. apply Forall_app in F. destruct F as [_ F]. inversion F as [|? ? X _]; subst. unfold ink in X. tauto.
    - cbn in Qb. injection Qb as -> Qb. destruct (lexeme_follows L U _ _ 34%N r H eq_refl) as (b1 & -> & Sb1).
      destruct (exists_last (l := rest ++ 10%N :: u')) as (w' & z & Ew); [destruct rest; discriminate|]. rewrite Ew in Qb. rewrite <- app_assoc in Qb. cbn [app] in Qb.
      change (b1 ++ 34%N :: w' ++ [z] = b0 ++ [34%N]) in Qb. rewrite app_comm_cons, app_assoc in Qb. apply app_inj_tail in Qb. destruct Qb as [<- _]. exact (body_quote b1 Sb1 w' Sb).
    - cbn in F. inversion F as [|? ? X _]; subst. destruct X as [->| ->]; unfold ink in Hc; tauto.
    - destruct (break_first x Hx) as (c' & r' & -> & Hc'). cbn in Qx. injection Qx as -> _. unfold ink in Hc. intuition congruence.
    - cbn in Qq. injection Qq as -> _. unfold ink in Hc. tauto.
  Qed.
  Lemma worded_onto ws rest s b : worded L ws rest s -> worded L ws (rest ++ 10%N :: b) (s ++ 10%N :: b).
  Proof.
    induction 1 as [rest|w t b0 ws rest s H Ht Hb Lo W IH]; [constructor|]. rewrite <- !app_assoc. constructor; auto. rewrite app_assoc. eapply longest_onto; eassumption.
  Qed.
  Lemma ignored_onto s b : s <> [] -> ignored_start (s ++ b) -> ignored_start s.
  Proof. intros Ns (c & r & Q & Hc). destruct s as [|d s]; [congruence|]. cbn in Q. injection Q as -> _. exists c, s. auto. Qed.
  Lemma gaps_onto o g i g' : gaps o g -> gaps (Some i) g' -> gaps (Some i) (g ++ g').
  Proof.
    intros G G'. induction G as [|e He|e b He [_ Hb]|e b j g He Hb G IH]; [exact G'| | |].
    - apply (gaps_more e [] i g'); auto.
    - rewrite <- app_assoc. apply gaps_more; auto.
    - rewrite <- !app_assoc. apply gaps_more; auto.
  Qed.
  Lemma break_comment c e : last_comment c -> line_break (10%N :: e) -> line_break (c ++ 10%N :: e).
  Proof.
    intros (t & -> & Nt & _) (c0 & e0 & ls & Q & Hc & He & Hl). assert (c0 = []) as ->.
    { destruct Hc as [Hc|(t0 & -> & _)]; [exact Hc|discriminate]. }
    exists (59%N :: t), e0, ls. split; [rewrite Q; reflexivity|]. split; [right; exists t; auto|]. auto.
  Qed.
  Lemma gaps_comment c i g : last_comment c -> gaps (Some i) (10%N :: g) -> gaps (Some i) (c ++ 10%N :: g).
  Proof.
    intros Hc G. remember (Some i) as o eqn:Qo. remember (10%N :: g) as s eqn:Q. destruct G as [|e He|e b He Hb|e b j g0 He Hb G0]; [discriminate| | |].
    - rewrite Q in *. apply gaps_eol. apply break_comment; assumption.
    - destruct e as [|z e]; [apply break_first in He; destruct He as (? & ? & X & _); discriminate|]. cbn [app] in Q |- *. injection Q as -> Q.
      rewrite app_comm_cons, app_assoc. apply gaps_indent; [apply break_comment; assumption|exact Hb].
    - destruct e as [|z e]; [apply break_first in He; destruct He as (? & ? & X & _); discriminate|]. cbn [app] in Q |- *. injection Q as -> Q.
      rewrite app_comm_cons, app_assoc. apply gaps_more; [apply break_comment; assumption|exact Hb|exact G0].
  Qed.

  Section Onto.
    Context (ws : list word) (ls : list words_line) (b : str) (H : starts_afresh L true ws ls b).
    (** After an end of line. *)
    Lemma afresh_gap : exists g s rest, 10%N :: b = 10%N :: g ++ s /\ gaps (Some false) (10%N :: g) /\ worded L ws rest s /\ begins ws /\ ~ ignored_start s /\ lined L true ls rest.
    Proof.
      destruct H as [o g s rest Ho G W B Ig Li]. exists g, s, rest. split; [reflexivity|]. split; [|auto].
      destruct Ho as [-> | ->]; [inversion G; subst; apply gaps_eol; exact newline_break|]. apply (gaps_more [10%N] [] false g); [exact newline_break|constructor|exact G].
    Qed.
    Lemma afresh_lined : lined L true ((false, ws) :: ls) (10%N :: b).
    Proof. destruct afresh_gap as (g & s & rest & -> & G & W & B & Ig & Li). rewrite app_comm_cons. eapply lined_next; eauto. Qed.
    Lemma afresh_set_out : set_out L true ((false, ws) :: ls) b.
    Proof.
      destruct H as [o g s rest Ho G W B Ig Li]. change (g ++ s) with ([] ++ g ++ s). eapply laid_lines; eauto.
    Qed.
    Lemma lined_onto fin la s : lined L fin la s -> lined L true (la ++ (false, ws) :: ls) (s ++ 10%N :: b).
    Proof.
      destruct afresh_gap as (g & s0 & rest & Qb & G & W & B & Ig & Li). rewrite Qb. clear Qb. 
      induction 1 as [|g1 G1|o g1 c G1 Hc|fin i ws1 la g1 s rest1 G1 W1 B1 Ig1 Li1 IH].
      - cbn [app]. rewrite app_comm_cons. eapply lined_next; eauto.
      - cbn [app]. rewrite app_comm_cons, app_assoc. eapply lined_next; [eapply gaps_onto; eassumption|eauto..].
      - cbn [app]. rewrite <- app_assoc. rewrite app_comm_cons, (app_assoc c), (app_assoc g1). eapply lined_next; [eapply gaps_onto; [eassumption|apply gaps_comment; assumption]|eauto..].
      - cbn [app]. rewrite <- app_assoc. eapply lined_next; [exact G1|apply worded_onto; exact W1|exact B1| |exact IH].
        intros Qi X. apply (Ig1 Qi). eapply ignored_onto; [eapply (worded_some L U); eassumption|exact X].
    Qed.
    Lemma set_out_onto fin la a : set_out L fin la a -> set_out L true (la ++ (false, ws) :: ls) (a ++ 10%N :: b).
    Proof.
      intro Ha. destruct Ha as [fin b0 o g c Hb G Hc|fin i ws0 la b0 o g s rest Hb G W B Ig Li].
      - destruct afresh_gap as (g' & s0 & rest & -> & G' & W & B & Ig & Li). cbn [app].
        assert (Gc : gaps (Some false) (c ++ 10%N :: g')) by (destruct Hc as [->|Hc]; [exact G'|apply gaps_comment; assumption]).
        replace ((b0 ++ g ++ c) ++ 10%N :: g' ++ s0) with (b0 ++ (g ++ c ++ 10%N :: g') ++ s0) by (rewrite <- !app_assoc; reflexivity).
        eapply laid_lines; [exact Hb|eapply gaps_onto; eassumption|eauto..].
      - cbn [app]. rewrite <- !app_assoc. eapply laid_lines; [exact Hb|exact G|apply worded_onto; exact W|exact B| |eapply lined_onto; exact Li].
        intros Qi X. apply (Ig Qi). eapply ignored_onto; [eapply (worded_some L U); eassumption|exact X].
    Qed.
  End Onto.

  (** The tokens are those of the lines of both. *)
  Lemma onto_tokens fin la a ws ls b : set_out L fin la a -> starts_afresh L true ws ls b ->
    exists ta tb tc, lex L (a ++ [10%N]) = Fine (Some ta) /\ lex L b = Fine (Some tb) /\ lex L (a ++ [10%N] ++ b) = Fine (Some tc) /\
      map fst tc = map fst ta ++ map fst tb /\ ended (map fst ta).
  Proof.
    intros Ha Hb. destruct (C64_tokens L U ND _ _ _ (C67_newline L U _ _ _ Ha)) as (ta & Lxa & Ma).
    destruct (C64_tokens L U ND _ _ _ (afresh_set_out _ _ _ Hb)) as (tb & Lxb & Mb).
    destruct (C64_tokens L U ND _ _ _ (set_out_onto _ _ _ Hb _ _ _ Ha)) as (tc & Lxc & Mc).
    exists ta, tb, tc. split; [exact Lxa|]. split; [exact Lxb|]. split; [exact Lxc|]. rewrite Ma, Mb, Mc. clear.
    destruct la as [|l la]; [split; [reflexivity|left; reflexivity]|]. split.
    - assert (Qb : forall x, ledger_tokens true (x :: ls) = tokens_of_words (snd x) ++ flat_map tokens_of_line ls ++ [T_Eol]) by (intro; destruct ls; reflexivity).
      rewrite Qb. cbn [snd].
      assert (Qa : ledger_tokens true (l :: la) = tokens_of_words (snd l) ++ flat_map tokens_of_line la ++ [T_Eol]) by (destruct la; reflexivity).
      rewrite Qa. assert (Qc : forall l m, m <> [] -> ledger_tokens true (l :: m) = tokens_of_words (snd l) ++ flat_map tokens_of_line m ++ [T_Eol]) by (intros ? [|? ?] X; [congruence|reflexivity]).
      cbn [app]. rewrite Qc by (destruct la; discriminate). rewrite flat_map_app. cbn [flat_map]. unfold tokens_of_line at 2. cbn [fst snd app]. rewrite <- !app_assoc. cbn [app]. rewrite <- app_assoc. reflexivity.
    - right. destruct la as [|l' la]; [exists (tokens_of_words (snd l)); reflexivity|]. exists (tokens_of_words (snd l) ++ flat_map tokens_of_line (l' :: la)). rewrite <- app_assoc. reflexivity.
  Qed.
End Lines.
