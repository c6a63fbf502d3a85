(** * A text is at most one token *)
From Coq Require Import String Ascii.
From Coq Require Import List NArith Arith Bool Lia.
From Verif Require Import Base BaseFacts Path Types SpecTypes TypesFacts Options SpecOptions OptionsFacts
  Token Regex SpecRegex RegexFacts LexPost SpecLex LexFacts Lexer SpecLexer LexerFacts.
Import ListNotations.
Local Open Scope nat_scope.

Definition is_char (l : string) (c : N) : bool := in_set (lit l) c.
Definition all_keywords : list keyword :=
  [K_Txn; K_Balance; K_Open; K_Close; K_Commodity; K_Pad; K_Event; K_Query; K_Custom; K_Price; K_Note; K_Document;
   K_Pushtag; K_Poptag; K_Pushmeta; K_Popmeta; K_Option; K_Options; K_Plugin; K_Include].

Section Unique.
  Context (E : lexer_env) (UO : unicode_ok (le_unicode E)).
  Let U := le_unicode E.
  Context (DISJ : forall c, u_Nd U c = true -> u_Lu U c = false /\ u_Lo U c = false).

  (** The token by head char and a few other chars. *)
  Definition the_token (s : str) : outcome (option (result token str)) :=
    match lookup str_eqb s symbols with
    | Some t => tok t
    | None =>
        match find (fun k => str_eqb s (keyword_text k)) all_keywords with
        | Some k => tok (T_Keyword k)
        | None =>
            match s with
            | [] => Panic
            | c :: t =>
                if (c =? 32)%N || (c =? 9)%N then Fine None
                else if (c =? 39)%N then tok (T_Flag (F_Letter (hd 0%N t)))
                else if (c =? 34)%N then give (fun s => map_ok T_String (unescape_string_literal E (unquoted s))) s
                else if (c =? 35)%N then tok (T_Tag t)
                else if (c =? 94)%N then tok (T_Link t)
                else if is_ascii_lowercase c then tok (T_Key s)
                else if (c =? 59)%N || (c =? 13)%N || (c =? 10)%N then
                  (if existsb (N.eqb 10%N) s then
                     if (last s 0%N =? 10)%N then tok T_Eol else tok T_EolThenIndent
                   else tok T_EolComment)
                else if u_Nd U c then
                  (if existsb (N.eqb 58%N) s then time_of_text s
                   else if existsb (N.eqb 45%N) s || existsb (N.eqb 47%N) s then date_of_text s
                   else give (fun s => map_ok T_Number (parse_number E s)) s)
                else if existsb (N.eqb 58%N) s then tok (T_Account s)
                else tok (T_Currency s)
            end
        end
    end.

  Lemma symbols_shape s t : In (s, t) symbols ->
    In s [lit "TRUE"; lit "FALSE"; lit "NULL"] \/
    exists c r, s = c :: r /\ In c (lit "|@{},~+-/()#*:!&?%") /\ (c = 35%N \/ c = 47%N -> r = []).
  Proof.
    intros H. unfold symbols in H. simpl in H.
    repeat (destruct H as [H|H]; [injection H as <- _;
      first [left; simpl; tauto
            |right; eexists _, _; split; [reflexivity|]; split; [simpl; tauto|];
             first [intros _; reflexivity|intros [X|X]; discriminate X]]|]).
    destruct H.
  Qed.

  Lemma symbols_lookup s t : In (s, t) symbols -> lookup str_eqb s symbols = Some t.
  Proof.
    intros H. unfold symbols in H. simpl in H.
    repeat (destruct H as [H|H]; [injection H as <- <-; reflexivity|]). destruct H.
  Qed.

  Lemma no_symbol s : (forall t, ~ In (s, t) symbols) -> lookup str_eqb s symbols = None.
  Proof.
    intros H. destruct (lookup str_eqb s symbols) as [t|] eqn:L; [|reflexivity]. exfalso.
    assert (X : forall l, lookup str_eqb s l = Some t -> In (s, t) l).
    { induction l as [|[k v] l IH]; [discriminate|]. simpl. destruct (str_eqb s k) eqn:Q.
      - apply str_eqb_eq in Q as ->. intros R. injection R as ->. now left.
      - intros R. right. auto. }
    eapply H, X, L.
  Qed.

  Lemma no_keyword s : (forall k, s <> keyword_text k) -> find (fun k => str_eqb s (keyword_text k)) all_keywords = None.
  Proof.
    intros H. destruct (find _ _) as [k|] eqn:F; [|reflexivity]. apply find_some in F as [_ F].
    apply str_eqb_eq in F. destruct (H k F).
  Qed.

  Lemma keyword_head k : exists c r, keyword_text k = c :: r /\ lower c.
  Proof. destruct k; eexists _, _; (split; [reflexivity|split; vm_compute; discriminate]). Qed.

  (** Any other text has a head which is not of a symbol. *)
  Lemma other c t : (~ In c (lit "|@{},~+-/()#*:!&?%") \/ (c = 35%N \/ c = 47%N) /\ t <> []) ->
    ~ In (c :: t) [lit "TRUE"; lit "FALSE"; lit "NULL"] -> lookup str_eqb (c :: t) symbols = None.
  Proof.
    intros H N. apply no_symbol. intros tk I. apply symbols_shape in I as [I|(d & r & Q & A & B)]; [auto|].
    injection Q as <- <-. destruct H as [H|[H H']]; auto.
  Qed.

  Lemma not_lower_keyword c t : ~ lower c -> forall k, c :: t <> keyword_text k.
  Proof. intros L k Q. destruct (keyword_head k) as (d & r & K & D). rewrite K in Q. injection Q as -> _. auto. Qed.

  Lemma not_lower_find c t : ~ lower c -> find (fun k => str_eqb (c :: t) (keyword_text k)) all_keywords = None.
  Proof. intros L. apply no_keyword. now apply not_lower_keyword. Qed.

  Lemma nd_ascii c : (c < 128)%N -> u_Nd U c = true -> digit c.
  Proof. apply (ascii_decimal_digit E UO). Qed.

  Lemma nd_false c : (c < 48 \/ 57 < c < 128)%N -> u_Nd U c = false.
  Proof.
    intros R. destruct (u_Nd U c) eqn:Q; [|reflexivity]. apply nd_ascii in Q; [unfold digit in Q; lia|lia].
  Qed.

  Lemma letter_ascii c : (c < 128)%N -> u_Lu U c = true \/ u_Lo U c = true -> upper c.
  Proof.
    intros A H. destruct (UO c) as (_ & _ & _ & X & Y & _); [now apply N.ltb_lt|]. fold U in X, Y. rewrite X, Y in H.
    destruct H as [H|H]; [|discriminate]. now apply is_upper_spec.
  Qed.

  Lemma lower_head c t : lower c -> ~ In c (lit "|@{},~+-/()#*:!&?%") /\ ~ In (c :: t) [lit "TRUE"; lit "FALSE"; lit "NULL"].
  Proof.
    unfold lower. intros L. split.
    - simpl. intros H. repeat (destruct H as [<-|H]; [lia|]). destruct H.
    - simpl. intros H. repeat (destruct H as [H|H]; [injection H as <- _; lia|]). destruct H.
  Qed.

  (** A test on the head char which fails. *)
  Ltac test_head := match goal with
    | |- context [(?c =? ?k)%N] => let X := fresh in destruct (N.eqb_spec c k) as [X|X]; [exfalso; subst; unfold upper, lower, digit in *; first [lia|congruence]|]; cbn [orb]
    end.

  Lemma keyword_find k : find (fun k' => str_eqb (keyword_text k) (keyword_text k')) all_keywords = Some k.
  Proof. destruct k; reflexivity. Qed.

  Lemma existsb_no c s : ~ In c s -> existsb (N.eqb c) s = false.
  Proof. intros H. apply Bool.not_true_is_false. now rewrite existsb_eq. Qed.

  Lemma existsb_yes c s : In c s -> existsb (N.eqb c) s = true.
  Proof. apply existsb_eq. Qed.

  Lemma digit_start c t : u_Nd U c = true -> the_token (c :: t) =
    if existsb (N.eqb 58%N) (c :: t) then time_of_text (c :: t)
    else if existsb (N.eqb 45%N) (c :: t) || existsb (N.eqb 47%N) (c :: t) then date_of_text (c :: t)
    else give (fun s => map_ok T_Number (parse_number E s)) (c :: t).
  Proof.
    intros D. assert (R : digit c \/ (128 <= c)%N).
    { destruct (N.lt_ge_cases c 128); auto using nd_ascii. }
    unfold the_token. rewrite other, not_lower_find.
    - repeat test_head. destruct (is_ascii_lowercase c) eqn:L; [apply is_lower_spec in L; unfold lower, digit in *; lia|].
      now rewrite D.
    - unfold lower, digit in *. lia.
    - left. simpl. intros H. unfold digit in R. repeat (destruct H as [<-|H]; [lia|]). destruct H.
    - simpl. unfold digit in R. intros H. repeat (destruct H as [H|H]; [injection H as <- _; lia|]). destruct H.
  Qed.

  Lemma break_shape s : line_break s -> exists c t, s = c :: t /\ (c = 59 \/ c = 13 \/ c = 10)%N /\ In 10%N s /\ last s 0%N = 10%N.
  Proof.
    intros (k & e & ls & -> & K & L & F).
    assert (LE : forall e', line_end e' -> exists m, e' = m ++ [10%N]) by (intros e' [-> | ->]; [exists []|exists [13%N]]; reflexivity).
    assert (LL : exists m, k ++ e ++ concat ls = m ++ [10%N]).
    { destruct ls as [|x ls] using rev_ind.
      - simpl. rewrite app_nil_r. destruct (LE e L) as (m & ->). exists (k ++ m). now rewrite app_assoc.
      - clear IHls. apply Forall_app in F as [_ F]. inversion F as [|? ? (h & t & e' & -> & _ & _ & L') _]; subst.
        destruct (LE e' L') as (m & ->). rewrite concat_app. cbn [concat]. rewrite app_nil_r.
        exists (k ++ e ++ concat ls ++ h :: t ++ m). rewrite <- !app_assoc. simpl. rewrite <- !app_assoc. reflexivity. }
    destruct LL as (m & LL). assert (H1 : In 10%N (k ++ e ++ concat ls)) by (rewrite LL; apply in_or_app; right; now left).
    assert (H2 : last (k ++ e ++ concat ls) 0%N = 10%N) by (rewrite LL; apply last_last).
    destruct K as [->|(t & -> & _)].
    - destruct L as [-> | ->]; eexists _, _; (split; [reflexivity|]); auto.
    - eexists _, _. split; [reflexivity|]. auto.
  Qed.

  Lemma break_start c t : (c = 59 \/ c = 13 \/ c = 10)%N -> the_token (c :: t) =
    if existsb (N.eqb 10%N) (c :: t) then if (last (c :: t) 0%N =? 10)%N then tok T_Eol else tok T_EolThenIndent
    else tok T_EolComment.
  Proof.
    intros R. unfold the_token. rewrite other, not_lower_find.
    - destruct R as [-> |[-> | ->]]; reflexivity.
    - unfold lower. lia.
    - left. simpl. intros H. repeat (destruct H as [<-|H]; [lia|]). destruct H.
    - simpl. intros H. repeat (destruct H as [H|H]; [injection H as <- _; lia|]). destruct H.
  Qed.

  Lemma digits_head n s : digits E (S n) s -> exists c t, s = c :: t /\ u_Nd U c = true.
  Proof. intros [L F]. destruct s as [|c s]; [discriminate|]. inversion F; subst. exists c, s. auto. Qed.

  Lemma date_reads_fun y m d o o' : date_reads y m d o -> date_reads y m d o' -> o = o'.
  Proof.
    assert (R : forall y m d, calendar_date y m d -> (1 <= m <= 12)%N) by (intros a b c (n & H & _); eauto using month_has_range).
    destruct 1, 1; try reflexivity; exfalso;
      try match goal with H : calendar_date _ _ _ |- _ => pose proof (R _ _ _ H) end;
      repeat match goal with H : _ \/ _ |- _ => destruct H end; tauto.
  Qed.

  Lemma time_reads_fun h m s o o' : time_reads h m s o -> time_reads h m s o' -> o = o'.
  Proof. destruct 1, 1; try reflexivity; exfalso; tauto. Qed.

  Lemma app_colon_digits a b n : digits E n a -> ~ In b a \/ (48 <= b <= 57 \/ 128 <= b)%N.
  Proof.
    intros D. destruct (N.lt_ge_cases b 48) as [L|L]; [left; eapply digits_no; eauto|].
    destruct (N.lt_ge_cases b 58) as [M|M]; [right; lia|]. destruct (N.lt_ge_cases b 128); [left; eapply digits_no; eauto; lia|right; lia].
  Qed.

  Lemma lexeme_the_token s o : lexeme E s o -> o = the_token s.
  Proof.
    intros H. destruct H.
    - (* blanks *) destruct H as [N F]. destruct s as [|c s]; [congruence|]. inversion F as [|? ? B]; subst.
      unfold the_token. rewrite other, not_lower_find; [destruct B as [-> | ->]; reflexivity| | |].
      + unfold lower. destruct B as [-> | ->]; lia.
      + left. simpl. destruct B as [-> | ->]; intros I; repeat (destruct I as [I|I]; [discriminate I|]); destruct I.
      + simpl. destruct B as [-> | ->]; intros I; repeat (destruct I as [I|I]; [discriminate I|]); destruct I.
    - (* symbols *) unfold the_token. now rewrite (symbols_lookup _ _ H).
    - (* keywords *) destruct k; reflexivity.
    - (* currencies *)
      assert (SH : exists c t, s = c :: t /\ (upper c \/ c = 47%N /\ t <> []) /\ ~ In 58%N s).
      { assert (NC : forall b, identifier upper currency_middle b -> ~ In 58%N b).
        { intros b (c & r & -> & C & R) [I|I]; [subst; unfold upper in C; lia|].
          rewrite Forall_forall in R. apply R in I. unfold currency_middle, upper, digit in I. lia. }
        destruct H as [H|(a & b & -> & A & B)].
        - pose proof (NC _ H). destruct H as (c & r & -> & C & R). exists c, r. auto.
        - exists 47%N, (a ++ b). split; auto. split; [right; split; auto; destruct B as (c & r & -> & _); destruct a; discriminate|].
          intros [I|I]; [discriminate|]. apply in_app_or in I as [I|I]; [|eapply NC; eauto].
          rewrite Forall_forall in A. apply A in I as [I _]. unfold currency_middle, upper, digit in I. lia. }
      destruct SH as (c & t & -> & SH & NC). unfold the_token. rewrite other, not_lower_find; auto.
      + assert (R : (65 <= c <= 90 \/ c = 47)%N) by (unfold upper in SH; tauto). clear SH. repeat test_head.
        destruct (is_ascii_lowercase c) eqn:L; [apply is_lower_spec in L; unfold lower in *; lia|].
        rewrite nd_false by lia. now rewrite (existsb_no _ _ NC).
      + unfold upper, lower in *. lia.
      + destruct SH as [SH|[-> SH]]; [left|right; auto]. unfold upper in SH. simpl. intros I. repeat (destruct I as [<-|I]; [lia|]). destruct I.
    - (* flags *) unfold the_token. rewrite other, not_lower_find; auto.
      + unfold lower. lia.
      + left. simpl. intros I. repeat (destruct I as [I|I]; [discriminate I|]). destruct I.
      + simpl. intros I. repeat (destruct I as [I|I]; [discriminate I|]). destruct I.
    - (* dates *)
      assert (NC : ~ In 58%N (y ++ p :: m ++ q :: d)).
      { rewrite !in_app_iff. cbn [In]. rewrite in_app_iff. cbn [In].
        assert (X := digits_no E UO 4 y 58 H). assert (Y := digits_no E UO 2 m 58 H0). assert (Z := digits_no E UO 2 d 58 H1).
        assert (R : (58 < 48 \/ 57 < 58 < 128)%N) by lia. intuition lia. }
      assert (YC : existsb (N.eqb 45%N) (y ++ p :: m ++ q :: d) || existsb (N.eqb 47%N) (y ++ p :: m ++ q :: d) = true).
      { apply orb_true_iff. rewrite !existsb_eq. destruct H2 as [-> | ->]; [left|right]; apply in_or_app; right; now left. }
      assert (RD := parse_date_spec E UO y p m q d H H0 H1 H2 H3). rewrite (date_reads_fun _ _ _ _ _ H4 RD).
      rewrite <- date_of_text_read. destruct (digits_head _ _ H) as (c & t & -> & C). cbn [app] in *.
      rewrite digit_start by auto. rewrite (existsb_no _ _ NC), YC. reflexivity.
    - (* times *)
      assert (RD := parse_time_spec E UO h m H H0). rewrite (time_reads_fun _ _ _ _ _ H1 RD). rewrite <- time_of_text_read.
      assert (HD : exists c t, h = c :: t /\ u_Nd U c = true) by (destruct H as [H|H]; eapply digits_head; eauto).
      destruct HD as (c & t & -> & C). cbn [app]. rewrite digit_start by auto.
      rewrite existsb_yes; [reflexivity|]. right. apply in_or_app. right. now left.
    - assert (RD := parse_time_seconds_spec E UO h m s H H0 H1). rewrite (time_reads_fun _ _ _ _ _ H2 RD). rewrite <- time_of_text_read.
      assert (HD : exists c t, h = c :: t /\ u_Nd U c = true) by (destruct H as [H|H]; eapply digits_head; eauto).
      destruct HD as (c & t & -> & C). cbn [app]. rewrite digit_start by auto.
      rewrite existsb_yes; [reflexivity|]. right. apply in_or_app. right. now left.
    - (* accounts *) destruct H as (t & n & ns & -> & (c & r & -> & C & R) & _).
      assert (CO : In 58%N (join_colon ((c :: r) :: n :: ns))) by (simpl; right; apply in_or_app; right; now left).
      change (join_colon ((c :: r) :: n :: ns)) with (c :: r ++ 58%N :: join_colon (n :: ns)) in *. set (w := r ++ _) in *.
      assert (RC : upper c \/ (128 <= c)%N) by (destruct (N.lt_ge_cases c 128); auto using letter_ascii).
      unfold the_token. rewrite other, not_lower_find; auto.
      + repeat test_head. destruct (is_ascii_lowercase c) eqn:L; [apply is_lower_spec in L; unfold lower, upper in *; lia|].
        destruct (u_Nd U c) eqn:D; [apply DISJ in D as [D1 D2]; fold U in C; rewrite D1, D2 in C; destruct C; discriminate|].
        now rewrite (existsb_yes _ _ CO).
      + unfold upper, lower in *. lia.
      + left. unfold upper in RC. simpl. intros I. repeat (destruct I as [<-|I]; [lia|]). destruct I.
      + intros I. simpl in I. repeat (destruct I as [I|I]; [rewrite <- I in CO; simpl in CO; repeat (destruct CO as [CO|CO]; [discriminate CO|]); destruct CO|]). destruct I.
    - (* strings *) unfold the_token. rewrite other, not_lower_find; auto.
      + change ((34 =? 32)%N || (34 =? 9)%N) with false. change (34 =? 39)%N with false. change (34 =? 34)%N with true. cbv iota.
        unfold give. rewrite unquoted_spec. unfold unescape_string_literal, backslash. now rewrite existsb_no.
      + unfold lower. lia.
      + left. simpl. intros I. repeat (destruct I as [I|I]; [discriminate I|]). destruct I.
      + simpl. intros I. repeat (destruct I as [I|I]; [discriminate I|]). destruct I.
    - unfold the_token. rewrite other, not_lower_find; auto.
      + change ((34 =? 32)%N || (34 =? 9)%N) with false. change (34 =? 39)%N with false. change (34 =? 34)%N with true. cbv iota.
        unfold give. rewrite unquoted_spec. unfold unescape_string_literal, backslash. now rewrite existsb_yes, give_map_ok.
      + unfold lower. lia.
      + left. simpl. intros I. repeat (destruct I as [I|I]; [discriminate I|]). destruct I.
      + simpl. intros I. repeat (destruct I as [I|I]; [discriminate I|]). destruct I.
    - (* numbers *)
      assert (NO : forall x, (x = 58 \/ x = 45 \/ x = 47)%N -> ~ In x s).
      { destruct H as (IN & IF & G & D & ->). intros x X.
        assert (ND : forall w, Forall (decimal_digit E) w -> ~ In x w).
        { intros w F I. rewrite Forall_forall in F. apply F in I. unfold decimal_digit in I. fold U in I.
          rewrite nd_false in I by lia. discriminate. }
        rewrite !in_app_iff. intros [I|[I|I]].
        - now apply (ND i).
        - apply in_flat_map in I as (g & I & [J|J]); [lia|]. rewrite Forall_forall in G. apply G in I as [_ I]. now apply (ND g).
        - destruct f as [d|]; [|destruct I]. destruct I as [I|I]; [lia|]. destruct (D d eq_refl) as [_ Q]. now apply (ND d). }
      rewrite <- (parse_number_spec E UO _ _ _ _ H), <- give_map_ok.
      assert (HD : exists c t, s = c :: t /\ u_Nd U c = true).
      { destruct H as (IN & IF & _ & _ & ->). destruct i as [|c i]; [congruence|]. inversion IF; subst. eexists _, _. split; [reflexivity|assumption]. }
      destruct HD as (c & t & -> & C). rewrite digit_start by auto.
      rewrite !existsb_no by (apply NO; auto). reflexivity.
    - (* tags *) unfold the_token. destruct H as [N F]. rewrite other, not_lower_find; auto.
      + unfold lower. lia.
      + simpl. intros I. repeat (destruct I as [I|I]; [discriminate I|]). destruct I.
    - (* links *) unfold the_token. rewrite other, not_lower_find; auto.
      + unfold lower. lia.
      + left. simpl. intros I. repeat (destruct I as [I|I]; [discriminate I|]). destruct I.
      + simpl. intros I. repeat (destruct I as [I|I]; [discriminate I|]). destruct I.
    - (* keys *) destruct H as [(c & t & -> & C & R) _]. unfold the_token. destruct (lower_head c t C) as [A B].
      rewrite other, no_keyword; auto. repeat (test_head). apply is_lower_spec in C. now rewrite C.
    - (* indents *) destruct (break_shape _ H) as (c & t & -> & C & I & _). cbn [app]. rewrite break_start by auto.
      rewrite existsb_yes by (change (c :: t ++ b) with ((c :: t) ++ b); apply in_or_app; auto).
      destruct H0 as [N F]. destruct b as [|x b _] using rev_ind; [congruence|].
      apply Forall_app in F as [_ F]. inversion F as [|? ? B _]; subst.
      change (c :: t ++ b ++ [x]) with ((c :: t) ++ (b ++ [x])). rewrite app_assoc, last_last.
      destruct B as [-> | ->]; reflexivity.
    - destruct (break_shape _ H) as (c & t & -> & C & I & L). rewrite break_start by auto.
      now rewrite (existsb_yes _ _ I), L.
    - rewrite break_start by auto. rewrite existsb_no; [reflexivity|]. intros [I|I]; [discriminate|]. now apply H0.
  Qed.

  Lemma lexeme_fun s o o' : lexeme E s o -> lexeme E s o' -> o = o'.
  Proof. intros A B. apply lexeme_the_token in A, B. congruence. Qed.
End Unique.
