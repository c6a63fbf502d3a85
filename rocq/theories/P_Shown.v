(** * How tokens are named to the user (C59), and lines in a whole source (C26) *)
From Coq Require Import String Ascii.
From Coq Require Import List NArith ZArith Arith Bool Lia Permutation.
From Verif Require Import Base BaseFacts Types SpecTypes Decimal SpecDecimal Token SpecOptions LexPost SpecLex LexFacts P_Lex Lexer SpecLexer LexerFacts LexerUnique LexerOrder P_Lexer
  Display SpecDisplay DisplayText DisplayParsed P_Display P_RoundTrip Shown SpecShown.
Import ListNotations.
Local Open Scope nat_scope.

Section Lexed.
  Context (L : lexer_env) (UO : unicode_ok (le_unicode L)).

  Lemma lexeme_not_indent m : ~ lexeme L m (tok T_Indent).
  Proof.
    intro H. remember (tok T_Indent) as o eqn:O. destruct H; try discriminate O;
      try (eapply read_as_not; [|exact O]; discriminate).
    injection O as ->. simpl in H. repeat (destruct H as [H|H]; [discriminate H|]). destruct H.
  Qed.

  Theorem C26_lexed s out : lex L s = Fine (Some out) ->
    (forall t r, In (t, r) out -> t <> T_EolThenIndent /\ t <> T_EolComment) /\
    (forall t r out', out = (t, r) :: out' -> t <> T_Eol /\ t <> T_Indent) /\
    (forall a r r' b, out <> a ++ (T_Eol, r) :: (T_Eol, r') :: b) /\
    (forall a r b, out = a ++ (T_Indent, r) :: b -> exists a' r', a = a' ++ [(T_Eol, r')]).
  Proof.
    intro H. pose proof (C30_lex L UO s) as X. rewrite H in X. destruct X as [raw toks keys ls out C R K Ls LO].
    apply (C26_structure keys (Some (blen s, blen s))).
    - intros [a b] I. pose proof (recovers_text L _ _ _ R (cut_slices _ s _ _ _ C [] eq_refl eq_refl)) as T.
      apply (keyed_text _ _ K) in I as [I|(k & _ & Q)]; [|discriminate].
      destruct (T _ _ _ I) as (m & _ & [Y|(e & Q & _)]); [exact (lexeme_not_indent _ Y)|discriminate].
    - destruct (C26_layout keys (Some (blen s, blen s)) ls Ls) as (out' & -> & LO' & _). f_equal. eapply laid_out_unique; eassumption.
  Qed.
End Lexed.

(** ** C59 *)
Section Named.
  Context (L : lexer_env) (UO : unicode_ok (le_unicode L)) (RD : reads_decimals (le_decimal L)) (DF : decimals_fit (le_decimal L)).
  Context (D : display_env) (Dok : display_ok D) (show_time : time -> str).
  Let display := display_token D show_time.

  Lemma date_lexeme d : common_date d -> lexeme L (de_date D d) (tok (T_Date d)).
  Proof.
    destruct d as [y m d]. intros [C Y]. cbn in C, Y. destruct (do_date _ Dok y m d Y C) as (ys & ms & ds & -> & Ly & Lm & Ld & Fy & Fm & Fd & Vy & Vm & Vd).
    apply (lx_date L ys 45%N ms 45%N ds (Fine (Ok (mk_date y m d)))); try (apply (digits_ascii L UO); assumption); auto.
    rewrite <- Vy, <- Vm, <- Vd. constructor; try assumption. rewrite Vy, Vm, Vd. exact C.
  Qed.
  Lemma number_lexeme d : common_number d -> lexeme L (de_decimal D d) (tok (T_Number d)).
  Proof.
    destruct d as [neg m s]. intros (N & M & S). cbn in N, M, S. subst neg. destruct (do_decimal _ Dok m s M S) as (i & f & -> & Ni & Fi & Ff & Lf & V).
    assert (Di : forall w, Forall digit w -> Forall (decimal_digit L) w) by (intros w Hw; exact (proj2 (digits_ascii L UO _ w eq_refl Hw))).
    assert (NT : number_text L i [] (match f with [] => None | _ => Some f end) (i ++ match f with [] => [] | _ => 46%N :: f end)).
    { split; [exact Ni|]. split; [apply Di; exact Fi|]. split; [constructor|]. split; [|destruct f; reflexivity].
      intros d Q. destruct f as [|x f]; [discriminate|]. injection Q as <-. split; [discriminate|apply Di; exact Ff]. }
    pose proof (lx_number L _ _ _ _ NT) as H. cbn [concat app] in H.
    replace (match match f with [] => None | _ => Some f end with Some d => 46%N :: d | None => [] end) with (match f with [] => [] | _ => 46%N :: f end) in H by (destruct f; reflexivity).
    pose proof (RD i f Ni Fi Ff ltac:(lia)) as R. rewrite V, Lf in R. specialize (R M). rewrite R in H. exact H.
  Qed.

  Lemma lexeme_shown m t : t <> T_Eol -> t <> T_EolThenIndent -> t <> T_EolComment -> lexeme L m (tok t) -> shown L m t (display t).
  Proof.
    intros N1 N2 N3 H. pose proof (lexeme_sane L UO DF m t H) as Sane.
    remember (tok t) as o eqn:O. unfold tok in O. destruct H as [s H|s u H|k|s H N|c H|y p m q d o Hy Hm Hd _ _ H|h m o _ _ H|h m s o _ _ _ H|s H|b H N|b H N|i gs f s H|s H|s H|s H N|s b H B|s H|s H N].
    all: try discriminate.
    all: try (unfold tok in O; injection O as <-).
    - unfold symbols in H. cbn [In] in H. repeat (destruct H as [H|H]; [injection H as <- <-; apply shown_as_written; exact Logic.I|]). destruct H.
    - replace (display (T_Keyword k)) with (keyword_text k) by (destruct k; reflexivity). apply shown_as_written. exact Logic.I.
    - apply shown_as_written. exact Logic.I.
    - apply shown_as_written. exact Logic.I.
    - destruct H; cbn in O; try discriminate. unfold tok in O. injection O as <-. apply shown_as_date. apply date_lexeme. exact Sane.
    - destruct H; cbn in O; try discriminate; unfold tok in O; injection O as <-; apply shown_as_time.
    - destruct H; cbn in O; try discriminate; unfold tok in O; injection O as <-; apply shown_as_time.
    - apply shown_as_written. exact Logic.I.
    - apply shown_as_written. cbn. intros [X|X]; [discriminate|]. apply in_app_or in X. destruct X as [X|[X|[]]]; [exact (N X)|discriminate].
    - destruct (le_unescape L b) as [s|e] eqn:X; cbn in O; try discriminate; unfold tok in O; injection O as <-.
      eapply shown_as_string; [reflexivity|exact N|exact X].
    - destruct (le_decimal L _) as [d|] eqn:X; cbn in O; try discriminate; unfold tok in O; injection O as <-.
      apply shown_as_number. apply number_lexeme. exact Sane.
    - apply shown_as_tag. reflexivity.
    - apply shown_as_link. reflexivity.
    - apply shown_as_written. exact Logic.I.
    - contradiction.
    - contradiction.
    - contradiction.
  Qed.

  (** Each token of a source is named as specified, after the text at its
      place. *)
  Theorem C59_token_names s out t a b : lex L s = Fine (Some out) -> In (t, (a, b)) out ->
    exists m, str_get s a b = Some m /\ shown L m t (display t).
  Proof.
    intros H Hin. destruct (C26_lexed L UO s out H) as (Raw & _). destruct (Raw _ _ Hin) as [N1 N2].
    destruct (C30_token_text L UO _ _ _ _ _ H Hin) as (m & G & T). exists m. split; [exact G|].
    destruct T as [[T|[(k & Qm & ->)|(e & -> & _)]]|[-> | ->]].
    - destruct t; try (apply lexeme_shown; [discriminate|assumption|assumption|exact T]). apply shown_as_eol.
    - apply shown_as_written. exact Logic.I.
    - apply shown_as_error.
    - apply shown_as_eol.
    - apply shown_as_indent.
  Qed.

  Context (ND : forall c, u_Nd (le_unicode L) c = true -> u_Lu (le_unicode L) c = false /\ u_Lo (le_unicode L) c = false).
  (** Except for times, two tokens with a text of their own which are named
      alike are the same, or differ only in whether the word is a keyword or a
      key. *)
  Definition plainly (m : str) (t : token) : Prop :=
    match t with T_Number _ | T_Date _ => True | _ => verbatim m t end.
  Theorem C59_told_apart s out s' out' t a b t' a' b' m m' :
    lex L s = Fine (Some out) -> In (t, (a, b)) out -> str_get s a b = Some m -> plainly m t ->
    lex L s' = Fine (Some out') -> In (t', (a', b')) out' -> str_get s' a' b' = Some m' -> plainly m' t' ->
    display t = display t' ->
    t = t' \/ exists k, (t = T_Keyword k /\ t' = T_Key (keyword_text k)) \/ (t' = T_Keyword k /\ t = T_Key (keyword_text k)).
  Proof.
    assert (X : forall s out t a b m, lex L s = Fine (Some out) -> In (t, (a, b)) out -> str_get s a b = Some m -> plainly m t ->
      lexeme L (display t) (tok t) \/ exists k, display t = keyword_text k /\ t = T_Key (keyword_text k)).
    { clear s out t a b m. intros s out t a b m H Hin G P. destruct (C59_token_names _ _ _ _ _ H Hin) as (m1 & G1 & Sh). rewrite G in G1. injection G1 as <-.
      destruct (C30_token_text L UO _ _ _ _ _ H Hin) as (m1 & G1 & T). rewrite G in G1. injection G1 as <-.
      remember (display t) as w eqn:W. destruct Sh as [t V|d w V|d w V|ti w|w V|w V|body w V1 V2 V3| | |e]; auto; try contradiction.
      - destruct T as [[T|[(k & Qm & ->)|(e & -> & _)]]|[-> | ->]]; try contradiction; [left; exact T|right; exists k; split; [exact Qm|now rewrite Qm]].
      - exfalso. cbn in P. apply P. rewrite V1. right. apply in_or_app. now left. }
    intros H Hin G P H' Hin' G' P' Q.
    destruct (X _ _ _ _ _ _ H Hin G P) as [A|(k & A & ->)], (X _ _ _ _ _ _ H' Hin' G' P') as [B|(k' & B & ->)].
    - rewrite Q in A. left. pose proof (lexeme_fun L UO ND _ _ _ A B) as Y. unfold tok in Y. now injection Y.
    - rewrite Q, B in A. right. exists k'. left. split; [|reflexivity]. pose proof (lexeme_fun L UO ND _ _ _ A (lx_keyword L k')) as Y. unfold tok in Y. now injection Y.
    - rewrite <- Q, A in B. right. exists k. right. split; [|reflexivity]. pose proof (lexeme_fun L UO ND _ _ _ B (lx_keyword L k)) as Y. unfold tok in Y. now injection Y.
    - left. rewrite Q, B in A. now rewrite A.
  Qed.
End Named.

(** ** Concrete cases *)
Definition ex_time (_ : time) : str := [].
Definition ex_names (s : str) : list str :=
  match lex P_Lexer.ex_env s with Fine (Some out) => map (fun x => display_token ex_display ex_time (fst x)) out | _ => [] end.
Example ex_named : ex_names (lit "2024/01/05 txn #open ^a 1,000.50 USD :") =
  [lit "2024-01-05"; lit "txn"; lit "open"; lit "a"; lit "1000.50"; lit "USD"; lit ":"; lit "\n"].
Proof. vm_compute. reflexivity. Qed.

(** A tag is named like a keyword: tokens cannot always be told apart. *)
Theorem C59_tag_sign_refuted : exists L D show_time s s' r r',
  unicode_ok (le_unicode L) /\ display_ok D /\
  lex L s = Fine (Some [(T_Keyword K_Open, r); (T_Eol, (4, 4))]) /\ lex L s' = Fine (Some [(T_Tag (lit "open"), r'); (T_Eol, (5, 5))]) /\
  display_token D show_time (T_Keyword K_Open) = display_token D show_time (T_Tag (lit "open")).
Proof.
  exists P_Lexer.ex_env, ex_display, ex_time, (lit "open"), (lit "#open"), (0, 4), (0, 5).
  split; [exact arabic_ok|]. split; [exact ex_display_ok|]. split; [vm_compute; reflexivity|]. split; [vm_compute; reflexivity|]. reflexivity.
Qed.
Print Assumptions C26_lexed.
Print Assumptions C59_token_names.
Print Assumptions C59_told_apart.
Print Assumptions C59_tag_sign_refuted.
Example ex_hypotheses : exists out t a b m, lex P_Lexer.ex_env (lit "1,000.50 USD") = Fine (Some out) /\ In (t, (a, b)) out /\
  str_get (lit "1,000.50 USD") a b = Some m /\ m = lit "1,000.50" /\ shown P_Lexer.ex_env m t (display_token ex_display ex_time t).
Proof.
  assert (H : exists out, lex P_Lexer.ex_env (lit "1,000.50 USD") = Fine (Some out) /\ In (T_Number (mk_dec false 100050 2), (0, 8)) out) by (eexists; split; [vm_compute; reflexivity|left; reflexivity]).
  destruct H as (out & H & I). destruct (C59_token_names P_Lexer.ex_env arabic_ok ex_reads_decimals ex_decimals_fit ex_display ex_display_ok ex_time _ _ _ _ _ H I) as (m & G & Sh).
  exists out, (T_Number (mk_dec false 100050 2)), 0, 8, m. split; [exact H|]. split; [exact I|]. split; [exact G|]. split; [|exact Sh].
  vm_compute in G. injection G as <-. reflexivity.
Qed.
