(** * Properties C29, C30, C41, C42, C43: tokens *)
From Coq Require Import String Ascii.
From Coq Require Import List NArith Arith Bool Lia.
From Verif Require Import Base BaseFacts Path Types SpecTypes TypesFacts Options SpecOptions
  Token LexPost SpecLex LexFacts P_Lex Lexer SpecLexer LexerFacts LexerUnique LexerOrder.
Import ListNotations.
Local Open Scope nat_scope.

Section Env.
  Context (E : lexer_env) (UO : unicode_ok (le_unicode E)).

  (** ** C30 *)

  Lemma longest_unique (lx : str -> outcome (option (result token str)) -> Prop) t r t' r' : longest lx t r -> longest lx t' r' -> t ++ r = t' ++ r' -> t = t' /\ r = r'.
  Proof.
    intros (N & L & M) (N' & L' & M') Q.
    assert (X : forall a b c d : str, a ++ b = c ++ d -> List.length a <= List.length c -> exists e, c = a ++ e /\ b = e ++ d).
    { clear. induction a as [|x a IH]; intros b c d Q L; [exists c; auto|]. destruct c as [|y c]; simpl in *; [lia|].
      injection Q as -> Q. apply IH in Q as (e & -> & ->); [|lia]. exists e. auto. }
    destruct (Nat.le_ge_cases (List.length t) (List.length t')) as [H|H].
    - destruct (X _ _ _ _ Q H) as (e & -> & ->). destruct e as [|x e]; [rewrite app_nil_r; auto|].
      exfalso. now apply (M (x :: e) r').
    - symmetry in Q. destruct (X _ _ _ _ Q H) as (e & -> & ->). destruct e as [|x e]; [rewrite app_nil_r; auto|].
      exfalso. now apply (M' (x :: e) r).
  Qed.

  Lemma longest_lexeme (lx : str -> outcome (option (result token str)) -> Prop) t r : longest lx t r -> no_lexeme lx (t ++ r) -> False.
  Proof. intros (N & L & _) H. now apply (H t r). Qed.

  (** Tokens are the longest lexemes; only where there is none there is a failure. *)
  Theorem C30_maximal_munch s :
    match raw_lex E s with
    | Panic => cut_panics (lexeme E) s
    | Fine None => False
    | Fine (Some items) => cut (lexeme E) 0 s items
    end.
  Proof. now apply raw_lex_spec. Qed.

  (** No text is two different tokens. *)
  Theorem C30_unambiguous s o o' :
    (forall c, u_Nd (le_unicode E) c = true -> u_Lu (le_unicode E) c = false /\ u_Lo (le_unicode E) c = false) ->
    lexeme E s o -> lexeme E s o' -> o = o'.
  Proof. intros D. now apply lexeme_fun. Qed.

  Lemma well_cut_cut (lx : str -> outcome (option (result token str)) -> Prop) off s a b :
    (forall w o o', lx w o -> lx w o' -> o = o') -> well_cut lx off s a -> cut lx off s b -> a = b.
  Proof.
    intros FU W. revert b. induction W as [off|off t rest items L X W IH|off t rest x items L X W IH]; intros b C.
    - remember (@nil N) as z eqn:Z. destruct C as [off|off t rest b L X C|off t rest x b L X C|off t rest b L X C]; auto;
        apply app_eq_nil in Z as [-> _]; [destruct L as [L _]|destruct L as [L _]|]; now destruct L.
    - remember (t ++ rest) as s eqn:Q. destruct C as [off|off t' rest' b L' X' C|off t' rest' x' b L' X' C|off t' rest' b N' X' C].
      + destruct t; [|discriminate]. destruct L as [N _]. congruence.
      + destruct (longest_unique _ _ _ _ _ L' L Q) as [-> ->]. auto.
      + destruct (longest_unique _ _ _ _ _ L' L Q) as [-> ->]. pose proof (FU _ _ _ X X'). discriminate.
      + exfalso. eapply longest_lexeme; [exact L|]. now rewrite <- Q.
    - remember (t ++ rest) as s eqn:Q. destruct C as [off|off t' rest' b L' X' C|off t' rest' x' b L' X' C|off t' rest' b N' X' C].
      + destruct t; [|discriminate]. destruct L as [N _]. congruence.
      + destruct (longest_unique _ _ _ _ _ L' L Q) as [-> ->]. pose proof (FU _ _ _ X X'). discriminate.
      + destruct (longest_unique _ _ _ _ _ L' L Q) as [-> ->]. pose proof (FU _ _ _ X X') as R. injection R as ->.
        f_equal. auto.
      + exfalso. eapply longest_lexeme; [exact L|]. now rewrite <- Q.
  Qed.

  Lemma well_cut_no_panic (lx : str -> outcome (option (result token str)) -> Prop) off s a :
    (forall w o o', lx w o -> lx w o' -> o = o') -> well_cut lx off s a -> ~ cut_panics lx s.
  Proof.
    intros FU W. induction W as [off|off t rest items L X W IH|off t rest x items L X W IH]; intros C.
    - remember (@nil N) as z eqn:Z. destruct C as [t rest L X|t rest o L X C|t rest L X C];
        apply app_eq_nil in Z as [-> _]; [destruct L as [L _]|destruct L as [L _]|]; now apply L.
    - remember (t ++ rest) as s eqn:Q. destruct C as [t' rest' L' X'|t' rest' o L' X' C|t' rest' N' X' C].
      + destruct (longest_unique _ _ _ _ _ L' L Q) as [-> ->]. pose proof (FU _ _ _ X X'). discriminate.
      + destruct (longest_unique _ _ _ _ _ L' L Q) as [-> ->]. auto.
      + eapply longest_lexeme; [exact L|]. now rewrite <- Q.
    - remember (t ++ rest) as s eqn:Q. destruct C as [t' rest' L' X'|t' rest' o L' X' C|t' rest' N' X' C].
      + destruct (longest_unique _ _ _ _ _ L' L Q) as [-> ->]. pose proof (FU _ _ _ X X'). discriminate.
      + destruct (longest_unique _ _ _ _ _ L' L Q) as [-> ->]. auto.
      + eapply longest_lexeme; [exact L|]. now rewrite <- Q.
  Qed.

  (** Conversely, text which is made of longest lexemes gives exactly these. *)
  Theorem C30_complete s items :
    (forall c, u_Nd (le_unicode E) c = true -> u_Lu (le_unicode E) c = false /\ u_Lo (le_unicode E) c = false) ->
    well_cut (lexeme E) 0 s items -> raw_lex E s = Fine (Some items).
  Proof.
    intros D W. assert (FU : forall w o o', lexeme E w o -> lexeme E w o' -> o = o') by (intros w o o'; now apply lexeme_fun).
    pose proof (C30_maximal_munch s) as H. destruct (raw_lex E s) as [[its|]|].
    - now rewrite (well_cut_cut _ _ _ _ _ FU W H).
    - destruct H.
    - destruct (well_cut_no_panic _ _ _ _ FU W H).
  Qed.

  Lemma cut_slices (lx : str -> outcome (option (result token str)) -> Prop) whole off s items : cut lx off s items -> forall pre, whole = pre ++ s -> off = blen pre ->
    forall x a b, In (x, (a, b)) items -> exists m, str_get whole a b = Some m /\
      (lx m (Fine (Some x)) \/ x = Err (lit "unrecognized token") /\ no_lexeme lx m).
  Proof.
    intros C. induction C as [off|off t rest items L X C IH|off t rest x items L X C IH|off t rest items N X C IH]; intros pre W O x' a b I.
    - destruct I.
    - apply (IH (pre ++ t)); auto; subst; [now rewrite app_assoc|now rewrite blen_app].
    - destruct I as [I|I].
      + injection I as <- <- <-. exists t. split; [|auto]. apply str_get_spec. exists pre, rest. subst. auto.
      + apply (IH (pre ++ t)); auto; subst; [now rewrite app_assoc|now rewrite blen_app].
    - destruct I as [I|I].
      + injection I as <- <- <-. exists t. split; [apply str_get_spec; exists pre, rest; subst; auto|].
        right. split; auto. intros u v -> NU. apply (X u (v ++ rest)); auto. symmetry. apply app_assoc.
      + apply (IH (pre ++ t)); auto; subst; [now rewrite app_assoc|now rewrite blen_app].
  Qed.

  Lemma recovers_spec s l : recoverable s (recovery_lex E) l -> recovers E s l (flat_map (recovered_at s (recovery_lex E)) l).
  Proof.
    induction l as [|[x r] l IH]; intros R; [constructor|]. assert (R' := recoverable_tail _ _ _ _ R). cbn [flat_map].
    destruct x as [t|e]; [apply (rc_ok E s t r); auto|]. destruct r as [a b].
    destruct (R e a b (or_introl eq_refl)) as (f & its & G & F). unfold recovered_at at 1. rewrite G, F.
    replace (map (fun x => recovered x a) its) with (map (moved a) its).
    - eapply rc_err; eauto. pose proof (recovery_lex_spec E UO f) as C. now rewrite F in C.
    - apply map_ext. intros [[t|e'] [x y]]; reflexivity.
  Qed.

  (** All of [lex]. *)
  Theorem C30_lex s :
    match lex E s with
    | Panic => lexing_panics E s
    | Fine None => False
    | Fine (Some out) => lexes E s out
    end.
  Proof.
    unfold lex. pose proof (raw_lex_spec E UO s) as C. destruct (raw_lex E s) as [[raw|]|]; [|exact C|now apply lp_raw].
    pose proof (attempt_recovery_spec s (recovery_lex E) raw) as R.
    destruct (attempt_recovery s (recovery_lex E) raw) as [[toks|]|]; [|destruct R|].
    - destruct R as [-> R]. apply recovers_spec in R.
      destruct (C28_keyword_then_colon (flat_map (recovered_at s (recovery_lex E)) raw)) as (keys & -> & K).
      destruct (C26_lines keys) as (ls & L & _).
      destruct (C26_layout keys (Some (blen s, blen s)) ls L) as (out & -> & LO & _).
      eapply lexes_intro; eauto.
    - assert (X : exists e a b, In (Err e, (a, b)) raw /\ forall f, str_get s a b = Some f -> recovery_lex E f = Panic).
      { clear C. induction raw as [|[x [a b]] raw IH]; [exfalso; apply R; intros e a b []|].
        destruct x as [t|e].
        - destruct IH as (e & a' & b' & I & H); [intros Q; apply R; now apply recoverable_ok|]. exists e, a', b'. split; [now right|exact H].
        - destruct (str_get s a b) as [f|] eqn:G.
          + destruct (recovery_lex E f) as [its|] eqn:F.
            * destruct IH as (e' & a' & b' & I & H); [intros Q; apply R; eapply recoverable_err; eauto|]. exists e', a', b'. split; [now right|exact H].
            * exists e, a, b. split; [now left|]. intros f' G'. rewrite G in G'. injection G' as <-. exact F.
          + exists e, a, b. split; [now left|]. intros f' G'. rewrite G in G'. discriminate. }
      destruct X as (e & a & b & I & H).
      destruct (cut_slices _ s _ _ _ C [] eq_refl eq_refl _ _ _ I) as (m & G & _).
      apply (lp_recovery E s raw e a b m); auto. pose proof (recovery_lex_spec E UO m) as Q. now rewrite (H m G) in Q.
  Qed.

  (** What each token stands for. *)
  Definition token_text (m : str) (t : token) : Prop :=
    lexeme E m (tok t) \/
    (exists k, m = keyword_text k /\ t = T_Key m) \/
    (exists e, t = T_Error e /\ (lexeme E m (Fine (Some (Err e))) \/
                                e = lit "unrecognized token" /\ no_lexeme (recovery_lexeme E) m)).

  Lemma recovery_is_lexeme m o : recovery_lexeme E m o -> lexeme E m o.
  Proof.
    intros H. destruct H.
    - apply lx_symbol. simpl in *. repeat (destruct H as [H|H]; [injection H as <- <-; tauto|]). destruct H.
    - now apply lx_date.
    - now apply lx_number with (1 := H).
  Qed.

  Lemma recovers_text s l l' : recovers E s l l' ->
    (forall x a b, In (x, (a, b)) l -> exists m, str_get s a b = Some m /\
       (lexeme E m (Fine (Some x)) \/ x = Err (lit "unrecognized token") /\ no_lexeme (lexeme E) m)) ->
    forall t a b, In (t, (a, b)) l' -> exists m, str_get s a b = Some m /\
      (lexeme E m (tok t) \/ exists e, t = T_Error e /\ (lexeme E m (Fine (Some (Err e))) \/
                                e = lit "unrecognized token" /\ no_lexeme (recovery_lexeme E) m)).
  Proof.
    induction 1 as [|t r l l' R IH|e a b f items l l' G C R IH]; intros X t' a' b' I.
    - destruct I.
    - destruct I as [I|I].
      + injection I as <- ->. destruct (X _ _ _ (or_introl eq_refl)) as (m & G & [L|[? _]]); [|discriminate].
        exists m. auto.
      + apply IH; auto. intros x a b J. apply X. now right.
    - apply in_app_or in I as [I|I].
      + apply in_map_iff in I as ([x [p q]] & Q & I). unfold moved in Q. cbn [fst snd] in Q. injection Q as <- <- <-.
        destruct (cut_slices _ f _ _ _ C [] eq_refl eq_refl _ _ _ I) as (m & Gm & L). exists m. split.
        * apply str_get_spec in G as (pre & post & -> & -> & ->). apply str_get_spec in Gm as (pre' & post' & -> & -> & ->).
          apply str_get_spec. exists (pre ++ pre'), (post' ++ post). rewrite blen_app. split; [now rewrite <- !app_assoc|]. split; lia.
        * destruct x as [t|e']; [left|right; exists e'; split; auto].
          -- destruct L as [L|[? _]]; [|discriminate]. now apply recovery_is_lexeme.
          -- destruct L as [L|[Q L]]; [left; now apply recovery_is_lexeme|]. right. injection Q as ->. auto.
      + apply IH; auto. intros x a0 b0 J. apply X. now right.
  Qed.

  Lemma keyed_text l l' : keyed l l' -> forall t r, In (t, r) l' ->
    In (t, r) l \/ exists k, In (T_Keyword k, r) l /\ t = T_Key (keyword_text k).
  Proof.
    intros [L K] t r I. apply In_nth_error in I as (i & I).
    assert (LT : i < List.length l) by (rewrite <- L; apply nth_error_Some; congruence).
    destruct (nth_error l i) as [[t0 r0]|] eqn:N; [|apply nth_error_None in N; lia].
    specialize (K i t0 r0 N). assert (IN := nth_error_In _ _ N).
    destruct t0; try (rewrite I in K; injection K as -> ->; auto; fail).
    destruct K as [[_ K]|[_ K]]; rewrite I in K; injection K as -> ->; eauto.
  Qed.

  Lemma laid_out_in ls fin out : laid_out ls fin out -> forall t r, In (t, r) out ->
    In (t, r) (joined ls) \/ t = T_Eol \/ t = T_Indent.
  Proof.
    destruct 1 as [SK|sk run ts rest rest' -> SK NS K]; intros t r I; [destruct I|].
    unfold joined. rewrite flat_map_app. cbn [flat_map fst snd]. rewrite !in_app_iff in I. rewrite !in_app_iff.
    destruct I as [I|[I|I]]; [auto| |].
    - apply in_flat_map in I as ([r1 t1] & I & J). cbn [fst snd] in J. apply in_app_iff in J as [J|J].
      + right. unfold break_of in J. destruct r1 as [|[k1 [x y]] r1]; [destruct J|].
        destruct (last ((k1, (x, y)) :: r1) (T_Eol, (0, 0))) as [[] [? ?]]; simpl in J; intuition congruence.
      + left. right. right. apply in_flat_map. exists (r1, t1). split; [|apply in_or_app; now right].
        clear -K I. induction K; simpl in *; intuition auto.
    - right. left. destruct rest'; [|destruct I]. destruct fin; [|destruct I]. destruct I as [I|[]]. now injection I as <- _.
  Qed.

  Lemma keyed_unique l a b : keyed l a -> keyed l b -> a = b.
  Proof.
    intros [LA A] [LB B].
    assert (NX : forall x y : list rtoken, (forall i, nth_error x i = nth_error y i) -> x = y).
    { clear. induction x as [|c x IH]; intros [|d y] H; auto; try (specialize (H 0); discriminate H).
      pose proof (H 0) as H0. injection H0 as ->. f_equal. apply IH. intros i. exact (H (S i)). }
    apply NX. intros i. destruct (nth_error l i) as [[t r]|] eqn:N.
    - specialize (A i t r N). specialize (B i t r N). destruct t; try congruence.
      destruct A as [[(ra & A1) A2]|[A1 A2]], B as [[(rb & B1) B2]|[B1 B2]]; try congruence; exfalso; firstorder.
    - apply nth_error_None in N. rewrite !(proj2 (nth_error_None _ _)); auto; lia.
  Qed.

  Lemma lex_ordered s out : lex E s = Fine (Some out) -> out_ordered s 0 out.
  Proof.
    intros H. pose proof (C30_lex s) as X. rewrite H in X. destruct X as [raw toks keys ls out C R K L LO].
    rewrite (keyed_unique _ _ _ K (keyed_list_spec toks)) in *.
    rewrite (laid_out_unique _ _ _ _ LO (layout_laid_out _ _ _ L)).
    apply (out_layout s (keyed_list toks)); auto. apply keyed_ordered. eapply recovers_ordered; [exact R|].
    eapply (cut_ordered _ s); [exact C|apply indent_lexeme|exact (eq_refl : s = [] ++ s)|reflexivity].
  Qed.

  Theorem C30_token_text s out t a b : lex E s = Fine (Some out) -> In (t, (a, b)) out ->
    exists m, str_get s a b = Some m /\ (token_text m t \/ t = T_Eol \/ t = T_Indent).
  Proof.
    intros H I. destruct (out_in _ _ _ (lex_ordered _ _ H) _ _ _ I) as (_ & m & G). exists m. split; auto.
    pose proof (C30_lex s) as X. rewrite H in X. destruct X as [raw toks keys ls out C R K L LO].
    apply (laid_out_in _ _ _ LO) in I as [I|I]; [|auto]. rewrite <- (lo_all _ _ L) in I. destruct I as [I|I]; [injection I as <- _ _; auto|].
    assert (T := recovers_text _ _ _ R (cut_slices _ s _ _ _ C [] eq_refl eq_refl)).
    left. apply (keyed_text _ _ K) in I as [I|(k & I & ->)].
    - destruct (T _ _ _ I) as (m' & G' & [Y|Y]); rewrite G in G'; injection G' as <-; [left|right; right]; auto.
    - destruct (T _ _ _ I) as (m' & G' & [Y|(e & Q & _)]); rewrite G in G'; injection G' as <-; [|discriminate].
      right. left. exists k. assert (m = keyword_text k); [|subst; auto].
      remember (tok (T_Keyword k)) as o eqn:O. destruct Y; try discriminate O;
        try (exfalso; eapply read_as_not; [|exact O]; discriminate).
      + exfalso. injection O as ->. simpl in H0. repeat (destruct H0 as [H0|H0]; [discriminate H0|]). destruct H0.
      + injection O as ->. reflexivity.
  Qed.

  (** ** C29 *)

  (** Each range is that of a part of the source, in whole chars; ranges follow
      one another, except that an indent is the last byte of the end of line
      before it. *)
  Theorem C29_spans s out : lex E s = Fine (Some out) ->
    (forall t a b, In (t, (a, b)) out -> exists m, str_get s a b = Some m) /\
    (forall x t a b z u c d y, out = x ++ (t, (a, b)) :: z ++ (u, (c, d)) :: y ->
       b <= c \/ (z = [] /\ t = T_Eol /\ u = T_Indent /\ a <= c /\ d = b /\ b = S c)).
  Proof.
    intros H. apply lex_ordered in H. split.
    - intros t a b I. now apply (out_in _ _ _ H) in I as [_ I].
    - intros x t a b z u c d y Q. eapply out_pairs; eauto.
  Qed.

  (** Before lines are laid out there is no exception, and what is recognized
      in text which failed stays within it. *)
  Theorem C29_raw_spans s items : raw_lex E s = Fine (Some items) ->
    (forall t a b, In (t, (a, b)) items -> exists m, str_get s a b = Some m /\ m <> []) /\
    (forall x t a b z u c d y, items = x ++ (t, (a, b)) :: z ++ (u, (c, d)) :: y -> b <= c).
  Proof.
    intros H. pose proof (C30_maximal_munch s) as X. rewrite H in X.
    assert (G : forall off w its, cut (lexeme E) off w its -> forall pre, s = pre ++ w -> off = blen pre ->
      (forall t a b, In (t, (a, b)) its -> off <= a /\ exists m, str_get s a b = Some m /\ m <> []) /\
      (forall x t a b z u c d y, its = x ++ (t, (a, b)) :: z ++ (u, (c, d)) :: y -> b <= c)).
    { clear X. induction 1 as [off|off t rest its L Y C IH|off t rest x its L Y C IH|off t rest its N Y C IH]; intros pre W O.
      - split; [easy|]. intros x t a b z u c d y Q. destruct x; discriminate.
      - destruct (IH (pre ++ t)) as [A B]; [subst; now rewrite app_assoc|subst; now rewrite blen_app|]. split; auto.
        intros t0 a b I. apply A in I as [I J]. split; [lia|auto].
      - destruct (IH (pre ++ t)) as [A B]; [subst; now rewrite app_assoc|subst; now rewrite blen_app|]. split.
        + intros t0 a b [I|I]; [|apply A in I as [I J]; split; [lia|auto]]. injection I as <- <- <-. split; [lia|].
          exists t. split; [apply str_get_spec; exists pre, rest; subst; auto|]. apply L.
        + intros x0 t0 a b z u c d y Q. destruct x0 as [|x1 x0]; simpl in Q; [|injection Q as _ Q; eauto].
          injection Q as -> <- <- ->. edestruct A as [I _]; [apply in_or_app; right; now left|]. lia.
      - destruct (IH (pre ++ t)) as [A B]; [subst; now rewrite app_assoc|subst; now rewrite blen_app|]. split.
        + intros t0 a b [I|I]; [|apply A in I as [I J]; split; [lia|auto]]. injection I as <- <- <-. split; [lia|].
          exists t. split; [apply str_get_spec; exists pre, rest; subst; auto|]. auto.
        + intros x0 t0 a b z u c d y Q. destruct x0 as [|x1 x0]; simpl in Q; [|injection Q as _ Q; eauto].
          injection Q as <- <- <- ->. edestruct A as [I _]; [apply in_or_app; right; now left|]. lia. }
    destruct (G 0 s items X [] eq_refl eq_refl) as [A B]. split; auto. intros t a b I. now apply A in I as [_ I].
  Qed.

  Theorem C29_recovery_within failed items t a b : recovery_lex E failed = Fine items -> In (t, (a, b)) items ->
    exists m, str_get failed a b = Some m.
  Proof.
    intros H I. pose proof (recovery_lex_spec E UO failed) as C. rewrite H in C.
    destruct (cut_slices _ failed _ _ _ C [] eq_refl eq_refl _ _ _ I) as (m & G & _). eauto.
  Qed.

  (** ** C41 *)
  Section Categories.
    Context (DISJ : forall c, u_Nd (le_unicode E) c = true -> u_Lu (le_unicode E) c = false /\ u_Lo (le_unicode E) c = false).

    Lemma token_of_text s out t a b m o : lex E s = Fine (Some out) -> In (t, (a, b)) out -> str_get s a b = Some m ->
      t <> T_Eol -> t <> T_Indent -> (forall k, m <> keyword_text k) -> lexeme E m (Fine (Some o)) ->
      o = Ok t \/ exists e, t = T_Error e /\ (o = Err e \/ no_lexeme (recovery_lexeme E) m).
    Proof.
      intros H I G NE NI NK L. destruct (C30_token_text _ _ _ _ _ H I) as (m' & G' & [T|[T|T]]); try contradiction.
      rewrite G in G'. injection G' as <-. destruct T as [T|[(k & T & _)|(e & -> & [T|[_ T]])]].
      - pose proof (lexeme_fun E UO DISJ _ _ _ L T) as Q. injection Q as ->. auto.
      - destruct (NK k T).
      - pose proof (lexeme_fun E UO DISJ _ _ _ L T) as Q. injection Q as ->. right. exists e. auto.
      - right. exists e. auto.
    Qed.

    Lemma not_keyword_digit m c t : m = c :: t -> u_Nd (le_unicode E) c = true -> forall k, m <> keyword_text k.
    Proof.
      intros -> D k Q. destruct (keyword_head k) as (d & r & K & L). rewrite K in Q. injection Q as -> _.
      apply (ascii_decimal_digit E UO) in D; unfold digit, lower in *; lia.
    Qed.

    (** Whatever number is written, commas or not, its token is that number,
        with as many decimals as written. *)
    Theorem C41_number s out t a b m i gs f :
      reads_decimals (le_decimal E) -> lex E s = Fine (Some out) -> In (t, (a, b)) out -> t <> T_Eol -> t <> T_Indent ->
      str_get s a b = Some m -> number_text E i gs f m ->
      let d := match f with Some d => d | None => [] end in
      Forall digit i -> Forall (Forall digit) gs -> Forall digit d ->
      List.length d <= 28 -> (decimal_value (i ++ concat gs ++ d) < 2 ^ 96)%N ->
      t = T_Number (mk_dec false (decimal_value (i ++ concat gs ++ d)) (List.length d)).
    Proof.
      intros RD H I NE NI G NT d DI DG DD L28 B. pose proof NT as (IN & IF & _ & FD & Q).
      assert (HD : exists c r, m = c :: r /\ u_Nd (le_unicode E) c = true).
      { destruct i as [|c i]; [congruence|]. inversion IF; subst. eexists _, _. split; [reflexivity|assumption]. }
      destruct HD as (c & r & M & C).
      assert (V : le_decimal E (i ++ concat gs ++ match f with Some d => 46%N :: d | None => [] end)
                  = Ok (mk_dec false (decimal_value (i ++ concat gs ++ d)) (List.length d))).
      { rewrite !app_assoc in *. replace (match f with Some d => 46%N :: d | None => [] end) with (match d with [] => [] | _ => 46%N :: d end).
        - apply RD; auto.
          + destruct i; [congruence|discriminate].
          + apply Forall_app. split; auto. clear -DG. induction DG; simpl; [constructor|]. apply Forall_app. auto.
        - unfold d. destruct f as [d'|]; [|reflexivity]. destruct (FD d' eq_refl) as [ND _]. destruct d'; [congruence|reflexivity]. }
      destruct (token_of_text _ _ _ _ _ _ (Ok (T_Number (mk_dec false (decimal_value (i ++ concat gs ++ d)) (List.length d)))) H I G NE NI
        (not_keyword_digit _ _ _ M C)) as [X|(e & _ & [X|X])].
      - pose proof (lx_number E i gs f m NT) as LX. rewrite V in LX. exact LX.
      - now injection X as <-.
      - discriminate.
      - exfalso. apply (X m [] (eq_sym (app_nil_r m))); [rewrite M; discriminate|]. eexists. eapply rl_number. exact NT.
    Qed.

    (** ** C42 *)

    (** A date as written gives this date if it is in the calendar, and an error otherwise. *)
    Theorem C42_date s out t a b y p m q d :
      lex E s = Fine (Some out) -> In (t, (a, b)) out -> t <> T_Eol -> t <> T_Indent ->
      str_get s a b = Some (y ++ p :: m ++ q :: d) ->
      List.length y = 4 -> List.length m = 2 -> List.length d = 2 -> Forall digit (y ++ m ++ d) ->
      p = 45%N \/ p = 47%N -> q = 45%N \/ q = 47%N ->
      (calendar_date (num y) (num m) (num d) /\ t = T_Date (mk_date (num y) (num m) (num d))) \/
      (~ calendar_date (num y) (num m) (num d) /\ exists e, t = T_Error e).
    Proof.
      intros H I NE NI G LY LM LD F P Q. apply Forall_app in F as [FY F]. apply Forall_app in F as [FM FD].
      assert (DD : forall w, Forall digit w -> Forall (decimal_digit E) w).
      { intros w. apply Forall_impl. intros c D. unfold decimal_digit.
        destruct (UO c) as (_ & _ & _ & _ & _ & _ & X); [apply N.ltb_lt; unfold digit in D; lia|]. rewrite X. now apply is_digit_spec. }
      assert (Y : digits E 4 y) by (split; auto). assert (M : digits E 2 m) by (split; auto). assert (D : digits E 2 d) by (split; auto).
      assert (RD := parse_date_spec E UO y p m q d Y M D P Q). set (o := parse_date _) in RD.
      assert (LX := lx_date E _ _ _ _ _ _ Y M D P Q RD).
      assert (RL := rl_date E _ _ _ _ _ _ Y M D P Q RD).
      assert (NK : forall k, y ++ p :: m ++ q :: d <> keyword_text k).
      { destruct y as [|c y]; [discriminate|]. apply (not_keyword_digit _ c (y ++ p :: m ++ q :: d) eq_refl). inversion FY; subst.
        apply DD in FY. now inversion FY. }
      destruct RD as [_ _ _ C|_ _ B|_ _ _ B C|X]; simpl in LX.
      - left. split; auto. destruct (token_of_text _ _ _ _ _ _ _ H I G NE NI NK LX) as [X|(e & _ & [X|X])].
        + now injection X as <-.
        + discriminate.
        + exfalso. apply (X _ [] (eq_sym (app_nil_r _))); [destruct y; discriminate|]. eexists. exact RL.
      - right. split; [intros (n & X & _); apply month_has_range in X; auto|].
        destruct (token_of_text _ _ _ _ _ _ _ H I G NE NI NK LX) as [X|(e & X & _)]; [discriminate|eauto].
      - right. split; auto.
        destruct (token_of_text _ _ _ _ _ _ _ H I G NE NI NK LX) as [X|(e & X & _)]; [discriminate|eauto].
      - exfalso. tauto.
    Qed.

    (** A date token stands for a date which was written and exists. *)
    Theorem C42_date_only s out x a b : lex E s = Fine (Some out) -> In (T_Date x, (a, b)) out ->
      calendar_date (d_year x) (d_month x) (d_day x) /\
      exists y p m q d, str_get s a b = Some (y ++ p :: m ++ q :: d) /\
        List.length y = 4 /\ List.length m = 2 /\ List.length d = 2 /\ Forall digit (y ++ m ++ d) /\
        (p = 45%N \/ p = 47%N) /\ (q = 45%N \/ q = 47%N) /\
        d_year x = num y /\ d_month x = num m /\ d_day x = num d.
    Proof.
      intros H I. destruct (C30_token_text _ _ _ _ _ H I) as (w & G & [T|[T|T]]); try discriminate.
      destruct T as [T|[(k & _ & T)|(e & T & _)]]; try discriminate.
      remember (tok (T_Date x)) as o eqn:O. destruct T; try discriminate O;
        try (exfalso; eapply read_as_not; [|exact O]; discriminate).
      - exfalso. injection O as ->. simpl in H0. repeat (destruct H0 as [H0|H0]; [discriminate H0|]). destruct H0.
      - destruct H5; simpl in O; try discriminate O. injection O as <-. simpl. split; auto.
        exists y, p, m, q, d. split; auto. repeat (split; [first [apply H0|apply H1|apply H2]|]).
        split; [rewrite !Forall_app; auto|]. auto.
    Qed.

    (** Likewise for times, *)
    Theorem C42_time s out t a b h m sec text :
      lex E s = Fine (Some out) -> In (t, (a, b)) out -> t <> T_Eol -> t <> T_Indent ->
      (sec = [] /\ text = h ++ 58%N :: m \/ List.length sec = 2 /\ text = h ++ 58%N :: m ++ 58%N :: sec) ->
      str_get s a b = Some text -> List.length h = 1 \/ List.length h = 2 -> List.length m = 2 -> Forall digit (h ++ m ++ sec) ->
      time_of_day (num h) (num m) (num sec) ->
      t = T_Time (mk_time (num h) (num m) (num sec)).
    Proof.
      intros H I NE NI SX G LH LM F TD. apply Forall_app in F as [FH F]. apply Forall_app in F as [FM FS].
      assert (DD : forall w, Forall digit w -> Forall (decimal_digit E) w).
      { intros w. apply Forall_impl. intros c D. unfold decimal_digit.
        destruct (UO c) as (_ & _ & _ & _ & _ & _ & X); [apply N.ltb_lt; unfold digit in D; lia|]. rewrite X. now apply is_digit_spec. }
      assert (HD : digits E 1 h \/ digits E 2 h) by (destruct LH; [left|right]; split; auto).
      assert (M : digits E 2 m) by (split; auto).
      assert (LX : lexeme E text (tok (T_Time (mk_time (num h) (num m) (num sec))))).
      { destruct SX as [[-> ->]|[L ->]].
        - apply (lx_time E h m (Fine (Ok (mk_time (num h) (num m) (num []))))); auto. now apply tr_ok.
        - apply (lx_time_seconds E h m sec (Fine (Ok (mk_time (num h) (num m) (num sec))))); auto; [split; auto|]. now apply tr_ok. }
      assert (NK : forall k, text <> keyword_text k).
      { destruct h as [|c h]; [destruct LH; discriminate|].
        assert (C : u_Nd (le_unicode E) c = true) by (apply DD in FH; now inversion FH).
        destruct SX as [[_ ->]|[_ ->]]; eapply not_keyword_digit; eauto; reflexivity. }
      destruct (token_of_text _ _ _ _ _ _ _ H I G NE NI NK LX) as [X|(e & _ & [X|X])]; [now injection X as <-|discriminate X|].
      exfalso. destruct h as [|c h]; [destruct LH; discriminate|].
      assert (X' : exists w, text = [c] ++ w) by (destruct SX as [[_ ->]|[_ ->]]; eexists; reflexivity). destruct X' as (w & ->).
      apply (X [c] w eq_refl); [discriminate|]. eexists. apply (rl_number E [c] [] None).
      assert (C : u_Nd (le_unicode E) c = true) by (apply DD in FH; now inversion FH).
      split; [discriminate|]. split; [constructor; auto|]. split; [constructor|]. split; [discriminate|reflexivity].
    Qed.

    Theorem C42_time_only s out x a b : lex E s = Fine (Some out) -> In (T_Time x, (a, b)) out ->
      time_of_day (t_hour x) (t_minute x) (t_second x) /\
      exists h m sec text, str_get s a b = Some text /\
        (sec = [] /\ text = h ++ 58%N :: m \/ List.length sec = 2 /\ text = h ++ 58%N :: m ++ 58%N :: sec) /\
        (List.length h = 1 \/ List.length h = 2) /\ List.length m = 2 /\ Forall digit (h ++ m ++ sec) /\
        t_hour x = num h /\ t_minute x = num m /\ t_second x = num sec.
    Proof.
      intros H I. destruct (C30_token_text _ _ _ _ _ H I) as (w & G & [T|[T|T]]); try discriminate.
      destruct T as [T|[(k & _ & T)|(e & T & _)]]; try discriminate.
      remember (tok (T_Time x)) as o eqn:O. destruct T; try discriminate O;
        try (exfalso; eapply read_as_not; [|exact O]; discriminate).
      - exfalso. injection O as ->. simpl in H0. repeat (destruct H0 as [H0|H0]; [discriminate H0|]). destruct H0.
      - destruct H2; simpl in O; try discriminate O. injection O as <-. simpl. split; auto.
        exists h, m, [], (h ++ 58%N :: m). split; auto. split; auto.
        split; [destruct H0 as [H0|H0]; [left|right]; apply H0|]. split; [apply H1|].
        split; [rewrite !Forall_app; auto|]. auto.
      - destruct H3; simpl in O; try discriminate O. injection O as <-. simpl. split; auto.
        exists h, m, s0, (h ++ 58%N :: m ++ 58%N :: s0). split; auto. split; [right; split; auto; apply H2|].
        split; [destruct H0 as [H0|H0]; [left|right]; apply H0|]. split; [apply H1|].
        split; [rewrite !Forall_app; auto|]. auto.
    Qed.
  End Categories.

  (** ** C43 *)

  (** Any text without quotes and backslashes, between quotes, is read as it is. *)
  Theorem C43_verbatim body rest : ~ In 34%N body -> ~ In 92%N body ->
    match raw_lex E (34%N :: body ++ 34%N :: rest) with
    | Fine (Some items) => exists items', items = (Ok (T_String body), (0, 2 + blen body)) :: items' /\
                                         cut (lexeme E) (2 + blen body) rest items'
    | _ => cut_panics (lexeme E) rest
    end.
  Proof.
    intros NQ NB. set (t := 34%N :: body ++ [34%N]).
    assert (Q : 34%N :: body ++ 34%N :: rest = t ++ rest) by (unfold t; simpl; now rewrite <- app_assoc).
    assert (SB : string_body body).
    { clear -NQ NB. induction body as [|c b IH]; constructor; simpl in *; auto; intros ->; tauto. }
    assert (LX : lexeme E t (tok (T_String body))) by now apply lx_string.
    assert (NOTE : forall b' w, string_body b' -> body ++ 34%N :: w = b' ++ [34%N] -> w = []).
    { clear -NQ NB. induction body as [|c b IH]; intros b' w SB Q; simpl in *.
      - destruct SB as [|x b' X Y SB|x b' X SB]; simpl in Q; injection Q; auto; intros; congruence.
      - destruct SB as [|x b' X Y SB|x b' X SB]; simpl in Q.
        + injection Q as -> Q. tauto.
        + injection Q as -> Q. eapply IH; eauto.
        + injection Q as -> Q. tauto. }
    assert (ONLY : forall w o, lexeme E (t ++ w) o -> w = [] /\ o = tok (T_String body)).
    { unfold t. intros w o L. remember ((34%N :: body ++ [34%N]) ++ w) as z eqn:Z. simpl in Z. rewrite <- app_assoc in Z. simpl in Z.
      assert (HD : forall c r, z = c :: r -> c = 34%N) by (intros c r ->; now injection Z as -> _).
      assert (U34 : u_Nd (le_unicode E) 34 = false /\ u_Lu (le_unicode E) 34 = false /\ u_Lo (le_unicode E) 34 = false).
      { destruct (UO 34%N eq_refl) as (_ & _ & _ & A & B & _ & C). rewrite A, B, C. auto. }
      destruct U34 as (U1 & U2 & U3).
      assert (DG : forall n r w', digits E (S n) r -> z = r ++ w' -> False).
      { intros n r w' [Le F] Zr. destruct r as [|c r]; [discriminate|]. inversion F; subst. simpl in Zr.
        rewrite (HD _ _ Zr) in H1. unfold decimal_digit in H1. congruence. }
      destruct L.
      - exfalso. destruct H as [N F]. destruct s as [|c s]; [congruence|]. inversion F as [|? ? K]; subst. injection Z as -> _. destruct K; discriminate.
      - exfalso. simpl in H. repeat (destruct H as [H|H]; [injection H as <- _; discriminate Z|]). destruct H.
      - exfalso. destruct k; discriminate Z.
      - exfalso. destruct H as [(c & r & -> & C & _)|(x & y & -> & _)]; [injection Z as -> _; unfold upper in C; lia|discriminate Z].
      - discriminate Z.
      - exfalso. eapply (DG 3 y); eauto.
      - exfalso. destruct H as [H|H]; [eapply (DG 0 h)|eapply (DG 1 h)]; eauto.
      - exfalso. destruct H as [H|H]; [eapply (DG 0 h)|eapply (DG 1 h)]; eauto.
      - exfalso. destruct H as (u & n & ns & -> & (c & r & -> & C & _) & _). simpl in Z. injection Z as -> _.
        rewrite U2, U3 in C. destruct C; discriminate.
      - injection Z as Z. assert (w = []) as -> by (eapply NOTE; eauto). apply app_inj_tail in Z as [-> _]. auto.
      - injection Z as Z. assert (w = []) as -> by (eapply NOTE; eauto). apply app_inj_tail in Z as [-> _]. contradiction.
      - exfalso. destruct H as (IN & IF & _ & _ & ->). destruct i as [|c i]; [congruence|]. inversion IF; subst.
        injection Z as -> _. unfold decimal_digit in H1. congruence.
      - discriminate Z.
      - discriminate Z.
      - exfalso. destruct H as [(c & r & -> & C & _) _]. injection Z as -> _. unfold lower in C. lia.
      - exfalso. destruct (break_shape _ H) as (c & r & -> & C & _). simpl in Z. injection Z as -> _. destruct C as [C|[C|C]]; discriminate.
      - exfalso. destruct (break_shape _ H) as (c & r & -> & C & _). injection Z as -> _. destruct C as [C|[C|C]]; discriminate.
      - discriminate Z. }
    assert (LG : longest (lexeme E) t rest).
    { split; [discriminate|]. split; [eexists; exact LX|]. intros u v _ NU (o & L). apply ONLY in L as [-> _]. congruence. }
    assert (BT : blen t = 2 + blen body) by (unfold t; simpl; rewrite blen_app; simpl; lia).
    rewrite Q. pose proof (C30_maximal_munch (t ++ rest)) as C. destruct (raw_lex E (t ++ rest)) as [[items|]|]; [|destruct C|].
    - remember (t ++ rest) as z eqn:Z. remember 0 as zero eqn:ZO in C.
      destruct C as [off|off t' rest' b L' X' C|off t' rest' x' b L' X' C|off t' rest' b N' X' C].
      + discriminate Z.
      + destruct (longest_unique _ _ _ _ _ L' LG Z) as [-> ->]. destruct (ONLY [] (Fine None)) as [_ K]; [now rewrite app_nil_r|discriminate].
      + destruct (longest_unique _ _ _ _ _ L' LG Z) as [-> ->]. destruct (ONLY [] (Fine (Some x'))) as [_ K]; [now rewrite app_nil_r|].
        injection K as ->. exists b. rewrite <- BT. subst off. auto.
      + exfalso. eapply longest_lexeme; [exact LG|]. now rewrite <- Z.
    - remember (t ++ rest) as z eqn:Z. destruct C as [t' rest' L' X'|t' rest' o L' X' C|t' rest' N' X' C].
      + destruct (longest_unique _ _ _ _ _ L' LG Z) as [-> ->]. destruct (ONLY [] Panic) as [_ K]; [now rewrite app_nil_r|discriminate].
      + destruct (longest_unique _ _ _ _ _ L' LG Z) as [-> ->]. exact C.
      + exfalso. eapply longest_lexeme; [exact LG|]. now rewrite <- Z.
  Qed.

  (** In general a string token is the text between its quotes, with the
      escapes resolved if there are any. *)
  Theorem C43_string s out x a b : lex E s = Fine (Some out) -> In (T_String x, (a, b)) out ->
    exists body, str_get s a b = Some (34%N :: body ++ [34%N]) /\
      (~ In 92%N body /\ x = body \/ In 92%N body /\ le_unescape E body = Ok x).
  Proof.
    intros H I. destruct (C30_token_text _ _ _ _ _ H I) as (w & G & [T|[T|T]]); try discriminate.
    destruct T as [T|[(k & _ & T)|(e & T & _)]]; try discriminate.
    remember (tok (T_String x)) as o eqn:O. destruct T; try discriminate O;
      try (exfalso; eapply read_as_not; [|exact O]; discriminate).
    - exfalso. injection O as ->. simpl in H0. repeat (destruct H0 as [H0|H0]; [discriminate H0|]). destruct H0.
    - injection O as ->. eauto.
    - exists b0. split; auto. right. split; auto. destruct (le_unescape E b0); simpl in O; [|discriminate].
      unfold tok in O. injection O as ->. reflexivity.
  Qed.
End Env.

(** ** Where the code falls short *)

(** ASCII and the Arabic-Indic digits. *)
Definition arabic_unicode : unicode := {|
  u_alphabetic := u_alphabetic ascii_unicode;
  u_numeric := fun c => u_numeric ascii_unicode c || ((1632 <=? c) && (c <=? 1641))%N;
  u_L := u_L ascii_unicode;
  u_Lu := u_Lu ascii_unicode;
  u_Lo := u_Lo ascii_unicode;
  u_N := fun c => u_N ascii_unicode c || ((1632 <=? c) && (c <=? 1641))%N;
  u_Nd := fun c => u_Nd ascii_unicode c || ((1632 <=? c) && (c <=? 1641))%N |}.

Lemma arabic_ok : unicode_ok arabic_unicode.
Proof.
  intros c H. apply N.ltb_lt in H.
  assert (X : ((1632 <=? c) && (c <=? 1641))%N = false) by (apply andb_false_iff; left; apply N.leb_gt; lia).
  unfold arabic_unicode; simpl. rewrite X, !orb_false_r. repeat split.
Qed.

Lemma arabic_disjoint c : u_Nd arabic_unicode c = true -> u_Lu arabic_unicode c = false /\ u_Lo arabic_unicode c = false.
Proof.
  simpl. intros H. split; auto. unfold is_ascii_uppercase, is_ascii_digit in *.
  apply orb_true_iff in H. apply andb_false_iff. rewrite !N.leb_gt. rewrite !andb_true_iff, !N.leb_le in H. lia.
Qed.

(** A [Decimal::from_str] for the examples. *)
Fixpoint until_point (s : str) : str * str :=
  match s with
  | [] => ([], [])
  | c :: r => if (c =? 46)%N then ([], r) else let (a, b) := until_point r in (c :: a, b)
  end.
Definition ex_from_str (s : str) : result decimal str :=
  let (i, f) := until_point s in
  if negb (forallb is_ascii_digit (i ++ f)) then Err (lit "Invalid decimal: unknown character")
  else if ((decimal_value (i ++ f) <? 2 ^ 96)%N && (List.length f <=? 28))%bool then Ok (mk_dec false (decimal_value (i ++ f)) (List.length f))
  else Err (lit "Invalid decimal: overflow from too many digits").

Lemma until_point_spec i f : Forall digit i ->
  until_point (i ++ match f with [] => [] | _ => 46%N :: f end) = (i, f).
Proof.
  induction 1 as [|c i D F IH]; [destruct f; reflexivity|]. cbn [app until_point].
  destruct (N.eqb_spec c 46) as [->|_]; [unfold digit in D; lia|]. now rewrite IH.
Qed.

Lemma ex_reads_decimals : reads_decimals ex_from_str.
Proof.
  intros i f NI FI FF Lf Lt. unfold ex_from_str. rewrite until_point_spec; auto.
  apply N.ltb_lt in Lt. rewrite Lt. assert (Q : (List.length f <=? 28) = true) by (apply Nat.leb_le; destruct f; [cbn; lia|apply Lf; discriminate]). rewrite Q.
  replace (forallb is_ascii_digit (i ++ f)) with true; [reflexivity|]. symmetry. apply forallb_forall. intros c I.
  apply is_digit_spec. apply in_app_or in I as [I|I]; [eapply Forall_forall in FI|eapply Forall_forall in FF]; eauto.
Qed.

Definition ex_env : lexer_env := {|
  le_unicode := arabic_unicode; le_decimal := ex_from_str;
  le_unescape := fun s => Ok (filter (fun c => negb (c =? 92)%N) s);
  le_err_len := fun _ => 0; le_recovery_err_len := fun _ => 0 |}.

(** A date written with decimal digits which are not ASCII panics, whatever
    the libraries do: "\d" matches them and the conversion is unwrapped. *)
Theorem C42_date_panics_refuted : exists E s,
  unicode_ok (le_unicode E) /\ reads_decimals (le_decimal E) /\ lex E s = Panic.
Proof.
  exists ex_env, [1634; 1632; 1634; 1636; 45; 48; 49; 45; 48; 49]%N.
  split; [exact arabic_ok|]. split; [exact ex_reads_decimals|]. now vm_compute.
Qed.

(** A time out of range is not an error: it becomes numbers and colons. *)
Theorem C42_time_out_of_range_refuted : exists E s out,
  unicode_ok (le_unicode E) /\ reads_decimals (le_decimal E) /\
  s = lit "25:61" /\ lex E s = Fine (Some out) /\ forall e r, ~ In (T_Error e, r) out.
Proof.
  exists ex_env, (lit "25:61"). eexists.
  split; [exact arabic_ok|]. split; [exact ex_reads_decimals|]. split; [reflexivity|].
  split; [vm_compute; reflexivity|]. intros e r I. simpl in I. intuition congruence.
Qed.

(** ** Examples *)
Definition ex_source : str :=
  lit "2024-02-29 open Assets:Cash USD ; note" ++ [10%N] ++ lit "* heading" ++ [10%N] ++
  lit "  txn: ""a b"" 1,234.50 'X 2023-02-29 9:05".

Example ex_lex : lex ex_env ex_source = Fine (Some
  [(T_Date (mk_date 2024 2 29), (0, 10)); (T_Keyword K_Open, (11, 15)); (T_Account (lit "Assets:Cash"), (16, 27));
   (T_Currency (lit "USD"), (28, 31)); (T_Eol, (32, 51)); (T_Indent, (50, 51)); (T_Key (lit "txn"), (51, 54)); (T_Colon, (54, 55));
   (T_String (lit "a b"), (56, 61)); (T_Number (mk_dec false 123450 2), (62, 70)); (T_Flag (F_Letter 88), (71, 73));
   (T_Error (lit "date out of range"), (74, 84)); (T_Time (mk_time 9 5 0), (85, 89))]).
Proof. now vm_compute. Qed.

(** The hypotheses of C41_number and C42_date are met in it. *)
Example ex_number : str_get ex_source 62 70 = Some (lit "1,234.50") /\
  number_text ex_env (lit "1") [lit "234"] (Some (lit "50")) (lit "1,234.50").
Proof.
  split; [now vm_compute|]. split; [discriminate|]. split; [repeat constructor|].
  split; [repeat constructor|]. split; [intros d Q; injection Q as <-; split; [discriminate|repeat constructor]|reflexivity].
Qed.
Example ex_leap : calendar_date (num (lit "2024")) (num (lit "02")) (num (lit "29")) /\
  ~ calendar_date (num (lit "2023")) (num (lit "02")) (num (lit "29")).
Proof.
  split.
  - exists 29%N. split; [|vm_compute; split; discriminate]. apply m29. split; [exists 506%N; reflexivity|]. left.
    intros (k & K). change (num (lit "2024")) with 2024%N in K. lia.
  - intros (n & M & L). change (num (lit "2023")) with 2023%N in M. change (num (lit "02")) with 2%N in M.
    change (num (lit "29")) with 29%N in L. remember 2%N as two eqn:T in M.
    destruct M as [m I|m I|[(k & K) _]|_]; [| |lia|lia]; subst m; simpl in I; intuition discriminate.
Qed.
Print Assumptions C30_maximal_munch.
Print Assumptions C30_unambiguous.
Print Assumptions C30_complete.
Print Assumptions C30_lex.
Print Assumptions C30_token_text.
Print Assumptions C29_spans.
Print Assumptions C29_raw_spans.
Print Assumptions C29_recovery_within.
Print Assumptions C41_number.
Print Assumptions C42_date.
Print Assumptions C42_date_only.
Print Assumptions C42_time.
Print Assumptions C42_time_only.
Print Assumptions C42_date_panics_refuted.
Print Assumptions C42_time_out_of_range_refuted.
Print Assumptions C43_verbatim.
Print Assumptions C43_string.
