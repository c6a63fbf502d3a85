(** * Two inputs which are read in step: a whole file *)
From Coq Require Import String Ascii.
From Coq Require Import List NArith ZArith Arith Bool Lia Permutation.
From Verif Require Import Base BaseFacts Path Types Options Decimal Cost Token Peg Grammar SpecGrammar SpecDisplay SpecLedger Parse P_Display AlikeRead AlikeFile Sim SimValues SimGrammar.
Import ListNotations.
Local Open Scope nat_scope.

(** What is said: of a syntax error this is the token where a declaration
    should have started. *)
Definition told (c : complaint) : problem + nat * nat := match c with C_Report r => inl (rp_problem r) | C_Syntax s p => inr (s, p) end.
Definition same_told (es es' : list complaint) : Prop := Permutation (map told es) (map told es').
Definition alike_state (st st' : pstate) : Prop := alike_settings (ps_options st) (ps_options st') /\ same_said (ps_warnings st) (ps_warnings st').

Definition srsim {A B} (S1 : nat -> nat -> Prop) (T : A -> B -> Prop) (r : sres A) (r' : sres B) : Prop :=
  match r, r' with
  | SLoop, _ | _, SLoop => True
  | SCrash, SCrash => True
  | SGot a j es st, SGot b j' es' st' => T a b /\ S1 j j' /\ same_told es es' /\ alike_state st st'
  | SNot st, SNot st' => alike_state st st'
  | _, _ => False
  end.
Definition ssim {A B} (S0 S1 : nat -> nat -> Prop) (T : A -> B -> Prop) (p : sparser A) (p' : sparser B) : Prop :=
  forall st st' i i', alike_state st st' -> S0 i i' -> srsim S1 T (p st i) (p' st' i').

Lemma same_told_app a b a' b' : same_told a a' -> same_told b b' -> same_told (a ++ b) (a' ++ b').
Proof. unfold same_told. intros. rewrite !map_app. apply Permutation_app; assumption. Qed.
Lemma same_told_reports es es' : same_saids es es' -> same_told (map C_Report es) (map C_Report es').
Proof. intro H. unfold same_told. rewrite !map_map. cbn. rewrite <- !(map_map rp_problem inl). apply Permutation_map. exact H. Qed.
Lemma same_told_nil es es' : same_told es es' -> (es = [] <-> es' = []).
Proof.
  unfold same_told. intro H. split; intros ->; cbn in H.
  - apply Permutation_nil in H. destruct es'; [reflexivity|discriminate].
  - symmetry in H. apply Permutation_nil in H. destruct es; [reflexivity|discriminate].
Qed.
Lemma alike_pushed st st' ws ws' : alike_state st st' -> same_said ws ws' -> alike_state (pushed st ws) (pushed st' ws').
Proof. intros [A B] C. split; [exact A|]. cbn. apply same_said_app; assumption. Qed.

Section Combinators.
  Context (S0 S1 S2 : nat -> nat -> Prop).
  Lemma ssim_lift {A B} (T : A -> B -> Prop) p p' : (forall po po', alike_settings po po' -> sim S0 S1 T (p po) (p' po')) -> ssim S0 S1 T (lift p) (lift p').
  Proof.
    intros H st st' i i' As Si. specialize (H _ _ (proj1 As) i i' Si). unfold lift. destruct (p (ps_options st) i), (p' (ps_options st') i'); cbn in *; try contradiction; auto.
    - destruct H as (H1 & H2 & H3 & H4). split; [exact H1|]. split; [exact H2|]. split; [apply same_told_reports; exact H4|apply alike_pushed; assumption].
    - apply alike_pushed; assumption.
  Qed.
  Lemma ssim_bind {A A' B B'} (T : A -> A' -> Prop) (V : B -> B' -> Prop) p p' f f' :
    ssim S0 S1 T p p' -> (forall a a', T a a' -> ssim S1 S2 V (f a) (f' a')) -> ssim S0 S2 V (sbind p f) (sbind p' f').
  Proof.
    intros H F st st' i i' As Si. specialize (H st st' i i' As Si). unfold sbind. destruct (p st i) as [a j es s1|s1| |], (p' st' i') as [a' j' es' s1'|s1'| |]; cbn in H; try contradiction; cbn; auto.
    - destruct H as (Ta & Sj & Es & As1). specialize (F a a' Ta s1 s1' j j' As1 Sj). destruct (f a s1 j), (f' a' s1' j'); cbn in F |- *; try contradiction; auto.
      destruct F as (F1 & F2 & F3 & F4). repeat split; try assumption; try apply F4. apply same_told_app; assumption.
    - destruct (f a s1 j); exact Logic.I.
  Qed.
  Lemma ssim_ret {A B} (T : A -> B -> Prop) a b : T a b -> ssim S0 S0 T (sret a) (sret b).
  Proof. intros H st st' i i' As Si. cbn. repeat split; try assumption; try apply As. apply Permutation_refl. Qed.
  Lemma ssim_alt {A B} (T : A -> B -> Prop) p p' q q' : ssim S0 S1 T p p' -> ssim S0 S1 T q q' -> ssim S0 S1 T (salt p q) (salt p' q').
  Proof.
    intros H F st st' i i' As Si. specialize (H st st' i i' As Si). unfold salt. destruct (p st i) as [a j es s1|s1| |], (p' st' i') as [a' j' es' s1'|s1'| |]; cbn in H; try contradiction; cbn; auto.
    destruct (q s1 i); exact Logic.I.
  Qed.
  Lemma ssim_choice {A B} (T : A -> B -> Prop) ps ps' : Forall2 (ssim S0 S1 T) ps ps' -> ssim S0 S1 T (schoice ps) (schoice ps').
  Proof.
    induction 1 as [|p p' ps ps' H F IH]; [intros st st' i i' As _; exact As|].
    destruct F as [|q q' ps ps' H' F]; [exact H|]. change (ssim S0 S1 T (salt p (schoice (q :: ps))) (salt p' (schoice (q' :: ps')))). apply ssim_alt; assumption.
  Qed.
End Combinators.
Lemma ssim_map {A A' B B'} S0 S1 (T : A -> A' -> Prop) (V : B -> B' -> Prop) f f' p p' :
  ssim S0 S1 T p p' -> (forall a a', T a a' -> V (f a) (f' a')) -> ssim S0 S1 V (smap f p) (smap f' p').
Proof. intros H F. eapply ssim_bind; [exact H|]. intros a a' Ta. apply ssim_ret. auto. Qed.

(** Both inputs end at the same time. *)
Record end_in_step (I J : input) (P Q : nat -> nat -> Prop) : Prop := {
  en_source : in_source I = in_source J;
  en_sub : forall i i', Q i i' -> P i i';
  en_start : Q 0 0;
  en_both : forall i i', Q i i' -> (nth_error (in_tokens I) i = None <-> nth_error (in_tokens J) i' = None);
  en_same : forall i i', Q i i' -> nth_error (in_tokens I) i <> None -> i = i'
}.

Section File.
  Context (E : grammar_env) (Go : forall l, Permutation l (g_order E l)).
  Context (I J : input) (P Q : nat -> nat -> Prop) (K : span -> span -> Prop) (Step : in_step I J P Q K) (Ends : end_in_step I J P Q).
  Context (file : option path).

  Lemma ssim_spn {A B} S0 S1 (T : A -> B -> Prop) p p' : ssim S0 S1 T p p' -> ssim S0 S1 (fun x y => T (item x) (item y)) (sspn I p) (sspn J p').
  Proof. intros H st st' i i' As Si. specialize (H st st' i i' As Si). unfold sspn. destruct (p st i), (p' st' i'); cbn in *; auto. Qed.

  Lemma alike_option_parse name value name' value' : same_item name name' -> same_item value value' ->
    match option_parse (g_unicode E) (g_decimal E) name value file, option_parse (g_unicode E) (g_decimal E) name' value' file with
    | Fine (Ok o), Fine (Ok o') => opt_variant o = opt_variant o'
    | Fine (Err e), Fine (Err e') => e = e'
    | Panic, Panic => True
    | _, _ => False
    end.
  Proof.
    unfold same_item, option_parse. intros -> ->. destruct (option_value _ _ _ _ _) as [[v|e]|]; cbn; auto.
  Qed.
  Lemma alike_po_assimilate po po' o o' : alike_settings po po' -> opt_variant o = opt_variant o' ->
    match po_assimilate po o, po_assimilate po' o' with
    | Fine (Ok (o1, p1)), Fine (Ok (o1', p1')) => opt_variant o1 = opt_variant o1' /\ alike_settings p1 p1'
    | Fine (Err e), Fine (Err e') => e = e'
    | Panic, Panic => True
    | _, _ => False
    end.
  Proof.
    intros [N M] V. unfold po_assimilate. rewrite V, N. destruct (opt_variant o') eqn:O; cbn; try (split; [congruence|split; assumption]).
    - destruct (atn_update _ _ _) as [[n|e]|]; cbn; auto. split; [reflexivity|]. split; [reflexivity|exact M].
    - split; [reflexivity|]. split; [reflexivity|]. reflexivity.
  Qed.
  Lemma alike_option_read po po' name value name' value' : alike_settings po po' -> same_item name name' -> same_item value value' ->
    match option_read E file po name value, option_read E file po' name' value' with
    | Fine (o, p1, es), Fine (o', p1', es') => opt_variant o = opt_variant o' /\ alike_settings p1 p1' /\ same_told es es'
    | Panic, Panic => True
    | _, _ => False
    end.
  Proof.
    intros A Sn Sv. unfold option_read. pose proof (alike_option_parse _ _ _ _ Sn Sv) as H.
    destruct (option_parse _ _ name value file) as [[o|e]|], (option_parse _ _ name' value' file) as [[o'|e']|]; try contradiction; auto.
    - pose proof (alike_po_assimilate _ _ _ _ A H) as G.
      destruct (po_assimilate po o) as [[[o1 p1]|t]|], (po_assimilate po' o') as [[[o1' p1']|t']|]; try contradiction; auto.
      + destruct G as [G1 G2]. split; [exact G1|]. split; [exact G2|apply Permutation_refl].
      + subst t'. split; [reflexivity|]. split; [exact A|]. apply Permutation_refl.
    - subst e'. destruct e; (split; [reflexivity|]; split; [exact A|apply Permutation_refl]).
  Qed.
  Lemma ssim_option : ssim P P (fun o o' => opt_variant o = opt_variant o') (p_option E I file) (p_option E J file).
  Proof.
    intros st st' i i' A Pi. unfold p_option.
    pose proof (ssim_lift P P _ _ _ (fun po po' H => sim_option_tokens I J P Q K Step po po' H) st st' i i' A Pi) as H.
    destruct (lift (p_option_tokens I) st i) as [[n v] j es s1|s1| |], (lift (p_option_tokens J) st' i') as [[n' v'] j' es' s1'|s1'| |]; cbn in H; try contradiction; cbn; auto.
    - destruct H as ([Sn Sv] & Pj & Es & As). cbn in Sn, Sv. pose proof (alike_option_read _ _ _ _ _ _ (proj1 As) Sn Sv) as H.
      destruct (option_read E file (ps_options s1) n v) as [[[o p1] e1]|], (option_read E file (ps_options s1') n' v') as [[[o' p1'] e1']|]; try contradiction; cbn; auto.
      destruct H as (H1 & H2 & H3). repeat split; try assumption; try apply H2; try apply As. apply same_told_app; assumption.
    - destruct (option_read _ _ _ _ _) as [[[? ?] ?]|]; exact Logic.I.
  Qed.
  Lemma ssim_pragma : ssim P Q (alike_pragma K) (p_pragma E I file) (p_pragma E J file).
  Proof.
    unfold p_pragma. eapply ssim_bind with (S1 := P) (T := alike_pragma K).
    - apply ssim_choice. repeat apply Forall2_cons; [..|constructor].
      + apply ssim_lift. intros. eapply sim_pushtag; eassumption.
      + apply ssim_lift. intros. eapply sim_poptag; eassumption.
      + apply ssim_lift. intros. eapply sim_pushmeta; eassumption.
      + apply ssim_lift. intros. eapply sim_popmeta; eassumption.
      + apply ssim_lift. intros. eapply sim_include; eassumption.
      + eapply ssim_map; [apply ssim_option|]. intros. constructor. assumption.
      + apply ssim_lift. intros. eapply sim_plugin; eassumption.
    - intros p p' Hp. eapply ssim_bind; [apply ssim_lift; intros; eapply sim_eol; eassumption|]. intros _ _ _. apply ssim_ret. exact Hp.
  Qed.
  Inductive alike_declared (a b : spanned declaration) : Prop :=
  | de_directive d d' : item a = D_Directive d -> item b = D_Directive d' -> alike d d' -> alike_declared a b
  | de_pragma p p' : item a = D_Pragma p -> item b = D_Pragma p' -> alike_pragma K p p' -> alike_declared a b.
  Lemma ssim_once : ssim P Q alike_declared (p_once E I file) (p_once E J file).
  Proof.
    unfold p_once.
    set (T := fun x y : declaration => match x, y with D_Directive d, D_Directive d' => alike d d' | D_Pragma p, D_Pragma p' => alike_pragma K p p' | _, _ => False end).
    assert (H : ssim P Q (fun x y => T (item x) (item y)) (sspn I (schoice [smap D_Directive (lift (p_directive E I)); smap D_Pragma (p_pragma E I file)]))
      (sspn J (schoice [smap D_Directive (lift (p_directive E J)); smap D_Pragma (p_pragma E J file)]))).
    { apply ssim_spn. apply ssim_choice. repeat apply Forall2_cons; [| |constructor].
      - eapply ssim_map; [apply ssim_lift; intros; eapply sim_directive; eassumption|]. auto.
      - eapply ssim_map; [apply ssim_pragma|]. auto. }
    intros st st' i i' A Pi. specialize (H st st' i i' A Pi). destruct (sspn I _ st i) as [a j es s1| | |], (sspn J _ st' i') as [a' j' es' s1'| | |]; cbn in *; auto.
    destruct H as (H1 & H2). split; [|exact H2]. unfold T in H1. destruct (item a) eqn:X, (item a') eqn:Y; try contradiction; [eapply de_directive|eapply de_pragma]; eauto.
  Qed.

  Lemma directive_at_end I0 po i : nth_error (in_tokens I0) i = None -> p_directive E I0 po i = Not [].
  Proof.
    intro N. assert (D : spn I0 (p_date I0) i = Not []) by (unfold spn, sp, map_span, p_date, sel, select; rewrite N; reflexivity).
    assert (B : forall A B (f : _ -> parser A) (g : A -> B * list report), validate g (bind (spn I0 (p_date I0)) f) i = Not []) by (intros; unfold validate, bind; rewrite D; reflexivity).
    assert (T : p_transaction E I0 po i = Not []).
    { unfold p_transaction, validate. unfold bind at 1. unfold p_transaction_header. unfold bind at 1. rewrite D. reflexivity. }
    assert (C : p_custom E I0 po i = Not []) by (unfold p_custom, bind at 1; rewrite D; reflexivity).
    unfold p_directive. cbn [choice]. unfold alt. rewrite T, C.
    unfold p_price, p_balance, p_open, p_close, p_commodity, p_pad, p_document, p_note, p_event, p_query, p_line. rewrite !B. reflexivity.
  Qed.
  Lemma keyword_at_end {A} I0 k (f : token -> parser A) i : nth_error (in_tokens I0) i = None -> bind (keyword_ I0 k) f i = Not [].
  Proof. intro N. unfold bind, keyword_, just, sel, select. rewrite N. reflexivity. Qed.
  Lemma once_at_end I0 st i : nth_error (in_tokens I0) i = None -> exists st', p_once E I0 file st i = SNot st' /\ alike_state st st'.
  Proof.
    intro N. assert (Tg : forall A k (f : token -> parser A), spn I0 (bind (keyword_ I0 k) f) i = Not []) by (intros; unfold spn, sp, map_span; rewrite keyword_at_end by exact N; reflexivity).
    eexists. split.
    - unfold p_once, sspn, schoice, salt, smap, sbind, lift. rewrite directive_at_end by exact N. unfold p_pragma, p_option, sbind, schoice, salt, smap, sbind, lift.
      unfold p_pushtag, p_poptag, p_pushmeta, p_popmeta, p_include, p_plugin, p_option_tokens, pmap. unfold bind at 1. rewrite Tg. unfold bind at 1. rewrite Tg.
      unfold bind at 1. rewrite keyword_at_end by exact N. unfold bind at 1. rewrite Tg. unfold bind at 1. rewrite keyword_at_end by exact N. 
      rewrite keyword_at_end by exact N. unfold bind at 1. rewrite keyword_at_end by exact N. reflexivity.
    - split; [split; reflexivity|]. cbn. rewrite !app_nil_r. reflexivity.
  Qed.

  Lemma alike_state_trans a b c : alike_state a b -> alike_state b c -> alike_state a c.
  Proof. unfold alike_state, alike_settings, same_said. intros [[A B] C] [[A' B'] C']. repeat split; congruence. Qed.
  Lemma alike_state_sym a b : alike_state a b -> alike_state b a.
  Proof. unfold alike_state, alike_settings, same_said. intros [[A B] C]. repeat split; congruence. Qed.
  Lemma ssim_retry f : forall f', ssim P Q alike_declared (retry E I file f) (retry E J file f').
  Proof.
    induction f as [|f IH]; intros f' st st' i i' A Pi; [exact Logic.I|].
    destruct f' as [|f']; [unfold srsim; destruct (retry E I file (S f) st i); exact Logic.I|].
    cbn [retry]. pose proof (st_tok _ _ _ _ _ Step i i' Pi) as T.
    destruct (nth_error (in_tokens I) i) as [[t r]|] eqn:X, (nth_error (in_tokens J) i') as [[t' r']|] eqn:Y; try contradiction.
    - assert (Ps : P (S i) (S i')).
      { destruct T as (_ & A1 & A2). destruct (token_eq_dec t T_Eol) as [Y1|Y1]; [apply (en_sub _ _ _ _ Ends); auto|auto]. }
      pose proof (ssim_once st st' (S i) (S i') A Ps) as H.
      destruct (p_once E I file st (S i)) as [d j es s1|s1| |], (p_once E J file st' (S i')) as [d' j' es' s1'|s1'| |]; cbn in H; try contradiction; cbn; auto.
      1: { destruct H as (H1 & H2 & H3 & H4). pose proof (same_told_nil _ _ H3) as Z. destruct es, es'; try (exfalso; destruct Z as [Z Z']; now (discriminate (Z eq_refl) || discriminate (Z' eq_refl))).
        - cbn. repeat split; try assumption; apply H4.
        - apply IH; assumption. }
      all: try (apply IH; assumption); unfold srsim; repeat match goal with |- context [match ?x with _ => _ end] => destruct x end; exact Logic.I.
    - destruct T as [-> Qs]. assert (N : nth_error (in_tokens I) (S i) = None) by (apply (en_both _ _ _ _ Ends _ _ Qs); exact Y).
      destruct (once_at_end I st (S i) N) as (s2 & -> & A2). cbn. destruct f as [|f]; cbn [retry]; [exact Logic.I|]. rewrite N. cbn. eapply alike_state_trans; [apply alike_state_sym; exact A2|exact A].
    - destruct T as [-> Qs]. assert (N : nth_error (in_tokens J) (S i') = None) by (apply (en_both _ _ _ _ Ends _ _ Qs); exact X).
      destruct (once_at_end J st' (S i') N) as (s2 & -> & A2). cbn. destruct f' as [|f']; cbn [retry]; [exact Logic.I|]. rewrite N. cbn. eapply alike_state_trans; eassumption.
    - exact A.
  Qed.
  Lemma ssim_declaration : ssim Q Q alike_declared (p_declaration E I file) (p_declaration E J file).
  Proof.
    intros st st' i i' A Qi. pose proof (en_sub _ _ _ _ Ends _ _ Qi) as Pi. unfold p_declaration. pose proof (ssim_once st st' i i' A Pi) as H.
    destruct (p_once E I file st i) as [d j es s1|s1| |], (p_once E J file st' i') as [d' j' es' s1'|s1'| |]; cbn in H; try contradiction; auto.
    - pose proof (ssim_retry (S (List.length (in_tokens I) - i)) (S (List.length (in_tokens J) - i')) s1 s1' i i' H Pi) as R.
      destruct (nth_error (in_tokens I) i) as [x|] eqn:X.
      + assert (i' = i) as -> by (symmetry; apply (en_same _ _ _ _ Ends _ _ Qi); rewrite X; discriminate). rewrite (en_source _ _ _ _ Ends).
        destruct (retry E I file _ s1 i) as [d j es s2|s2| |], (retry E J file _ s1' i) as [d' j' es' s2'|s2'| |]; cbn in R |- *; auto.
        destruct R as (R1 & R2 & _ & R4). repeat split; try assumption; try apply R4. apply Permutation_refl.
      + assert (Y : nth_error (in_tokens J) i' = None) by (apply (en_both _ _ _ _ Ends _ _ Qi); exact X). cbn [retry]. rewrite X, Y. exact H.
    - destruct (retry _ _ _ _ _ _); exact Logic.I.
  Qed.
  Lemma ssim_declarations f : forall f', ssim Q Q (Forall2 alike_declared) (p_declarations E I file f) (p_declarations E J file f').
  Proof.
    induction f as [|f IH]; intros f' st st' i i' A Qi; [exact Logic.I|].
    destruct f' as [|f']; [unfold srsim; destruct (p_declarations E I file (S f) st i); exact Logic.I|].
    cbn [p_declarations]. pose proof (ssim_declaration st st' i i' A Qi) as H.
    destruct (p_declaration E I file st i) as [d j es s1|s1| |], (p_declaration E J file st' i') as [d' j' es' s1'|s1'| |]; cbn in H; try contradiction; auto.
    - destruct H as (H1 & H2 & H3 & H4). specialize (IH f' s1 s1' j j' H4 H2).
      destruct (p_declarations E I file f s1 j), (p_declarations E J file f' s1' j'); cbn in IH |- *; try contradiction; auto.
      destruct IH as (I1 & I2 & I3 & I4). split; [constructor; assumption|]. split; [exact I2|]. split; [apply same_told_app; assumption|exact I4].
    - destruct (p_declarations E I file f s1 j); exact Logic.I.
    - split; [constructor|]. split; [exact Qi|]. split; [apply Permutation_refl|exact H].
  Qed.

  (** Each of the two files is read as the other is. *)
  Lemma alike_file_read st st' : alike_state st st' ->
    match parse_file E I file st, parse_file E J file st' with
    | Fine None, _ | _, Fine None => True
    | Panic, Panic => True
    | Fine (Some (out, es, s1)), Fine (Some (out', es', s1')) =>
        match out, out' with Some ds, Some ds' => Forall2 alike_declared ds ds' | None, None => True | _, _ => False end /\ same_told es es' /\ alike_state s1 s1'
    | _, _ => False
    end.
  Proof.
    intro A. unfold parse_file. pose proof (ssim_declarations (S (List.length (in_tokens I))) (S (List.length (in_tokens J))) st st' 0 0 A (en_start _ _ _ _ Ends)) as H.
    destruct (p_declarations E I file _ st 0) as [ds j es s1|s1| |], (p_declarations E J file _ st' 0) as [ds' j' es' s1'|s1'| |]; cbn in H; try contradiction; auto.
    - destruct H as (H1 & H2 & H3 & H4). pose proof (en_both _ _ _ _ Ends _ _ H2) as B. pose proof (en_same _ _ _ _ Ends _ _ H2) as C.
      destruct (nth_error (in_tokens I) j) eqn:X, (nth_error (in_tokens J) j') eqn:Y; try (exfalso; destruct B as [B B']; now (discriminate (B eq_refl) || discriminate (B' eq_refl))).
      + split; [exact Logic.I|]. split; [|exact H4]. apply same_told_app; [exact H3|]. rewrite (en_source _ _ _ _ Ends), <- (C ltac:(discriminate)). apply Permutation_refl.
      + auto.
    - destruct (nth_error (in_tokens I) j); exact Logic.I.
  Qed.
End File.
