(** * The rest of a file, read in step with a file which is only that *)
From Coq Require Import String Ascii.
From Coq Require Import List NArith ZArith Arith Bool Lia Permutation.
From Verif Require Import Base BaseFacts Path Types SpecTypes Options SpecOptions P_Options Token Peg Grammar SpecGrammar SpecDirective SpecDisplay SpecLedger
  Parse SpecParse ParseFacts ParseOnce ParseFile P_File P_Display AlikeRead AlikeFile Sim SimValues SimGrammar SimFile SimCopy SpecPaste Paste.
Import ListNotations.
Local Open Scope nat_scope.

(** ** Earlier warnings make no difference *)
Section Framed.
  Context (w : list report).
  Definition under (st : pstate) : pstate := mk_pstate (ps_options st) (w ++ ps_warnings st).
  Definition after_all {A} (r : sres A) : sres A :=
    match r with SGot a j es st => SGot a j es (under st) | SNot st => SNot (under st) | SCrash => SCrash | SLoop => SLoop end.
  Definition framed {A} (p : sparser A) : Prop := forall st i, p (under st) i = after_all (p st i).

  Lemma framed_lift {A} (p : parser_options -> parser A) : framed (lift p).
  Proof. intros st i. unfold lift. cbn [under ps_options]. destruct (p (ps_options st) i); cbn; try reflexivity; unfold pushed, under; cbn; rewrite app_assoc; reflexivity. Qed.
  Lemma framed_ret {A} (a : A) : framed (sret a).
  Proof. intros st i. reflexivity. Qed.
  Lemma framed_bind {A B} (p : sparser A) (f : A -> sparser B) : framed p -> (forall a, framed (f a)) -> framed (sbind p f).
  Proof. intros H F st i. unfold sbind. rewrite H. destruct (p st i) as [a j es s1|s1| |]; cbn; try reflexivity. rewrite F. destruct (f a s1 j); reflexivity. Qed.
  Lemma framed_alt {A} (p q : sparser A) : framed p -> framed q -> framed (salt p q).
  Proof. intros H F st i. unfold salt. rewrite H. destruct (p st i) as [a j es s1|s1| |]; cbn; try reflexivity. apply F. Qed.
  Lemma framed_choice {A} (ps : list (sparser A)) : Forall framed ps -> framed (schoice ps).
  Proof.
    induction 1 as [|p ps H F IH]; [intros st i; reflexivity|]. destruct F as [|q ps H' F]; [exact H|]. change (framed (salt p (schoice (q :: ps)))). apply framed_alt; assumption.
  Qed.
  Lemma framed_map {A B} (f : A -> B) p : framed p -> framed (smap f p).
  Proof. intro H. apply framed_bind; [exact H|]. intro. apply framed_ret. Qed.
  Context (E : grammar_env) (I : input) (file : option path).
  Lemma framed_spn {A} (p : sparser A) : framed p -> framed (sspn I p).
  Proof. intros H st i. unfold sspn. rewrite H. destruct (p st i); reflexivity. Qed.
  Lemma framed_option : framed (p_option E I file).
  Proof.
    intros st i. unfold p_option. rewrite framed_lift. destruct (lift (p_option_tokens I) st i) as [[n v] j es s1|s1| |]; cbn; try reflexivity.
    destruct (option_read E file (ps_options s1) n v) as [[[o po] es']|]; reflexivity.
  Qed.
  Lemma framed_once : framed (p_once E I file).
  Proof.
    apply framed_spn. apply framed_choice. repeat apply Forall_cons; [| |constructor]; apply framed_map; [apply framed_lift|].
    unfold p_pragma. apply framed_bind.
    - apply framed_choice. repeat apply Forall_cons; [..|constructor]; try apply framed_lift. apply framed_map. apply framed_option.
    - intro p. apply framed_bind; [apply framed_lift|]. intro. apply framed_ret.
  Qed.
  Lemma framed_retry f : framed (retry E I file f).
  Proof.
    induction f as [|f IH]; intros st i; [reflexivity|]. cbn [retry]. destruct (nth_error (in_tokens I) i); [|reflexivity]. rewrite framed_once.
    destruct (p_once E I file st (S i)) as [d j es s1|s1| |]; cbn; try reflexivity; [|apply IH]. destruct es; [reflexivity|apply IH].
  Qed.
  Lemma framed_declaration : framed (p_declaration E I file).
  Proof.
    intros st i. unfold p_declaration. rewrite framed_once. destruct (p_once E I file st i) as [d j es s1|s1| |]; cbn [after_all]; try reflexivity. rewrite framed_retry.
    destruct (retry E I file _ s1 i); reflexivity.
  Qed.
  Lemma framed_declarations f : framed (p_declarations E I file f).
  Proof.
    induction f as [|f IH]; intros st i; [reflexivity|]. cbn [p_declarations]. rewrite framed_declaration. destruct (p_declaration E I file st i) as [d j es s1|s1| |]; cbn; try reflexivity.
    rewrite IH. destruct (p_declarations E I file f s1 j); reflexivity.
  Qed.
End Framed.

(** ** A declaration which sets no rule leaves the rules as they are *)
Section Steady.
  Context (E : grammar_env) (I : input) (file : option path).
  Definition steady {A} (i : nat) (st : pstate) (r : sres A) : Prop :=
    match r with SGot _ _ _ st' | SNot st' => ps_options st' = ps_options st | _ => True end.
  Lemma steady_lift {A} (p : parser_options -> parser A) st i : steady i st (lift p st i).
  Proof. unfold lift. destruct (p (ps_options st) i); cbn; auto. Qed.
  Lemma steady_bind_lift {A B} (p : sparser A) (f : A -> sparser B) st i : steady i st (p st i) -> (forall a st j, steady j st (f a st j)) -> steady i st (sbind p f st i).
  Proof.
    intros H F. unfold sbind. destruct (p st i) as [a j es s1|s1| |]; cbn in *; auto. pose proof (F a s1 j) as X. destruct (f a s1 j); cbn in *; auto; congruence.
  Qed.
  Lemma steady_choice {A} (ps : list (sparser A)) i : (forall st p, In p ps -> steady i st (p st i)) -> forall st, steady i st (schoice ps st i).
  Proof.
    induction ps as [|p ps IH]; intros H st; [reflexivity|]. destruct ps as [|q ps]; [apply H; left; reflexivity|].
    change (schoice (p :: q :: ps) st i) with (salt p (schoice (q :: ps)) st i). unfold salt. pose proof (H st p (or_introl eq_refl)) as X. destruct (p st i) as [a j es s1|s1| |]; cbn [steady] in X |- *; auto.
    pose proof (IH (fun st' p' Hp => H st' p' (or_intror Hp)) s1) as Y. destruct (schoice (q :: ps) s1 i); cbn [steady] in *; auto; congruence.
  Qed.
  Context (En : environment_ok E).
  Lemma steady_option st i : ~ sets_rule_at I i -> steady i st (p_option E I file st i).
  Proof.
    intro N. unfold p_option, lift. destruct (p_option_tokens I (ps_options st) i) as [[name value] j ws es|ws| |] eqn:X; cbn; auto.
    apply p_option_tokens_sounds in X. destruct X as (a & T & Sn & Sv & _).
    destruct (option_read E file (ps_options st) name value) as [[[o po] es']|] eqn:R; cbn; auto. unfold option_read in R.
    unfold option_parse, mapr in R. destruct (option_value (g_unicode E) (g_decimal E) (item name) (item value) file) as [[v|e]|] eqn:V; [| |discriminate].
    - unfold po_assimilate in R. cbn [opt_variant opt_source] in R. apply (C49_option_value _ _ _ _ _ _ (env_unicode _ En)) in V.
      assert (N1 : tok I (S i) (T_String (item name)) /\ a = S (S i)) by (destruct Sn as [Sn _]; inversion Sn; subst; auto). destruct N1 as [N1 ->].
      assert (N2 : tok I (S (S i)) (T_String (item value))) by (destruct Sv as [Sv _]; inversion Sv; subst; auto).
      destruct v as [a1|ty s|a1 a2|a1|a1 a2|a1|a1|a1|a1|a1|m|a1|a1| |]; try (injection R as _ <- _; reflexivity); exfalso; apply N; exists (item name), (item value);
        (split; [exact T|]; split; [exact N1|]; split; [exact N2|]); inversion V; subst; [destruct ty|]; cbn; tauto.
    - destruct e; injection R as _ <- _; reflexivity.
  Qed.
  Lemma steady_once st i : ~ sets_rule_at I i -> steady i st (p_once E I file st i).
  Proof.
    intro N. assert (H : forall st, steady i st (schoice [smap D_Directive (lift (p_directive E I)); smap D_Pragma (p_pragma E I file)] st i)).
    { apply steady_choice. intros s0 p [<-|[<-|[]]]; (apply steady_bind_lift; [|intros a s1 j; reflexivity]); [apply steady_lift|].
      apply steady_bind_lift; [|intros a s1 j; apply steady_bind_lift; [apply steady_lift|intros ? s2 ?; reflexivity]].
      revert s0. apply steady_choice. intros s0 p [<-|[<-|[<-|[<-|[<-|[<-|[<-|[]]]]]]]]; try apply steady_lift.
      apply steady_bind_lift; [apply steady_option; exact N|]. intros a s1 j. reflexivity. }
    specialize (H st). unfold p_once, sspn. destruct (schoice _ st i); cbn in *; auto.
  Qed.
End Steady.

(** ** The declarations before *)
Section Before.
  Context (E : grammar_env) (En : environment_ok E) (J : input) (Cj : computable E J) (Fj : fine_options J) (file : option path).
  Lemma runs_declarations r i ds ws k r' : runs E J file r i ds ws k r' -> ~ tok J k T_Indent -> forall st, obeys E (ps_options st) r ->
    i <= k /\ List.length ds <= k - i /\
    ((forall b, i <= b < k -> ~ sets_rule_at J b) ->
     forall f, exists st1, ps_options st1 = ps_options st /\ ps_warnings st1 = ps_warnings st ++ ws /\ obeys E (ps_options st1) r' /\
      p_declarations E J file (List.length ds + f) st i =
        match p_declarations E J file f st1 k with SGot ds' m es st2 => SGot (ds ++ ds') m es st2 | r => r end).
  Proof.
    intro R. induction R as [r i|r i j d r1 ds ws k r' D R IH]; intros Ni st Ob.
    - split; [lia|]. split; [cbn; lia|]. intros N f. exists st. rewrite app_nil_r. repeat split; try reflexivity; try apply Ob. cbn. destruct (p_declarations E J file f st i); reflexivity.
    - assert (Nj : ~ tok J j T_Indent).
      { inversion R as [|? ? j2 d2 r2 ? ? ? ? D2 R2]; subst; [exact Ni|]. eapply not_indented. left. eauto. }
      destruct (p_once_reads E J file En Cj Fj st r i j d [] r1 Ob D) as (st1 & more & Rd & Ob1 & B & Hw & Hm). rewrite (Hm Nj), app_nil_r in Hw.
      destruct (IH Ni st1 Ob1) as (Hk & Hl & Go). split; [lia|]. split; [cbn; lia|]. intros N f.
      destruct (Go ltac:(intros b Hb; apply N; lia) f) as (st2 & Po & Pw & Ob2 & Run). exists st2.
      pose proof (steady_once E J file En st i ltac:(apply N; lia)) as Sy. rewrite Rd in Sy. cbn in Sy.
      split; [congruence|]. split; [rewrite Pw, Hw, <- app_assoc; reflexivity|]. split; [exact Ob2|]. cbn [List.length Nat.add p_declarations]. unfold p_declaration. rewrite Rd, Run.
      destruct (p_declarations E J file f st2 k); reflexivity.
  Qed.
End Before.

(** ** The rest in step *)

(** What is said, where the places of syntax errors are moved by [n] tokens. *)
Definition told_at (n : nat) (c : complaint) : problem + nat * nat := match c with C_Report r => inl (rp_problem r) | C_Syntax s p => inr (s, n + p) end.
Definition same_told_at (n : nat) (es es' : list complaint) : Prop := Permutation (map (told_at n) es) (map told es').

Section Shift.
  Context (E : grammar_env) (Go : forall l, Permutation l (g_order E l)) (I J : input) (n : nat) (So : in_source I = in_source J) (file : option path).
  Context (Tk : forall i, option_map fst (nth_error (in_tokens J) (n + i)) = option_map fst (nth_error (in_tokens I) i)).
  Let P := fun i i' : nat => i' = n + i.
  Lemma shift_step : in_step I J P P any.
  Proof.
    constructor.
    - auto.
    - intros i i' ->. specialize (Tk i). destruct (nth_error (in_tokens I) i) as [[t r]|], (nth_error (in_tokens J) (n + i)) as [[t' r']|]; try discriminate; [|reflexivity].
      cbn in Tk. injection Tk as ->. split; [reflexivity|]. unfold P. split; intros; lia.
    - intros. exact Logic.I.
  Qed.
  Definition shsim {A B} (T : A -> B -> Prop) (r : sres A) (r' : sres B) : Prop :=
    match r, r' with
    | SLoop, _ | _, SLoop => True
    | SCrash, SCrash => True
    | SGot a j es st, SGot b j' es' st' => T a b /\ P j j' /\ same_told_at n es es' /\ alike_state st st'
    | SNot st, SNot st' => alike_state st st'
    | _, _ => False
    end.
  Lemma told_reports es es' : same_told (map C_Report es) es' -> same_told_at n (map C_Report es) es'.
  Proof. unfold same_told, same_told_at. rewrite !map_map. auto. Qed.
  Lemma told_at_app a b a' b' : same_told_at n a a' -> same_told_at n b b' -> same_told_at n (a ++ b) (a' ++ b').
  Proof. unfold same_told_at. intros. rewrite !map_app. apply Permutation_app; assumption. Qed.

  Lemma shift_retry f : forall f' st st' i, alike_state st st' -> shsim (alike_declared any) (retry E I file f st i) (retry E J file f' st' (n + i)).
  Proof.
    induction f as [|f IH]; intros f' st st' i A; [exact Logic.I|].
    destruct f' as [|f']; [unfold shsim; destruct (retry E I file (S f) st i); exact Logic.I|].
    cbn [retry]. pose proof (Tk i) as T.
    destruct (nth_error (in_tokens I) i) as [[t r]|], (nth_error (in_tokens J) (n + i)) as [[t' r']|]; try discriminate; [|exact A].
    pose proof (ssim_once E Go I J P P any shift_step file st st' (S i) (S (n + i)) A ltac:(unfold P; lia)) as H.
    replace (S (n + i)) with (n + S i) in * by lia.
    destruct (p_once E I file st (S i)) as [d j es s1|s1| |], (p_once E J file st' (n + S i)) as [d' j' es' s1'|s1'| |]; cbn [srsim] in H; try contradiction; cbn; auto.
    1: { destruct H as (H1 & H2 & H3 & H4). pose proof (same_told_nil _ _ H3) as Z. destruct es, es'; try (exfalso; destruct Z as [Z Z']; now (discriminate (Z eq_refl) || discriminate (Z' eq_refl))).
      - cbn. repeat split; try assumption; try apply H4.
      - apply IH; assumption. }
    all: try (apply IH; assumption); unfold shsim; repeat match goal with |- context [match ?x with _ => _ end] => destruct x end; exact Logic.I.
  Qed.
  Context (En : environment_ok E) (Ci : computable E I) (Fi : fine_options I).
  Lemma shift_declaration st st' i r : obeys E (ps_options st) r -> i <= List.length (in_tokens I) -> alike_state st st' ->
    shsim (alike_declared any) (p_declaration E I file st i) (p_declaration E J file st' (n + i)).
  Proof.
    intros Ob Hi A. unfold p_declaration. pose proof (ssim_once E Go I J P P any shift_step file st st' i (n + i) A ltac:(unfold P; lia)) as H.
    pose proof (p_once_run E I file En Ci Fi st r i Ob Hi) as On.
    destruct (p_once E I file st i) as [d j es s1|s1| |], (p_once E J file st' (n + i)) as [d' j' es' s1'|s1'| |]; cbn [srsim] in H; try contradiction; auto.
    - destruct H as (H1 & H2 & H3 & H4). cbn in On. destruct On as (es0 & r1 & -> & _). split; [exact H1|]. split; [exact H2|]. split; [|exact H4]. apply told_reports. exact H3.
    - pose proof (shift_retry (S (List.length (in_tokens I) - i)) (S (List.length (in_tokens J) - (n + i))) s1 s1' i H) as R.
      destruct (retry E I file _ s1 i) as [d j es s2|s2| |], (retry E J file _ s1' (n + i)) as [d' j' es' s2'|s2'| |]; cbn in R |- *; auto.
      destruct R as (R1 & R2 & _ & R4). split; [exact R1|]. split; [exact R2|]. split; [|exact R4]. rewrite So. apply Permutation_refl.
    - destruct (retry E I file _ s1 i); exact Logic.I.
  Qed.
  Lemma shift_declarations f : forall f' st st' i r, obeys E (ps_options st) r -> i <= List.length (in_tokens I) -> alike_state st st' ->
    shsim (Forall2 (alike_declared any)) (p_declarations E I file f st i) (p_declarations E J file f' st' (n + i)).
  Proof.
    induction f as [|f IH]; intros f' st st' i r Ob Hi A; [exact Logic.I|].
    destruct f' as [|f']; [unfold shsim; destruct (p_declarations E I file (S f) st i); exact Logic.I|].
    cbn [p_declarations]. pose proof (shift_declaration st st' i r Ob Hi A) as H.
    assert (Nx : match p_declaration E I file st i with SGot _ j _ s1 => j <= List.length (in_tokens I) /\ exists r1, obeys E (ps_options s1) r1 | _ => True end).
    { unfold p_declaration. pose proof (p_once_run E I file En Ci Fi st r i Ob Hi) as On. destruct (p_once E I file st i) as [d j es s1|s1| |]; cbn in On; auto.
      - destruct On as (_ & r1 & _ & _ & Ob1 & B). split; [lia|]. eauto.
      - destruct On as (_ & r1 & _ & Ob1). destruct (retry_run E I file En Ci Fi (S (List.length (in_tokens I) - i)) s1 r1 i Ob1 Hi ltac:(lia)) as (found & r2 & _ & F).
        destruct found as [[[[i' j] d] w]|]; [destruct F as (st2 & -> & Ob2 & B1 & B2 & _); split; [lia|eauto]|destruct F as (st2 & -> & _); exact Logic.I]. }
    destruct (p_declaration E I file st i) as [d j es s1|s1| |], (p_declaration E J file st' (n + i)) as [d' j' es' s1'|s1'| |]; cbn in H; try contradiction; auto.
    - destruct H as (H1 & H2 & H3 & H4). unfold P in H2. subst j'. destruct Nx as (Hj & r1 & Ob1). specialize (IH f' s1 s1' j r1 Ob1 Hj H4).
      destruct (p_declarations E I file f s1 j), (p_declarations E J file f' s1' (n + j)); cbn in IH |- *; try contradiction; auto.
      destruct IH as (I1 & I2 & I3 & I4). split; [constructor; assumption|]. split; [exact I2|]. split; [apply told_at_app; assumption|exact I4].
    - destruct (p_declarations E I file f s1 j); exact Logic.I.
    - split; [constructor|]. split; [reflexivity|]. split; [apply Permutation_refl|exact H].
  Qed.

  (** The whole of the one file, and the other one after its first [n] tokens. *)
  Context (Cj : computable E J) (Fj : fine_options J) (Lj : List.length (in_tokens J) = n + List.length (in_tokens I)).
  Lemma shift_file r0 da wa r1 out es s1 st : runs E J file r0 0 da wa n r1 -> ~ tok J n T_Indent -> (forall b, b < n -> ~ sets_rule_at J b) ->
    obeys E (ps_options st) r0 -> obeys E (ps_options st) r1 -> ps_warnings st = [] -> parse_file E I file st = Fine (Some (out, es, s1)) ->
    exists out' es' s1', parse_file E J file st = Fine (Some (out', es', s1')) /\ same_told_at n es es' /\
      map rp_problem (ps_warnings s1') = map rp_problem (wa ++ ps_warnings s1) /\
      match out, out' with Some ds, Some all => exists ds', all = da ++ ds' /\ Forall2 (alike_declared any) ds ds' | None, None => True | _, _ => False end.
  Proof.
    intros R Ni N Ob Obr Nw Pf. unfold parse_file in *.
    destruct (runs_declarations E En J Cj Fj file _ _ _ _ _ _ R Ni st Ob) as (_ & Hl & Run). rewrite Nat.sub_0_r in Hl.
    set (m := List.length (in_tokens I)) in *. set (k := List.length da) in *.
    assert (Qf : S (List.length (in_tokens J)) = k + (S m + (n - k))) by (rewrite Lj; lia). rewrite Qf. clear Qf.
    destruct (Run ltac:(intros b Hb; apply N; lia) (S m + (n - k))) as (st1 & Po & Pw & Ob1 & Q). rewrite Q. clear Q Run. rewrite Nw in Pw. cbn in Pw.
    assert (Qs : st1 = under wa st) by (destruct st1 as [o w], st as [o' w']; cbn in *; subst; unfold under; cbn; rewrite app_nil_r; reflexivity). subst st1.
    pose proof (shift_declarations (S m) (S m + (n - k)) st st 0 r1 Obr ltac:(lia) ltac:(split; [split; reflexivity|reflexivity])) as H. rewrite Nat.add_0_r in H.
    rewrite (framed_declarations wa E J file (S m + (n - k)) st n).
    destruct (p_declarations_run E J file En Cj Fj (S m + (n - k)) st r1 n Obr ltac:(lia) ltac:(lia)) as (ds2 & es2 & ws2 & k2 & r2 & st2 & _ & Q2 & _). rewrite Q2 in H |- *.
    destruct (p_declarations E I file (S m) st 0) as [ds j es1 s2|s2| |]; cbn in H; try contradiction; try discriminate. destruct H as (H1 & H2 & H3 & [_ H4]). unfold P in H2. subst k2.
    cbn [after_all]. pose proof (Tk j) as T.
    destruct (nth_error (in_tokens I) j) as [[t x]|], (nth_error (in_tokens J) (n + j)) as [[t' x']|]; try discriminate; injection Pf as <- <- <-.
    - do 3 eexists. split; [reflexivity|]. split; [apply told_at_app; [exact H3|]; rewrite So; apply Permutation_refl|]. split; [|exact Logic.I].
      cbn. rewrite !map_app. f_equal. symmetry. exact H4.
    - do 3 eexists. split; [reflexivity|]. split; [exact H3|]. split; [cbn; rewrite !map_app; f_equal; symmetry; exact H4|]. eauto.
  Qed.
End Shift.
