(** * Files and ledgers with misses: the results, and where the syntax errors are *)
From Coq Require Import String Ascii.
From Coq Require Import List NArith ZArith Arith Bool Lia.
From Verif Require Import Base Text Path Sources Types SortM Options Pragma Read Token Lexer Decimal Cost Peg PegFacts Grammar GrammarSafe Parse Messages Miss MissGrammar MissParse
  MissErased SpecMiss MissPlace.
Import ListNotations.
Local Open Scope nat_scope.

(** ** Forgetting what was said *)

Definition eres {A} (r : mres A) : sres A :=
  match r with
  | MGot a j es st => SGot a j (map plainly es) st
  | MNot st => SNot st
  | MCrash => SCrash
  | MLoop => SLoop
  end.
Definition ssame {A} (p : sparser A) (q : msparser A) : Prop := forall st i, eres (fst (q st i)) = p st i.

Lemma plainly_reports es : map plainly (map MC_Report es) = map C_Report es.
Proof. rewrite map_map. reflexivity. Qed.

Lemma ssame_lift {A} (p : parser_options -> parser A) q : (forall po, same (p po) (q po)) -> ssame (lift p) (mlift q).
Proof.
  intros H st i. unfold lift, mlift. specialize (H (ps_options st) i). destruct (q (ps_options st) i) as [r m]. cbn in H. rewrite <- H.
  destruct r; cbn [fst eres]; try reflexivity. rewrite plainly_reports. reflexivity.
Qed.
Lemma ssame_bind {A B} (p : sparser A) q (f : A -> sparser B) g : ssame p q -> (forall a, ssame (f a) (g a)) -> ssame (sbind p f) (msbind q g).
Proof.
  intros H F st i. specialize (H st i). unfold sbind, msbind. destruct (q st i) as [r m]. cbn in H. rewrite <- H.
  destruct r as [a j es st1|st1| |]; cbn [eres fst]; try reflexivity. specialize (F a st1 j). destruct (g a st1 j) as [r' m']. cbn in F. rewrite <- F.
  destruct r'; cbn [eres fst]; try reflexivity. rewrite map_app. reflexivity.
Qed.
Lemma ssame_ret {A} (a : A) : ssame (sret a) (msret a).
Proof. intros st i. reflexivity. Qed.
Lemma ssame_map {A B} (f : A -> B) p q : ssame p q -> ssame (smap f p) (msmap f q).
Proof. intro H. apply ssame_bind; [exact H|]. intro a. apply ssame_ret. Qed.
Lemma ssame_alt {A} (p p' : sparser A) q q' : ssame p q -> ssame p' q' -> ssame (salt p p') (msalt q q').
Proof.
  intros H H' st i. specialize (H st i). unfold salt, msalt. destruct (q st i) as [r m]. cbn in H. rewrite <- H.
  destruct r as [a j es st1|st1| |]; cbn [eres fst]; try reflexivity. specialize (H' st1 i). destruct (q' st1 i) as [r' m']. exact H'.
Qed.

Section File.
  Context (E : grammar_env) (I : input) (source_path : option path).
  Let toks := in_tokens I.
  Let n := List.length toks.

  Lemma ssame_spn {A} (p : sparser A) q : ssame p q -> ssame (sspn I p) (msspn I q).
  Proof.
    intros H st i. specialize (H st i). unfold sspn, msspn. destruct (q st i) as [r m]. cbn in H. rewrite <- H. destruct r; reflexivity.
  Qed.
  Lemma option_read_reports po name value o po' es : option_read E source_path po name value = Fine (o, po', es) ->
    map plainly (flat_map reported es) = es.
  Proof.
    unfold option_read. destruct (option_parse _ _ _ _ _) as [[x|[|x]]|]; try discriminate; try (intro H; injection H as <- <- <-; reflexivity).
    destruct (po_assimilate po x) as [[[o' p']|t]|]; try discriminate; intro H; injection H as <- <- <-; reflexivity.
  Qed.
  Lemma ssame_option : ssame (p_option E I source_path) (q_option E I source_path).
  Proof.
    intros st i. unfold p_option, q_option. pose proof (ssame_lift _ _ (fun po => same_option_tokens I po) st i) as H.
    destruct (mlift (q_option_tokens I) st i) as [r m]. cbn [fst] in H. rewrite <- H.
    destruct r as [[name value] j es st1|st1| |]; cbn [eres fst]; try reflexivity.
    destruct (option_read E source_path (ps_options st1) name value) as [[[o po'] es']|] eqn:R; [|reflexivity].
    cbn [eres fst]. rewrite map_app, (option_read_reports _ _ _ _ _ _ R). reflexivity.
  Qed.
  Lemma ssame_pragma : ssame (p_pragma E I source_path) (q_pragma E I source_path).
  Proof.
    unfold p_pragma, q_pragma. apply ssame_bind.
    - cbn [schoice mschoice]. repeat apply ssame_alt.
      + apply ssame_lift. intro. apply same_pushtag.
      + apply ssame_lift. intro. apply same_poptag.
      + apply ssame_lift. intro. apply same_pushmeta.
      + apply ssame_lift. intro. apply same_popmeta.
      + apply ssame_lift. intro. apply same_include.
      + apply ssame_map, ssame_option.
      + apply ssame_lift. intro. apply same_plugin.
    - intro a. apply ssame_bind; [apply ssame_lift; intro; apply same_eol|]. intro. apply ssame_ret.
  Qed.
  Lemma ssame_once : ssame (p_once E I source_path) (q_once E I source_path).
  Proof.
    unfold p_once, q_once. apply ssame_spn. cbn [schoice mschoice]. apply ssame_alt; apply ssame_map.
    - apply ssame_lift. intro. apply same_directive.
    - apply ssame_pragma.
  Qed.
  Lemma same_retry f : forall st i, eres (fst (mretry E I source_path f st i)) = retry E I source_path f st i.
  Proof.
    induction f as [|f IH]; intros st i; [reflexivity|]. cbn [mretry retry]. destruct (nth_error (in_tokens I) i); [|reflexivity].
    pose proof (ssame_once st (S i)) as H. destruct (q_once E I source_path st (S i)) as [r m]. cbn [fst] in H. rewrite <- H.
    destruct r as [d j [|e es] st'|st'| |]; cbn [eres map fst]; try reflexivity; apply IH.
  Qed.

  (** ** Where *)

  (** The options in force at some time. *)
  Context (F : parser_options -> Prop).
  Definition closed : Prop := forall po i name value sn sv o po' es, F po ->
    (exists r, nth_error toks i = Some (T_Keyword K_Option, r)) ->
    (exists r, nth_error toks (S i) = Some (T_String name, r)) ->
    (exists r, nth_error toks (S (S i)) = Some (T_String value, r)) ->
    option_read E source_path po (mk_spanned name sn) (mk_spanned value sv) = Fine (o, po', es) -> F po'.

  Notation fit := (fit E I F).
  Notation fits := (fits E I F).
  Definition splaced {A} (q : msparser A) : Prop := forall st i, i <= n -> F (ps_options st) ->
    match q st i with
    | (MGot _ j es st', m) => i <= j <= n /\ fits i m /\ F (ps_options st') /\ Forall told es
    | (MNot st', m) => m <> None /\ fits i m /\ F (ps_options st')
    | _ => True
    end.

  Lemma splaced_lift {A} (q : parser_options -> mparser A) : (forall po, F po -> placed E I F (q po)) -> splaced (mlift q).
  Proof.
    intros H st i L P. specialize (H _ P i L). unfold mlift. destruct (q (ps_options st) i) as [[a j ws es|ws| |] m]; try exact Logic.I.
    - destruct H as [H1 H2]. split; [exact H1|]. split; [exact H2|]. split; [exact P|]. apply Forall_forall. intros c Hc. apply in_map_iff in Hc.
      destruct Hc as (r & <- & _). exists r. reflexivity.
    - destruct H as [H1 H2]. split; [exact H1|]. split; [exact H2|exact P].
  Qed.
  Lemma splaced_bind {A B} (q : msparser A) (g : A -> msparser B) : splaced q -> (forall a, splaced (g a)) -> splaced (msbind q g).
  Proof.
    intros H G st i L P. specialize (H st i L P). unfold msbind. destruct (q st i) as [[a j es st1|st1| |] m]; try exact H.
    destruct H as (H1 & H2 & H3 & H4). specialize (G a st1 j (proj2 H1) H3).
    destruct (g a st1 j) as [[b k es' st2|st2| |] m']; try exact Logic.I.
    - destruct G as (G1 & G2 & G3 & G4). split; [lia|]. split; [|split; [exact G3|apply Forall_app; auto]].
      apply fits_further; [exact H2|]. apply fits_from with (j := j); [lia|exact G2].
    - destruct G as (G1 & G2 & G3). split; [apply further_some; right; exact G1|]. split; [|exact G3].
      apply fits_further; [exact H2|]. apply fits_from with (j := j); [lia|exact G2].
  Qed.
  Lemma splaced_ret {A} (a : A) : splaced (msret a).
  Proof. intros st i L P. split; [lia|]. split; [apply fits_none|]. split; [exact P|constructor]. Qed.
  Lemma splaced_map {A B} (f : A -> B) q : splaced q -> splaced (msmap f q).
  Proof. intro H. apply splaced_bind; [exact H|]. intro a. apply splaced_ret. Qed.
  Lemma splaced_alt {A} (q q' : msparser A) : splaced q -> splaced q' -> splaced (msalt q q').
  Proof.
    intros H H' st i L P. specialize (H st i L P). unfold msalt. destruct (q st i) as [[a j es st1|st1| |] m]; try exact H.
    destruct H as (H1 & H2 & H3). specialize (H' st1 i L H3). destruct (q' st1 i) as [[b k es' st2|st2| |] m']; try exact Logic.I.
    - destruct H' as (G1 & G2 & G3). split; [exact G1|]. split; [|exact G3]. apply fits_further; assumption.
    - destruct H' as (G1 & G2 & G3). split; [apply further_some; left; exact H1|]. split; [|exact G3]. apply fits_further; assumption.
  Qed.
  Lemma splaced_spn {A} (q : msparser A) : splaced q -> splaced (msspn I q).
  Proof.
    intros H st i L P. specialize (H st i L P). unfold msspn. destruct (q st i) as [[a j es st1|st1| |] m]; exact H.
  Qed.

  Lemma select_got {A} (f : token -> option A) i a j ws es : sel I f i = Got a j ws es -> exists t r, nth_error toks i = Some (t, r) /\ f t = Some a /\ j = S i.
  Proof.
    unfold sel, select. fold toks. destruct (nth_error toks i) as [[t r]|] eqn:N; [|discriminate]. destruct (f t) eqn:X; [|discriminate].
    intro H. injection H as <- <- <- <-. exists t, r. auto.
  Qed.
  Lemma string_at po i s j ws es : spn I (p_string I po) i = Got s j ws es ->
    (exists r, nth_error toks i = Some (T_String (item s), r)) /\ j = S i.
  Proof.
    unfold spn at 1, sp, map_span. destruct (p_string I po i) as [a j' ws' es'|ws'| |] eqn:P; try discriminate. intro H. injection H as <- <- <- <-.
    unfold p_string, spn, sp, map_span in P.
    destruct (sel I (fun t => match t with T_String s => Some s | _ => None end) i) as [a' j'' ws'' es''|ws''| |] eqn:Q; try discriminate.
    injection P as <- <- <- <-. apply select_got in Q. destruct Q as (t & r & N & X & ->). destruct t; try discriminate. injection X as ->.
    split; [exists r; exact N|reflexivity].
  Qed.
  Lemma option_tokens_at po i name value j ws es : p_option_tokens I po i = Got (name, value) j ws es ->
    (exists r, nth_error toks i = Some (T_Keyword K_Option, r)) /\
    (exists r, nth_error toks (S i) = Some (T_String (item name), r)) /\
    (exists r, nth_error toks (S (S i)) = Some (T_String (item value), r)).
  Proof.
    unfold p_option_tokens. intro H. apply bind_got in H. destruct H as (k & j1 & w1 & e1 & w2 & e2 & K & H & _).
    apply bind_got in H. destruct H as (s1 & j2 & w3 & e3 & w4 & e4 & S1 & H & _).
    apply bind_got in H. destruct H as (s2 & j3 & w5 & e5 & w6 & e6 & S2 & H & _). injection H as <- <- <- <- <-.
    apply select_got in K. destruct K as (t & r & N & X & ->). destruct (token_eq_dec t (T_Keyword K_Option)) as [->|]; [|discriminate].
    apply string_at in S1. destruct S1 as [S1 ->]. apply string_at in S2. destruct S2 as [S2 ->].
    split; [exists r; exact N|]. split; [exact S1|exact S2].
  Qed.

  Context (F_closed : closed).
  Lemma splaced_option : splaced (q_option E I source_path).
  Proof.
    intros st i L P. unfold q_option. pose proof (splaced_lift _ (fun po Hp => placed_option_tokens E I F po) st i L P) as H.
    pose proof (same_option_tokens I (ps_options st) i) as Sm. unfold mlift in *.
    destruct (q_option_tokens I (ps_options st) i) as [[[name value] j ws es|ws| |] m]; try exact H.
    cbn [fst] in Sm. symmetry in Sm. apply option_tokens_at in Sm. destruct Sm as (T1 & T2 & T3).
    cbn [ps_options pushed]. destruct (option_read E source_path (ps_options st) name value) as [[[o po'] es']|] eqn:R; [|exact Logic.I].
    destruct H as (H1 & H2 & H3 & H4). split; [exact H1|]. split; [exact H2|]. split.
    - cbn [ps_options]. destruct name as [name sn], value as [value sv]. exact (F_closed _ i _ _ _ _ _ _ _ P T1 T2 T3 R).
    - apply Forall_app. split; [exact H4|]. apply Forall_forall. intros c Hc. apply in_flat_map in Hc. destruct Hc as ([r|s p] & _ & Hc); [|destruct Hc].
      destruct Hc as [<-|[]]. exists r. reflexivity.
  Qed.
  Lemma splaced_pragma : splaced (q_pragma E I source_path).
  Proof.
    unfold q_pragma. apply splaced_bind.
    - cbn [mschoice]. repeat apply splaced_alt.
      + apply splaced_lift. intros po P. apply placed_pushtag with (po := po). exact P.
      + apply splaced_lift. intros po P. apply placed_poptag with (po := po). exact P.
      + apply splaced_lift. intros po P. apply placed_pushmeta. exact P.
      + apply splaced_lift. intros po P. apply placed_popmeta with (po := po). exact P.
      + apply splaced_lift. intros po P. apply placed_include.
      + apply splaced_map, splaced_option.
      + apply splaced_lift. intros po P. apply placed_plugin.
    - intro a. apply splaced_bind; [apply splaced_lift; intros; apply placed_eol|]. intro. apply splaced_ret.
  Qed.
  Lemma splaced_once : splaced (q_once E I source_path).
  Proof.
    unfold q_once. apply splaced_spn. cbn [mschoice]. apply splaced_alt; apply splaced_map.
    - apply splaced_lift. intros. apply placed_directive. assumption.
    - apply splaced_pragma.
  Qed.

  Lemma retry_placed f : forall st i, i <= n -> F (ps_options st) ->
    match mretry E I source_path f st i with
    | (MGot _ j es st', m) => i <= j <= n /\ es = [] /\ fits i m /\ F (ps_options st')
    | (MNot st', _) => F (ps_options st')
    | _ => True
    end.
  Proof.
    induction f as [|f IH]; intros st i L P; [exact Logic.I|]. cbn [mretry]. destruct (nth_error (in_tokens I) i) eqn:N; [|exact P].
    assert (L' : S i <= n) by (apply nth_error_Some; fold toks in N; congruence).
    pose proof (splaced_once st (S i) L' P) as H. destruct (q_once E I source_path st (S i)) as [[d j [|e es] st'|st'| |] m]; try exact Logic.I.
    - destruct H as (H1 & H2 & H3 & H4). split; [lia|]. split; [reflexivity|]. split; [|exact H3]. apply fits_further.
      + apply fits_missed. exact L.
      + apply fits_from with (j := S i); [lia|exact H2].
    - destruct H as (_ & _ & H3 & _). specialize (IH st' (S i) L' H3). destruct (mretry E I source_path f st' (S i)) as [[d' j' es' st''|st''| |] m']; try exact IH.
      destruct IH as (A & B & D & G). split; [lia|]. split; [exact B|]. split; [|exact G]. apply fits_from with (j := S i); [lia|exact D].
    - destruct H as (_ & _ & H3). specialize (IH st' (S i) L' H3). destruct (mretry E I source_path f st' (S i)) as [[d' j' es' st''|st''| |] m']; try exact IH.
      destruct IH as (A & B & D & G). split; [lia|]. split; [exact B|]. split; [|exact G]. apply fits_from with (j := S i); [lia|exact D].
  Qed.

  Lemma fits_beyond i a b : fits 0 a -> fits i b -> b <> None -> fits i (further a b).
  Proof.
    intros A B N x X. pose proof (fits_further E I F 0 a b A (fits_from E I F 0 i b (Nat.le_0_l i) B) x X) as (H1 & H2 & H3).
    destruct b as [b|]; [|congruence]. destruct (B b eq_refl) as [[B1 _] _].
    split; [|split; assumption]. split; [|apply H1]. destruct a as [a|]; cbn [further] in X.
    - destruct (Nat.compare (ms_at a) (ms_at b)) eqn:Q; injection X as <-; cbn [ms_at].
      + apply Nat.compare_eq in Q. lia.
      + lia.
      + apply Nat.compare_gt_iff in Q. lia.
    - injection X as <-. exact B1.
  Qed.

  (** A syntax error of this file is at or after the place where a declaration
      should have started. *)
  Definition said_well (c : mcomplaint) : Prop :=
    match c with MC_Report _ => True | MC_Syntax s p x => s = in_source I /\ p < n /\ fit p x end.

  Lemma declaration_placed m0 st i : i <= n -> F (ps_options st) -> fits 0 m0 ->
    match q_declaration E I source_path m0 st i with
    | (MGot _ j es st', m) => i <= j <= n /\ fits 0 m /\ F (ps_options st') /\ Forall said_well es
    | (MNot st', m) => m <> None /\ fits i m /\ F (ps_options st')
    | _ => True
    end /\ eres (fst (q_declaration E I source_path m0 st i)) = p_declaration E I source_path st i.
  Proof.
    intros L P M. unfold q_declaration, p_declaration. pose proof (splaced_once st i L P) as H. pose proof (ssame_once st i) as Sm.
    destruct (q_once E I source_path st i) as [[d j es st1|st1| |] m]; cbn [fst eres] in Sm; rewrite <- Sm; try (split; [exact Logic.I|reflexivity]).
    - split; [|reflexivity]. destruct H as (H1 & H2 & H3 & H4). split; [exact H1|]. split.
      { apply fits_further; [exact M|]. apply fits_from with (j := i); [lia|exact H2]. }
      split; [exact H3|]. eapply Forall_impl; [|exact H4]. intros c (r & ->). exact Logic.I.
    - destruct H as (H1 & H2 & H3). pose proof (fits_beyond i m0 m M H2 H1) as B.
      pose proof (further_some m0 m (or_intror H1)) as N. destruct (further m0 m) as [x|]; [|congruence].
      pose proof (retry_placed (S (List.length (in_tokens I) - i)) st1 i L H3) as R.
      pose proof (same_retry (S (List.length (in_tokens I) - i)) st1 i) as Sr.
      destruct (mretry E I source_path (S (List.length (in_tokens I) - i)) st1 i) as [[d j es st2|st2| |] m']; cbn [fst eres] in Sr; rewrite <- Sr; cbn [fst eres map plainly].
      + split; [|reflexivity]. destruct R as (R1 & -> & R3 & R4). split; [exact R1|]. split; [apply fits_from with (j := i); [lia|exact R3]|].
        split; [exact R4|]. constructor; [|constructor]. split; [reflexivity|]. split; [|apply B; reflexivity].
        (* something was skipped *)
        destruct (Nat.eq_dec i n) as [->|Ne]; [|lia]. exfalso.
        assert (X : nth_error (in_tokens I) n = None) by (apply nth_error_None; apply le_n).
        cbn [retry] in Sr. rewrite X in Sr. discriminate.
      + split; [|reflexivity]. split; [discriminate|]. split; [exact B|exact R].
      + split; [exact Logic.I|reflexivity].
      + split; [exact Logic.I|reflexivity].
  Qed.

  Lemma declarations_placed f : forall m0 st i, i <= n -> F (ps_options st) -> fits 0 m0 ->
    match q_declarations E I source_path f m0 st i with
    | (MGot _ j es st', m) => i <= j <= n /\ fits j m /\ m <> None /\ F (ps_options st') /\ Forall said_well es
    | (MNot _, _) => False
    | _ => True
    end /\ eres (fst (q_declarations E I source_path f m0 st i)) = p_declarations E I source_path f st i.
  Proof.
    induction f as [|f IH]; intros m0 st i L P M; [split; [exact Logic.I|reflexivity]|]. cbn [q_declarations p_declarations].
    pose proof (declaration_placed m0 st i L P M) as [H Sm].
    destruct (q_declaration E I source_path m0 st i) as [[d j es st1|st1| |] m]; cbn [fst eres] in Sm; rewrite <- Sm; try (split; [exact Logic.I|reflexivity]).
    - destruct H as (H1 & H2 & H3 & H4). specialize (IH m st1 j (proj2 H1) H3 H2). destruct IH as [G Gs].
      destruct (q_declarations E I source_path f m st1 j) as [[ds k es' st2|st2| |] m']; cbn [fst eres] in Gs; rewrite <- Gs; try (split; [exact G|reflexivity]).
      destruct G as (G1 & G2 & G3 & G4 & G5). split; [|cbn [fst eres]; rewrite map_app; reflexivity].
      split; [lia|]. split; [exact G2|]. split; [exact G3|]. split; [exact G4|]. apply Forall_app. auto.
    - destruct H as (H1 & H2 & H3). split; [|reflexivity]. split; [lia|]. split; [exact H2|]. split; [exact H1|]. split; [exact H3|constructor].
  Qed.

  Lemma file_placed st : F (ps_options st) ->
    match mparse_file E I source_path st with
    | Fine (Some (_, es, st')) => Forall said_well es /\ F (ps_options st')
    | _ => True
    end /\
    match mparse_file E I source_path st with
    | Fine (Some (out, es, st')) => Fine (Some (out, map plainly es, st'))
    | Fine None => Fine None
    | Panic => Panic
    end = parse_file E I source_path st.
  Proof.
    intro P. unfold mparse_file, parse_file.
    pose proof (declarations_placed (S (List.length (in_tokens I))) None st 0 (Nat.le_0_l _) P (fits_none E I F 0)) as [H Sm].
    destruct (q_declarations E I source_path (S (List.length (in_tokens I))) None st 0) as [[ds j es st'|st'| |] m]; cbn [fst eres] in Sm; rewrite <- Sm;
      try (split; [exact Logic.I|reflexivity]).
    destruct H as (H1 & H2 & H3 & H4 & H5). destruct (nth_error (in_tokens I) j) eqn:N; [|split; [split; assumption|reflexivity]].
    assert (Lj : j < n) by (apply nth_error_Some; fold toks in N; congruence).
    destruct m as [x|]; [|congruence]. destruct (further (Some x) (not_end I j)) as [said|] eqn:Fu.
    - split; [|rewrite map_app; reflexivity]. split; [|exact H4]. apply Forall_app. split; [exact H5|]. constructor; [|constructor].
      split; [reflexivity|]. split; [exact Lj|]. apply (fits_further E I F j _ _ H2 (fits_missed E I F j (proj2 H1))). exact Fu.
    - exfalso. apply (further_some (Some x) (not_end I j)); [left; discriminate|exact Fu].
  Qed.
End File.
