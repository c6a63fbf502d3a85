(** * Two inputs which are read in step: texts which are the same but for an end of line at the end *)
From Coq Require Import String Ascii.
From Coq Require Import List NArith ZArith Arith Bool Lia Permutation.
From Verif Require Import Base BaseFacts Text Path Sources Types Options Pragma SpecPragma Read SpecRead P_Read Token Peg Lexer SpecLexer P_Lexer Grammar SpecGrammar P_Grammar SpecDisplay SpecLedger
  Parse SpecWhole P_Parse SpecAlike AlikeRead AlikeFile AlikeWalk AlikeOptions Sim SimValues SimGrammar SimFile SimPass.
Import SpecPragma Read.
Import ListNotations.
Local Open Scope nat_scope.

(** The place of a key in the one file and in the other. *)
Definition key_place (L : lexer_env) (x y : nat * option path * str) (sp sp' : span) : Prop :=
  exists ts ts' k t a b a' b', lex L (snd x) = Fine (Some ts) /\ lex L (snd y) = Fine (Some ts') /\
    nth_error ts k = Some (T_Key t, (a, b)) /\ nth_error ts' k = Some (T_Key t, (a', b')) /\
    sp = mk_span (fst (fst x)) a b /\ sp' = mk_span (fst (fst y)) a' b'.
Lemma key_place_one L (U : unicode_ok (le_unicode L)) x y x' y' a b a' b' : fst (fst x) = fst (fst y) -> fst (fst x') = fst (fst y') -> (fst (fst x) = fst (fst x') -> x = x' /\ y = y') ->
  key_place L x y a a' -> key_place L x' y' b b' -> (a = b <-> a' = b').
Proof.
  intros Qi Qj Un (ts & ts' & k & t & p & q & p' & q' & L1 & L2 & T1 & T2 & -> & ->) (us & us' & m & u & r & s & r' & s' & M1 & M2 & N1 & N2 & -> & ->).
  assert (One : forall c (ts : list rtoken) i j t u a b, lex L c = Fine (Some ts) -> nth_error ts i = Some (T_Key t, (a, b)) -> nth_error ts j = Some (T_Key u, (a, b)) -> i = j).
  { clear - U. intros c ts i j t u a b Lx X Y. pose proof (lexed_separate L U c ts Lx) as Se. destruct (Nat.lt_trichotomy i j) as [H|[H|H]]; [|exact H|]; exfalso; [exact (Se _ _ _ _ _ _ _ _ H X Y eq_refl)|exact (Se _ _ _ _ _ _ _ _ H Y X eq_refl)]. }
  split; intro Q; injection Q as Q1 -> ->.
  - destruct (Un Q1) as [<- <-]. rewrite L1 in M1. injection M1 as <-. rewrite L2 in M2. injection M2 as <-. assert (k = m) by exact (One _ _ _ _ _ _ _ _ L1 T1 N1). subst m. congruence.
  - rewrite <- Qi, <- Qj in Q1. destruct (Un Q1) as [<- <-]. rewrite L1 in M1. injection M1 as <-. rewrite L2 in M2. injection M2 as <-. assert (k = m) by exact (One _ _ _ _ _ _ _ _ L2 T2 N2). subst m. congruence.
Qed.
Lemma span_at_token I k t a b : nth_error (in_tokens I) k = Some (t, (a, b)) -> span_at (in_source I) (in_tokens I) (in_len I) k (S k) = mk_span (in_source I) a b.
Proof. intro H. unfold span_at, start_of, end_before. rewrite H. reflexivity. Qed.

(** The same tokens. *)
Lemma fits_same (K : span -> span -> Prop) I J : in_source I = in_source J -> map fst (in_tokens I) = map fst (in_tokens J) ->
  (forall k t a b a' b', nth_error (in_tokens I) k = Some (T_Key t, (a, b)) -> nth_error (in_tokens J) k = Some (T_Key t, (a', b')) -> K (mk_span (in_source I) a b) (mk_span (in_source J) a' b')) ->
  fits K I J.
Proof.
  intros So Q Ks. assert (T : forall j, option_map fst (nth_error (in_tokens I) j) = option_map fst (nth_error (in_tokens J) j)).
  { intro j. pose proof (f_equal (fun l => nth_error l j) Q) as H. cbn beta in H. rewrite !nth_error_map in H. exact H. }
  exists (fun i i' => i = i'), (fun i i' => i = i'). split; constructor; auto.
  - intros i i' <-. specialize (T i). destruct (nth_error (in_tokens I) i) as [[t r]|], (nth_error (in_tokens J) i) as [[t' r']|]; try discriminate; auto. cbn in T. injection T as <-. auto.
  - intros i i' t <- [[a b] X]. specialize (T i). rewrite X in T. destruct (nth_error (in_tokens J) i) as [[t' [a' b']]|] eqn:Y; [|discriminate]. cbn in T. injection T as <-.
    rewrite (span_at_token _ _ _ _ _ X), (span_at_token _ _ _ _ _ Y). eapply Ks; eassumption.
  - intros i i' <-. specialize (T i). destruct (nth_error (in_tokens I) i), (nth_error (in_tokens J) i); try discriminate; split; auto; discriminate.
Qed.

(** One of them has an end of line more. *)
Section Ended.
  Context (K : span -> span -> Prop) (I J : input) (So : in_source I = in_source J) (us : list token) (t : token) (Nt : t <> T_Eol).
  Context (Qi : map fst (in_tokens I) = us ++ [t]) (Qj : map fst (in_tokens J) = us ++ [t; T_Eol]).
  Let n := S (List.length us).
  Lemma ended_len : List.length (in_tokens I) = n /\ List.length (in_tokens J) = S n.
  Proof. rewrite <- (map_length fst (in_tokens I)), <- (map_length fst (in_tokens J)), Qi, Qj, !app_length. cbn. unfold n. lia. Qed.
  Lemma ended_tok j : j < n -> option_map fst (nth_error (in_tokens I) j) = option_map fst (nth_error (in_tokens J) j).
  Proof.
    intro H. rewrite <- !nth_error_map, Qi, Qj. change [t; T_Eol] with ([t] ++ [T_Eol]). rewrite app_assoc, (nth_error_app1 (us ++ [t]) [T_Eol]); [reflexivity|]. rewrite app_length. cbn. unfold n in H. lia.
  Qed.
  Lemma ended_last : option_map fst (nth_error (in_tokens I) (List.length us)) = Some t.
  Proof. rewrite <- nth_error_map, Qi, nth_error_app2, Nat.sub_diag by lia. reflexivity. Qed.
  Lemma ended_eol : option_map fst (nth_error (in_tokens J) n) = Some T_Eol.
  Proof. rewrite <- nth_error_map, Qj, nth_error_app2 by (unfold n; lia). replace (n - List.length us) with 1 by (unfold n; lia). reflexivity. Qed.
  Lemma fits_ended : 
    (forall k t a b a' b', nth_error (in_tokens I) k = Some (T_Key t, (a, b)) -> nth_error (in_tokens J) k = Some (T_Key t, (a', b')) -> K (mk_span (in_source I) a b) (mk_span (in_source J) a' b')) ->
    fits K I J.
  Proof.
    intro Ks. destruct ended_len as [Li Lj].
    exists (fun i i' => (i = i' /\ i <= n) \/ (i = n /\ i' = S n)), (fun i i' => (i = i' /\ i < n) \/ (i = n /\ i' = S n)).
    assert (Ni : nth_error (in_tokens I) n = None) by (apply nth_error_None; lia). assert (Nj : nth_error (in_tokens J) (S n) = None) by (apply nth_error_None; lia).
    split; constructor; auto.
    - intros i i' [[-> H]|H]; [left; left; split; [reflexivity|lia]|auto].
    - intros i i' [[<- H]|[-> ->]].
      + destruct (Nat.eq_dec i n) as [->|Y].
        * rewrite Ni. pose proof ended_eol as X. destruct (nth_error (in_tokens J) n) as [[u r]|]; [|discriminate]. cbn in X. injection X as ->. auto.
        * assert (Hi : i < n) by lia. pose proof (ended_tok i Hi) as X. destruct (nth_error (in_tokens I) i) as [[u r]|] eqn:A; [|exfalso; apply nth_error_None in A; lia].
          destruct (nth_error (in_tokens J) i) as [[u' r']|]; [|discriminate]. cbn in X. injection X as <-. split; [reflexivity|]. split; [intros _; left; split; [reflexivity|lia]|].
          intros ->. left. split; [reflexivity|]. destruct (Nat.eq_dec i (List.length us)) as [->|Z]; [|unfold n in *; lia]. pose proof ended_last as X. rewrite A in X. cbn in X. congruence.
      + rewrite Ni, Nj. auto.
    - intros i i' u [[<- H]|[-> ->]] [[a b] X]; [|congruence]. assert (Hi : i < n) by (destruct (Nat.eq_dec i n) as [->|Y]; [congruence|lia]).
      pose proof (ended_tok i Hi) as Q. rewrite X in Q. destruct (nth_error (in_tokens J) i) as [[u' [a' b']]|] eqn:Y; [|discriminate]. cbn in Q. injection Q as <-.
      rewrite (span_at_token _ _ _ _ _ X), (span_at_token _ _ _ _ _ Y). eapply Ks; eassumption.
    - intros x x' [[-> H]|H]; [left; split; [reflexivity|lia]|auto].
    - left. split; [reflexivity|unfold n; lia].
    - intros i i' [[<- H]|[-> ->]]; [|rewrite Ni, Nj; tauto]. split; intro X; apply nth_error_None in X; lia.
    - intros i i' [[<- H]|[-> ->]] X; [reflexivity|congruence].
  Qed.
  Lemma fits_not_ended : 
    (forall k t a b a' b', nth_error (in_tokens J) k = Some (T_Key t, (a, b)) -> nth_error (in_tokens I) k = Some (T_Key t, (a', b')) -> K (mk_span (in_source J) a b) (mk_span (in_source I) a' b')) ->
    fits K J I.
  Proof.
    intro Ks. destruct ended_len as [Li Lj].
    exists (fun i' i => (i = i' /\ i <= n) \/ (i = n /\ i' = S n)), (fun i' i => (i = i' /\ i < n) \/ (i = n /\ i' = S n)).
    assert (Ni : nth_error (in_tokens I) n = None) by (apply nth_error_None; lia). assert (Nj : nth_error (in_tokens J) (S n) = None) by (apply nth_error_None; lia).
    split; constructor; auto.
    - intros i' i [[-> H]|H]; [left; left; split; [reflexivity|lia]|auto].
    - intros i' i [[<- H]|[-> ->]].
      + destruct (Nat.eq_dec i n) as [->|Y].
        * rewrite Ni. pose proof ended_eol as X. destruct (nth_error (in_tokens J) n) as [[u r]|]; [|discriminate]. cbn in X. injection X as ->. auto.
        * assert (Hi : i < n) by lia. pose proof (ended_tok i Hi) as X. destruct (nth_error (in_tokens I) i) as [[u r]|] eqn:A; [|exfalso; apply nth_error_None in A; lia].
          destruct (nth_error (in_tokens J) i) as [[u' r']|]; [|discriminate]. cbn in X. injection X as <-. split; [reflexivity|]. split; [intros _; left; split; [reflexivity|lia]|].
          intros ->. left. split; [reflexivity|]. destruct (Nat.eq_dec i (List.length us)) as [->|Z]; [|unfold n in *; lia]. pose proof ended_last as X. rewrite A in X. cbn in X. congruence.
      + rewrite Ni, Nj. auto.
    - intros i' i u [[<- H]|[-> ->]] [[a b] X]; [|congruence]. assert (Hi : i < n).
      { destruct (Nat.eq_dec i n) as [->|Y]; [|lia]. pose proof ended_eol as Q. rewrite X in Q. discriminate. }
      pose proof (ended_tok i Hi) as Q. rewrite X in Q. destruct (nth_error (in_tokens I) i) as [[u' [a' b']]|] eqn:Y; [|discriminate]. cbn in Q. injection Q as ->.
      rewrite (span_at_token _ _ _ _ _ X), (span_at_token _ _ _ _ _ Y). eapply Ks; eassumption.
    - intros x x' [[-> H]|H]; [left; split; [reflexivity|lia]|auto].
    - left. split; [reflexivity|unfold n; lia].
    - intros i' i [[<- H]|[-> ->]]; [|rewrite Ni, Nj; tauto]. split; intro X; apply nth_error_None in X; lia.
    - intros i' i [[<- H]|[-> ->]] X; [reflexivity|congruence].
  Qed.
End Ended.

Lemma fits_text (K : span -> span -> Prop) L id c c' ts ts' : lex L c = Fine (Some ts) -> lex L c' = Fine (Some ts') -> alike_text L c c' ->
  (forall k t a b a' b', nth_error ts k = Some (T_Key t, (a, b)) -> nth_error ts' k = Some (T_Key t, (a', b')) -> K (mk_span id a b) (mk_span id a' b')) ->
  fits K (input_of id c ts) (input_of id c' ts').
Proof.
  intros Lx Lx' A Ks. assert (Q : same_but_end (map fst ts) (map fst ts')).
  { destruct A as [<-|(us & us' & M & M' & Q)]; [rewrite Lx in Lx'; injection Lx' as <-; constructor|]. rewrite Lx in M. injection M as <-. rewrite Lx' in M'. injection M' as <-. exact Q. }
  remember (map fst ts) as a eqn:Qa. remember (map fst ts') as b eqn:Qb. destruct Q as [us|us t Nt|us t Nt].
  - apply fits_same; cbn; auto. congruence.
  - apply (fits_ended K (input_of id c ts) (input_of id c' ts') eq_refl us t Nt); cbn; auto.
  - apply (fits_not_ended K (input_of id c' ts') (input_of id c ts) eq_refl us t Nt); cbn; auto.
Qed.

Section Whole.
  Context (L : lexer_env) (E : grammar_env) (Go : forall l, Permutation l (g_order E l)) (U : unicode_ok (le_unicode L)).
  Context (glob_with : str -> result (list glob_item) str) (canonicalize : path -> option path).
  Context (canonicalize' : path -> option path) (root : option path).

  Lemma alike_parsed read read' fuel fuel' content content' s s' :
    reads_to (includes_of L) glob_with canonicalize read fuel root content s ->
    reads_to (includes_of L) glob_with canonicalize read' fuel' root content' s' ->
    same_sources (alike_text L) s s' ->
    alike_outcome (parsed_from L E canonicalize' s) (parsed_from L E canonicalize' s').
  Proof.
    intros Reads Reads' [Sr Sg Se Sc]. unfold parsed_from, alike_outcome.
    pose proof (C30_parser L U glob_with canonicalize read fuel root content s Reads) as Pn. pose proof (C30_parser L U glob_with canonicalize read' fuel' root content' s' Reads') as Pn'.
    assert (Lexed : forall c c', alike_text L c c' -> (lex L c = Panic <-> lex L c' = Panic)) by (intros c c' [<-|(ts & ts' & -> & -> & _)]; [tauto|split; discriminate]).
    destruct (parser_new L s) as [[toks|]|], (parser_new L s') as [[toks'|]|]; try contradiction; auto.
    2: { destruct Pn' as (id & f & c' & Hin & X). destruct (forall2_in_r _ _ _ Sc _ Hin) as ([[id0 f0] c] & Hin' & Q & A). cbn in Q, A. injection Q as -> ->.
         destruct (Pn _ _ _ Hin') as (ts & Y & _). apply (Lexed _ _ A) in X. congruence. }
    2: { destruct Pn as (id & f & c & Hin & X). destruct (forall2_in _ _ _ Sc _ Hin) as ([[id0 f0] c'] & Hin' & Q & A). cbn in Q, A. injection Q as <- <-.
         destruct (Pn' _ _ _ Hin') as (ts & Y & _). apply (Lexed _ _ A) in X. congruence. }
    set (K := fun sp sp' => exists x y, In (x, y) (combine (content_iter s) (content_iter s')) /\ key_place L x y sp sp').
    assert (Kin : forall a a' b b', K a a' -> K b b' -> (a = b <-> a' = b')).
    { assert (Same : forall x y, In (x, y) (combine (content_iter s) (content_iter s')) -> fst (fst x) = fst (fst y)).
      { clear - Sc. intros x y Hin. induction Sc as [|u v l l' [Q _] F IH]; [destruct Hin|]. destruct Hin as [Z|Hin]; [injection Z as <- <-; now rewrite Q|auto]. }
      intros a a' b b' (x & y & Hin & P) (x' & y' & Hin' & P'). apply (key_place_one L U x y x' y'); auto.
      intro Q. pose proof (proj1 (C05_ids _ _ _ _ _ _ _ _ Reads)) as Nd.
      clear - Nd Hin Hin' Q. revert Nd Hin Hin'. generalize (content_iter s') as m. induction (content_iter s) as [|u l IH]; intros m Nd Hin Hin'; [destruct Hin|].
      destruct m as [|v m]; [destruct Hin|]. cbn in Nd. apply NoDup_cons_iff in Nd. destruct Nd as [Nu Nd]. cbn in Hin, Hin'.
      destruct Hin as [Z|Hin], Hin' as [Z'|Hin'].
      - injection Z as <- <-. injection Z' as <- <-. auto.
      - exfalso. injection Z as <- <-. apply Nu. rewrite Q. apply (in_map (fun x => fst (fst x))). eapply in_combine_l. exact Hin'.
      - exfalso. injection Z' as <- <-. apply Nu. rewrite <- Q. apply (in_map (fun x => fst (fst x))). eapply in_combine_l. exact Hin.
      - exact (IH m Nd Hin Hin'). }
    pose proof (alike_parse K Kin E Go canonicalize' s s' toks toks' Sr Sg Se) as H. apply H. clear H.
    assert (In1 : forall x y, In (x, y) (combine (content_iter s) (content_iter s')) -> forall sp sp', key_place L x y sp sp' -> K sp sp') by (intros x y Hin sp sp' P; exists x, y; auto).
    clearbody K. clear - Sc Pn Pn' In1. induction Sc as [|[[id f] c] [[id' f'] c'] l l' [Q A] F IH]; [constructor|]. constructor.
    - cbn in Q. injection Q as <- <-. split; [reflexivity|]. cbn [fst snd] in *. destruct (Pn id f c (or_introl eq_refl)) as (ts & Lx & ->). destruct (Pn' id f c' (or_introl eq_refl)) as (ts' & Lx' & ->).
      apply (fits_text K L id c c' ts ts' Lx Lx' A). intros k t a b a' b' X Y. apply (In1 (id, f, c) (id, f, c') (or_introl eq_refl)). exists ts, ts', k, t, a, b, a', b'. auto 8.
    - apply IH; [intros id0 f0 c0 Hin; apply (Pn id0 f0 c0); right; exact Hin|intros id0 f0 c0 Hin; apply (Pn' id0 f0 c0); right; exact Hin|].
      intros x y Hin. apply In1. right. exact Hin.
  Qed.
  Lemma alike_whole (T : str -> str -> Prop) (Tt : forall c c', T c c' -> alike_text L c c') read read' fuel content content' :
    same_reading T read read' -> T content content' ->
    match read_with_includes (includes_of L) glob_with canonicalize read fuel root content,
          read_with_includes (includes_of L) glob_with canonicalize read' fuel root content' with
    | Some s, Some s' => same_sources T s s' /\ source_id_strings s = source_id_strings s' /\ alike_outcome (parsed_from L E canonicalize' s) (parsed_from L E canonicalize' s')
    | None, None => True
    | _, _ => False
    end.
  Proof.
    intros Same Tc. pose proof (alike_read L glob_with canonicalize read read' T (fun c c' H => same_includes L c c' (Tt _ _ H)) Same fuel root content content' Tc) as H.
    destruct (read_with_includes (includes_of L) glob_with canonicalize read fuel root content) as [s|] eqn:Rd, (read_with_includes (includes_of L) glob_with canonicalize read' fuel root content') as [s'|] eqn:Rd'; try contradiction; auto.
    destruct H as [Sm Ids]. split; [exact Sm|]. split; [exact Ids|].
    assert (Re : forall read fuel content s, read_with_includes (includes_of L) glob_with canonicalize read fuel root content = Some s -> reads_to (includes_of L) glob_with canonicalize read fuel root content s).
    { clear. intros read fuel content s H. exists s. repeat (split; [auto|]). apply Permutation_refl. }
    apply (alike_parsed _ _ _ _ _ _ _ _ (Re _ _ _ _ Rd) (Re _ _ _ _ Rd')). destruct Sm as [S1 S2 S3 S4]. constructor; auto. clear - S4 Tt. induction S4 as [|x y l l' [Q A] F IH]; constructor; auto.
  Qed.
End Whole.
