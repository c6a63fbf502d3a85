(** * Facts for C73 to C75: the tokens of texts one after another *)
From Coq Require Import String Ascii.
From Coq Require Import List NArith ZArith Arith Bool Lia Permutation.
From Verif Require Import Base BaseFacts Path SpecPath SpecPragma Sources Types SpecTypes Token SpecOptions LexPost SpecLex LexFacts P_Lex Lexer SpecLexer LexerFacts P_Lexer
  DisplayLex DisplayText DisplayLexed DisplayDump SpecLayout LayoutLex
  Grammar SpecGrammar SpecDirective P_Grammar Read SpecRead Parse SpecParse SpecWhole P_File P_Parse SpecAlike SimWhole P_Layout P_Words P_Display P_Newline ExprFacts SpecAppend AppendText SpecLocal.
Import SpecLexer SpecLayout.
Import ListNotations.
Local Open Scope nat_scope.
Local Notation nl := [10%N].

Section Lines.
  Context (L : lexer_env) (U : unicode_ok (le_unicode L))
          (ND : forall c, u_Nd (le_unicode L) c = true -> u_Lu (le_unicode L) c = false /\ u_Lo (le_unicode L) c = false).

  Lemma afresh_out fin ws ls s : starts_afresh L fin ws ls s -> set_out L fin ((false, ws) :: ls) s.
  Proof. intros [o g s0 rest Ho G W B Ig Li]. change (g ++ s0) with ([] ++ g ++ s0). eapply laid_lines; eauto. Qed.
  Lemma afresh_onto fin ws ls s ws' ls' b : starts_afresh L fin ws ls s -> starts_afresh L true ws' ls' b ->
    starts_afresh L true ws (ls ++ (false, ws') :: ls') (s ++ nl ++ b).
  Proof.
    intros [o g s0 rest Ho G W B Ig Li] Hb. rewrite <- app_assoc. cbn [app]. eapply afresh; [exact Ho|exact G|apply worded_onto; [exact U|exact W]|exact B| |].
    - intro X. apply Ig. eapply ignored_onto; [eapply (worded_some L U); eassumption|exact X].
    - eapply lined_onto; [exact U|exact Hb|exact Li].
  Qed.

  (** ** The tokens of words *)
  Definition plain_word (w : word) : Prop := snd w <> T_Eol /\ snd w <> T_Indent.
  Lemma lexeme_plain w t : lexeme L w (SpecLexer.tok t) -> is_eol t = false -> t <> T_Eol /\ t <> T_Indent.
  Proof.
    intros H Ht. split; [intros ->; discriminate Ht|]. intros ->. remember (SpecLexer.tok T_Indent) as o eqn:Qo. destruct H; try discriminate Qo;
      try (match goal with H : In _ symbols |- _ => cbn in H; repeat (destruct H as [H|H]; [injection H as <- <-; discriminate Qo|]); destruct H end);
      repeat match goal with x : outcome _ |- _ => destruct x as [[|]|] | x : option _ |- _ => destruct x end; try discriminate Qo; cbn in Qo; try discriminate Qo.
    all: match type of Qo with match ?x with _ => _ end = _ => destruct x; discriminate Qo end.
  Qed.
  Lemma worded_plain ws rest s : worded L ws rest s -> Forall plain_word ws.
  Proof. induction 1; constructor; auto. unfold plain_word. cbn. eapply lexeme_plain; eassumption. Qed.
  Lemma lined_plain fin ls s : lined L fin ls s -> Forall (fun l => Forall plain_word (snd l)) ls.
  Proof. induction 1; constructor; auto. eapply worded_plain. eassumption. Qed.
  Lemma words_tokens_plain ts : (forall t, In t ts -> t <> T_Eol /\ t <> T_Indent) -> forall t, In t (words_tokens ts) -> t <> T_Eol /\ t <> T_Indent.
  Proof.
    induction ts as [|t ts IH]; intros H x; [intros []|]. assert (H' : forall y, In y ts -> y <> T_Eol /\ y <> T_Indent) by (intros y Hy; apply H; right; exact Hy). specialize (IH H' x).
    assert (Z : In x (t :: words_tokens ts) -> x <> T_Eol /\ x <> T_Indent) by (intros [<-|X]; [apply H; left; reflexivity|exact (IH X)]).
    destruct t; try exact Z. cbn [words_tokens]. destruct ts as [|[] ts']; try exact Z. intros [<-|X]; [split; discriminate|exact (IH X)].
  Qed.
  Lemma tokens_plain ws : Forall plain_word ws -> forall t, In t (tokens_of_words ws) -> t <> T_Eol /\ t <> T_Indent.
  Proof.
    intros F. apply words_tokens_plain. intros t Hin. apply in_map_iff in Hin. destruct Hin as (w & <- & Hw). rewrite Forall_forall in F. exact (F _ Hw).
  Qed.
  Lemma words_tokens_some ts : ts <> [] -> words_tokens ts <> [].
  Proof. destruct ts as [|t ts]; [congruence|]. intros _. destruct t; try discriminate. cbn. destruct ts as [|[] ?]; discriminate. Qed.

  Lemma ledger_tokens_ended x ls : ledger_tokens true (x :: ls) = tokens_of_words (snd x) ++ flat_map tokens_of_line ls ++ [T_Eol].
  Proof. destruct ls; reflexivity. Qed.
  Lemma tokens_afresh ws ls : Forall plain_word ws -> ws <> [] -> afresh_next (ledger_tokens true ((false, ws) :: ls)).
  Proof.
    intros F Ne vs. rewrite ledger_tokens_ended. cbn [snd]. pose proof (tokens_plain _ F) as P. unfold tokens_of_words in *.
    destruct (words_tokens (map snd ws)) as [|t ts] eqn:Q; [exfalso; apply (words_tokens_some (map snd ws)); [destruct ws; [congruence|discriminate]|exact Q]|].
    cbn. intro X. injection X as -> _. destruct (P T_Indent (or_introl eq_refl)) as [_ N]. congruence.
  Qed.

  (** An entry: its first line has a date first, and the others are indented. *)
  Lemma eol_in_lines ls : Forall (fun l => Forall plain_word (snd l)) ls -> Forall (fun l => fst l = true) ls ->
    forall us vs, flat_map tokens_of_line ls ++ [T_Eol] = us ++ T_Eol :: vs -> vs = [] \/ exists vs', vs = T_Indent :: vs'.
  Proof.
    assert (Skip : forall ws : list token, (forall t, In t ws -> t <> T_Eol /\ t <> T_Indent) -> forall us vs rest, ws ++ rest = us ++ T_Eol :: vs -> exists us', rest = us' ++ T_Eol :: vs).
    { induction ws as [|w ws IH]; intros P us vs rest Q; [exists us; exact Q|]. destruct us as [|u us]; cbn in Q; injection Q as -> Q.
      - destruct (P T_Eol (or_introl eq_refl)). congruence.
      - eapply IH; [|exact Q]. intros t Ht. apply P. right. exact Ht. }
    intros P In_. induction ls as [|[i ws] ls IH]; intros us vs Q.
    - left. cbn in Q. destruct us as [|u us]; cbn in Q; [injection Q as <-; reflexivity|]. injection Q as _ Q. destruct us; discriminate Q.
    - inversion P as [|? ? P1 P2]; inversion In_ as [|? ? I1 I2]; subst. cbn [fst snd] in *. subst i. cbn [flat_map] in Q. unfold tokens_of_line at 1 in Q. cbn [fst snd app] in Q.
      destruct us as [|u us]; cbn in Q; [injection Q as <-; right; eauto|injection Q as <- Q]. destruct us as [|u us]; cbn in Q; [discriminate Q|injection Q as <- Q]. rewrite <- app_assoc in Q.
      destruct (Skip _ (tokens_plain _ P1) _ _ _ Q) as (us' & Q'). exact (IH P2 I2 us' vs Q').
  Qed.
  Lemma entry_tokens d w ws ls : Forall plain_word ((w, T_Date d) :: ws) -> Forall (fun l => Forall plain_word (snd l)) ls -> Forall (fun l => fst l = true) ls ->
    entry (ledger_tokens true ((false, (w, T_Date d) :: ws) :: ls)).
  Proof.
    intros P Pl In_. rewrite ledger_tokens_ended. cbn [snd]. constructor.
    - exists d. eexists. reflexivity.
    - exists (tokens_of_words ((w, T_Date d) :: ws) ++ flat_map tokens_of_line ls). rewrite <- app_assoc. reflexivity.
    - intros us vs Q. assert (X : exists us', flat_map tokens_of_line ls ++ [T_Eol] = us' ++ T_Eol :: vs).
      { pose proof (tokens_plain _ P) as Pt. revert Pt us Q. generalize (tokens_of_words ((w, T_Date d) :: ws)) as l. induction l as [|x l IH]; intros Pt us Q; [exists us; exact Q|].
        destruct us as [|u us]; cbn in Q; injection Q as -> Q; [destruct (Pt T_Eol (or_introl eq_refl)); congruence|]. eapply IH; [|exact Q]. intros t Ht. apply Pt. right. exact Ht. }
      destruct X as (us' & X). eapply eol_in_lines; eassumption.
  Qed.

  (** ** Pieces of texts *)
  Definition piece (s : str) (us : list token) : Prop := exists ts, lex L s = Fine (Some ts) /\ map fst ts = us.
  Lemma piece_unique s us vs : piece s us -> piece s vs -> us = vs.
  Proof. intros (t & A & <-) (t' & B & <-). congruence. Qed.
  Lemma piece_afresh fin ws ls s : starts_afresh L fin ws ls s -> piece (s ++ nl) (ledger_tokens true ((false, ws) :: ls)) /\
    Forall plain_word ws /\ Forall (fun l => Forall plain_word (snd l)) ls /\ ws <> [].
  Proof.
    intro H. split.
    - exact (C64_tokens L U ND _ _ _ (C67_newline L U _ _ _ (afresh_out _ _ _ _ H))).
    - destruct H as [o g s0 rest Ho G W B Ig Li]. split; [eapply worded_plain; exact W|]. split; [eapply lined_plain; exact Li|]. destruct B as (? & ? & ? & -> & _). discriminate.
  Qed.
  Lemma piece_last ws ls s : starts_afresh L true ws ls s -> piece s (ledger_tokens true ((false, ws) :: ls)).
  Proof. intro H. exact (C64_tokens L U ND _ _ _ (afresh_out _ _ _ _ H)). Qed.
  Lemma piece_set_out fin ls s : set_out L fin ls s -> piece (s ++ nl) (ledger_tokens true ls) /\ ended (ledger_tokens true ls).
  Proof.
    intro H. split; [exact (C64_tokens L U ND _ _ _ (C67_newline L U _ _ _ H))|]. destruct ls as [|l ls]; [left; reflexivity|]. right. rewrite ledger_tokens_ended.
    exists (tokens_of_words (snd l) ++ flat_map tokens_of_line ls). rewrite <- app_assoc. reflexivity.
  Qed.
  Lemma tokens_onto la ws ls : ledger_tokens true (la ++ (false, ws) :: ls) = ledger_tokens true la ++ ledger_tokens true ((false, ws) :: ls).
  Proof.
    destruct la as [|l la]; [reflexivity|]. cbn [app]. rewrite !ledger_tokens_ended. rewrite flat_map_app. cbn [flat_map]. unfold tokens_of_line at 2. cbn [fst snd app]. rewrite <- !app_assoc. cbn [app]. rewrite <- app_assoc. reflexivity.
  Qed.
  Lemma piece_onto fin la a ws ls b : set_out L fin la a -> starts_afresh L true ws ls b -> piece (a ++ nl ++ b) (ledger_tokens true la ++ ledger_tokens true ((false, ws) :: ls)).
  Proof. intros Ha Hb. rewrite <- tokens_onto. exact (C64_tokens L U ND _ _ _ (set_out_onto L U _ _ _ Hb _ _ _ Ha)). Qed.
  Lemma piece_three fin la a fe we le e ws ls b : set_out L fin la a -> starts_afresh L fe we le e -> starts_afresh L true ws ls b ->
    piece (a ++ nl ++ e ++ nl ++ b) (ledger_tokens true la ++ ledger_tokens true ((false, we) :: le) ++ ledger_tokens true ((false, ws) :: ls)).
  Proof. intros Ha He Hb. rewrite <- tokens_onto. apply (piece_onto fin la a we (le ++ (false, ws) :: ls)); [exact Ha|]. eapply afresh_onto; eassumption. Qed.
End Lines.
