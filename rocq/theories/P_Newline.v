(** * C67: the end of the last line does not matter *)
From Coq Require Import String Ascii.
From Coq Require Import List NArith ZArith Arith Bool Lia Permutation.
From Verif Require Import Base BaseFacts Path SpecPath SpecPragma Sources Types SpecTypes Token SpecOptions LexPost SpecLex LexFacts P_Lex Lexer SpecLexer LexerFacts P_Lexer
  DisplayLex DisplayText DisplayLexed DisplayDump SpecLayout LayoutLex
  Grammar SpecGrammar P_Grammar Read SpecRead Parse SpecParse SpecWhole P_File P_Parse SpecAlike SimWhole P_Layout P_Words P_Display.
Import SpecLexer SpecLayout.
Import ListNotations.
Local Open Scope nat_scope.

Section Newline.
  Context (L : lexer_env) (U : unicode_ok (le_unicode L))
          (ND : forall c, u_Nd (le_unicode L) c = true -> u_Lu (le_unicode L) c = false /\ u_Lo (le_unicode L) c = false).

  (** ** Ending the text *)
  Lemma word_head w t : lexeme L w (tok t) -> is_eol t = false -> exists c r, w = c :: r /\ ink c.
  Proof.
    intros H Ht. destruct (lexeme_kinds L U _ _ H) as [[Nw F]|[(b & -> & _)|[[_ Y]|[(x & b & _ & _ & _ & Y)|[_ Y]]]]]; try discriminate.
    - destruct w as [|c r]; [congruence|]. inversion F; subst. eauto.
    - exists 34%N, (b ++ [34%N]). split; [reflexivity|]. apply ink_range. lia.
    - injection Y as ->. destruct b; discriminate.
    - injection Y as ->. discriminate.
  Qed.
  Lemma longest_newline w t rest : lexeme L w (tok t) -> is_eol t = false -> longest (lexeme L) w rest -> longest (lexeme L) w (rest ++ [10%N]).
  Proof.
    intros H Ht (Nw & Is & Lo). split; [exact Nw|]. split; [exact Is|]. intros u v Q Nu (o & Lx).
    destruct v as [|z0 v0].
    - rewrite app_nil_r in Q. subst u. destruct (word_head _ _ H Ht) as (c & r & -> & Hc).
      destruct (lexeme_kinds L U _ _ Lx) as [[_ F]|[(b & Qb & _)|[[[_ F] _]|[(x & b & Hx & _ & Qx & _)|[(q & Qq & _) _]]]]].
      + apply Forall_app in F. destruct F as [_ F]. apply Forall_app in F. destruct F as [_ F]. inversion F as [|? ? X _]; subst. unfold ink in X. tauto.
      + rewrite app_assoc, app_comm_cons in Qb. apply app_inj_tail in Qb. destruct Qb. discriminate.
      + cbn in F. inversion F as [|? ? B _]; subst. destruct B as [->| ->]; unfold ink in Hc; tauto.
      + destruct (break_first x Hx) as (c' & r' & -> & Hc'). cbn in Qx. injection Qx as -> _. unfold ink in Hc. intuition congruence.
      + cbn in Qq. injection Qq as -> _. unfold ink in Hc. tauto.
    - destruct (exists_last (l := z0 :: v0)) as (v' & z & Ev); [discriminate|]. rewrite Ev, app_assoc in Q. apply app_inj_tail in Q. destruct Q as [Q _].
      exact (Lo u v' Q Nu (ex_intro _ o Lx)).
  Qed.
  Lemma worded_newline ws rest s : worded L ws rest s -> worded L ws (rest ++ [10%N]) (s ++ [10%N]).
  Proof.
    induction 1 as [rest|w t b ws rest s H Ht Hb Lo W IH]; [constructor|]. rewrite <- !app_assoc. constructor; auto. rewrite app_assoc. eapply longest_newline; eassumption.
  Qed.
  Lemma newline_break : line_break [10%N].
  Proof. exists [], [10%N], []. split; [reflexivity|]. split; [auto|]. split; [left; reflexivity|constructor]. Qed.
  Lemma comment_break c : last_comment c -> line_break (c ++ [10%N]).
  Proof. intros (t & -> & Nt & _). exists (59%N :: t), [10%N], []. split; [cbn; reflexivity|]. split; [right; exists t; auto|]. split; [left; reflexivity|constructor]. Qed.
  Lemma gaps_break o g e : gaps o g -> line_break e -> gaps (Some false) (g ++ e).
  Proof.
    intros G He. induction G as [|e' He'|e' b He' [_ Hb]|e' b i g He' Hb G IH].
    - apply gaps_eol. exact He.
    - apply (gaps_more e' [] false e); auto. apply gaps_eol. exact He.
    - rewrite <- app_assoc. apply gaps_more; auto. apply gaps_eol. exact He.
    - rewrite <- !app_assoc. apply gaps_more; auto.
  Qed.
  Lemma ignored_newline s : s <> [] -> ignored_start (s ++ [10%N]) -> ignored_start s.
  Proof. intros Ns (c & r & Q & Hc). destruct s as [|d s]; [congruence|]. cbn in Q. injection Q as -> _. exists c, s. auto. Qed.
  Lemma worded_some ws rest s : worded L ws rest s -> begins ws -> s <> [].
  Proof.
    intros W (w & t & r & -> & _). inversion W as [|? ? b ? ? s' H Ht Hb Lo W']; subst. destruct (word_head _ _ H Ht) as (c & q & -> & _). discriminate.
  Qed.
  Lemma lined_newline fin ls s : lined L fin ls s -> lined L true ls (s ++ [10%N]).
  Proof.
    induction 1 as [|g G|o g c G Hc|fin i ws ls g s rest G W B Ig Li IH].
    - apply lined_eol. apply gaps_eol. exact newline_break.
    - apply lined_eol. eapply gaps_break; [exact G|exact newline_break].
    - rewrite <- app_assoc. apply lined_eol. eapply gaps_break; [exact G|apply comment_break; exact Hc].
    - rewrite <- app_assoc. eapply lined_next; [exact G|apply worded_newline; exact W|exact B| |exact IH].
      intros Qi X. apply (Ig Qi). apply ignored_newline; [eapply worded_some; eassumption|exact X].
  Qed.

  (** Put a newline at the end of a text which is set out as lines of words,
      and it has the same lines. *)
  Theorem C67_newline : forall fin ls s, set_out L fin ls s -> set_out L true ls (s ++ [10%N]).
  Proof.
    intros fin ls s H. destruct H as [fin b o g c Hb G Hc|fin i ws ls b o g s rest Hb G W B Ig Li].
    - rewrite <- !app_assoc. replace (b ++ g ++ c ++ [10%N]) with (b ++ (g ++ c ++ [10%N]) ++ []) by (rewrite app_nil_r; reflexivity).
      eapply laid_nothing; [exact Hb| |left; reflexivity]. eapply gaps_break; [exact G|]. destruct Hc as [->|Hc]; [exact newline_break|apply comment_break; exact Hc].
    - rewrite <- !app_assoc. eapply laid_lines; [exact Hb|exact G|apply worded_newline; exact W|exact B| |eapply lined_newline; exact Li].
      intros Qi X. apply (Ig Qi). apply ignored_newline; [eapply worded_some; eassumption|exact X].
  Qed.

  (** ** The tokens *)
  Lemma words_tokens_last l : l <> [] -> Forall (fun t => is_eol t = false) l -> exists us t, words_tokens l = us ++ [t] /\ t <> T_Eol.
  Proof.
    induction l as [|a l IH]; intros Nl F; [congruence|]. inversion F as [|? ? Ha F']; subst. destruct l as [|b l].
    - exists [], a. split; [destruct a; reflexivity|]. intros ->. discriminate.
    - destruct (IH ltac:(discriminate) F') as (us & t & Q & Nt).
      assert (X : exists a', words_tokens (a :: b :: l) = a' :: words_tokens (b :: l)) by (destruct a; try (eexists; reflexivity); destruct b; eexists; reflexivity).
      destruct X as (a' & ->). exists (a' :: us), t. rewrite Q. auto.
  Qed.
  Definition wordy (l : words_line) : Prop := snd l <> [] /\ Forall (fun t => is_eol t = false) (map snd (snd l)).
  Lemma worded_wordy i ws rest s : worded L ws rest s -> begins ws -> wordy (i, ws).
  Proof.
    intros W (w & t & r & -> & _). split; [discriminate|]. cbn [snd]. clear -W. remember ((w, t) :: r) as ws. clear Heqws. induction W; cbn; constructor; auto.
  Qed.
  Lemma lined_wordy fin ls s : lined L fin ls s -> Forall wordy ls.
  Proof. induction 1 as [|g G|o g c G Hc|fin i ws ls g s rest G W B Ig Li IH]; constructor; auto. eapply worded_wordy; eassumption. Qed.
  Lemma set_out_wordy fin ls s : set_out L fin ls s -> Forall wordy ls.
  Proof. destruct 1 as [|fin i ws ls b o g s rest Hb G W B Ig Li]; constructor; [eapply worded_wordy; eassumption|eapply lined_wordy; eassumption]. Qed.
  Lemma ledger_ended ls : Forall wordy ls -> ledger_tokens false ls = ledger_tokens true ls \/
    exists us t, t <> T_Eol /\ ledger_tokens false ls = us ++ [t] /\ ledger_tokens true ls = us ++ [t; T_Eol].
  Proof.
    intro F. destruct ls as [|l [|m ls]]; [left; reflexivity|left; reflexivity|right]. unfold ledger_tokens. inversion F as [|? ? _ F']; subst.
    assert (Ne : m :: ls <> []) by discriminate. destruct (exists_last Ne) as (ms & z & Q). rewrite Q in *. apply Forall_app in F'. destruct F' as [_ F']. inversion F' as [|? ? [Nz Fz] _]; subst.
    destruct (words_tokens_last (map snd (snd z))) as (us & t & Qt & Nt); [destruct (snd z); [congruence|discriminate]|exact Fz|].
    exists (tokens_of_words (snd l) ++ flat_map tokens_of_line ms ++ (if fst z then [T_Eol; T_Indent] else [T_Eol]) ++ us), t. split; [exact Nt|].
    assert (Ez : tokens_of_line z = (if fst z then [T_Eol; T_Indent] else [T_Eol]) ++ us ++ [t]) by (unfold tokens_of_line, tokens_of_words; rewrite Qt; reflexivity).
    rewrite flat_map_app. cbn [flat_map]. rewrite Ez, !app_nil_r, <- !app_assoc. auto.
  Qed.
  Lemma same_lines_fin fin fin' ls ls' : Forall wordy ls -> same_lines ls ls' -> same_but_end (ledger_tokens fin ls) (ledger_tokens fin' ls').
  Proof.
    intros F Q. rewrite <- (same_ledger fin' _ _ Q). destruct (ledger_ended ls F) as [X|(us & t & Nt & X & Y)].
    - destruct fin, fin'; try rewrite X; constructor.
    - destruct fin, fin'; try rewrite X; try rewrite Y; constructor; exact Nt.
  Qed.

  (** Texts with the same words on the same lines have the same tokens but for
      an end of line at the end. *)
  Theorem C67_tokens : forall s s', relaid_but_end L s s' -> alike_text L s s'.
  Proof.
    intros s s' (fin & fin' & ls & ls' & H & H' & Q). destruct (C64_tokens L U ND _ _ _ H) as (out & Lx & M). destruct (C64_tokens L U ND _ _ _ H') as (out' & Lx' & M').
    right. exists out, out'. split; [exact Lx|]. split; [exact Lx'|]. rewrite M, M'. apply same_lines_fin; [eapply set_out_wordy; exact H|exact Q].
  Qed.

  Section Whole.
    Context (E : grammar_env) (En : environment_ok E).
    Context (glob_with : str -> result (list glob_item) str) (canonicalize : path -> option path).
    Context (canonicalize' : path -> option path) (root : option path).

    (** An end of line at the end of the tokens of a file makes no difference
        to anything that is read, nor to any error. *)
    Theorem C67_parse : forall read read' fuel content content' s,
      same_reading (alike_text L) read read' -> alike_text L content content' ->
      read_with_includes (includes_of L) glob_with canonicalize read fuel root content = Some s ->
      exists s', read_with_includes (includes_of L) glob_with canonicalize read' fuel root content' = Some s' /\
        same_sources (alike_text L) s s' /\ alike_outcome (parsed_from L E canonicalize' s) (parsed_from L E canonicalize' s').
    Proof.
      intros read read' fuel content content' s Same Tc Rd.
      pose proof (alike_whole L E ltac:(apply En) U glob_with canonicalize canonicalize' root (alike_text L) (fun _ _ H => H) read read' fuel content content' Same Tc) as H.
      rewrite Rd in H. destruct (read_with_includes (includes_of L) glob_with canonicalize read' fuel root content') as [s'|]; [|contradiction]. exists s'. tauto.
    Qed.
    (** Lay out each file in another way, ending its last line or not, and the
        same is read. *)
    Theorem C67_whole : forall read read' fuel content content' s,
      same_reading (fun c c' => c = c' \/ relaid_but_end L c c') read read' -> relaid_but_end L content content' ->
      read_with_includes (includes_of L) glob_with canonicalize read fuel root content = Some s ->
      exists s', read_with_includes (includes_of L) glob_with canonicalize read' fuel root content' = Some s' /\
        alike_outcome (parsed_from L E canonicalize' s) (parsed_from L E canonicalize' s').
    Proof.
      intros read read' fuel content content' s Same Tc Rd. destruct (C67_parse read read' fuel content content' s) as (s' & A & _ & B); auto; [|apply C67_tokens; exact Tc|eauto].
      intro p. specialize (Same p). destruct (read p), (read' p); auto. destruct Same as [X|X]; [left; exact X|apply C67_tokens; exact X].
    Qed.
    (** Put a newline at the end of any of the files. *)
    Theorem C67_whole_newline : forall read read' fuel content content' s,
      let newline_put c c' := c = c' \/ (c' = c ++ [10%N] /\ exists fin ls, set_out L fin ls c) in
      same_reading newline_put read read' -> newline_put content content' ->
      read_with_includes (includes_of L) glob_with canonicalize read fuel root content = Some s ->
      exists s', read_with_includes (includes_of L) glob_with canonicalize read' fuel root content' = Some s' /\
        alike_outcome (parsed_from L E canonicalize' s) (parsed_from L E canonicalize' s').
    Proof.
      intros read read' fuel content content' s newline_put Same Tc Rd.
      assert (H : forall c c', newline_put c c' -> alike_text L c c').
      { intros c c' [X|(-> & fin & ls & X)]; [left; exact X|]. apply C67_tokens. exists fin, true, ls, ls. split; [exact X|]. split; [eapply C67_newline; exact X|].
        destruct ls; cbn; [exact Logic.I|]. split; [reflexivity|]. clear. induction ls; constructor; auto. split; reflexivity. }
      destruct (C67_parse read read' fuel content content' s) as (s' & A & _ & B); auto; [|eauto]. intro p. specialize (Same p). destruct (read p), (read' p); auto.
    Qed.
  End Whole.
End Newline.

(** ** A case: the text of C64 without its last newline *)
Definition ex_open_words : str := lit "pushtag #a" ++ [10%N] ++ lit " foo:".

Lemma ex_foo_colon_end : longest (lexeme P_Lexer.ex_env) (lit "foo") (lit ":").
Proof.
  destruct ex_foo_colon as (Nw & Is & Lo). split; [exact Nw|]. split; [exact Is|]. intros u v Q. apply (Lo u (v ++ [10%N])). rewrite Q, app_assoc. reflexivity.
Qed.
Lemma ex_open_set_out : set_out P_Lexer.ex_env false ex_lines ex_open_words.
Proof.
  apply (laid_lines _ false false _ _ [] None [] ex_open_words ([10%N] ++ lit " foo:")); [constructor|constructor| | |discriminate|].
  - apply (worded_next P_Lexer.ex_env (lit "pushtag") _ (lit " ") _ _ (lit "#a" ++ [10%N] ++ lit " foo:")); [exact ex_pushtag|reflexivity|repeat constructor| |].
    + eapply C64_word; [exact P_Lexer.arabic_ok|exact ex_pushtag|reflexivity|ends].
    + apply (worded_next P_Lexer.ex_env (lit "#a") _ [] _ _ ([10%N] ++ lit " foo:")); [exact ex_tag|reflexivity|constructor| |constructor].
      eapply C64_word; [exact P_Lexer.arabic_ok|exact ex_tag|reflexivity|ends].
  - exists (lit "pushtag"), (T_Keyword K_Pushtag). eexists. split; [reflexivity|discriminate].
  - apply (lined_next _ false true _ _ ([10%N] ++ lit " ") (lit "foo:") []).
    + apply gaps_indent; [exact ex_break_lf|split; [discriminate|repeat constructor]].
    + apply (worded_next P_Lexer.ex_env (lit "foo") _ [] _ _ (lit ":")); [exact ex_foo|reflexivity|constructor|exact ex_foo_colon_end|].
      apply (worded_next P_Lexer.ex_env (lit ":") _ [] _ _ []); [exact ex_colon|reflexivity|constructor| |constructor].
      eapply C64_word; [exact P_Lexer.arabic_ok|exact ex_colon|reflexivity|ends].
    + exists (lit "foo"), (T_Key (lit "foo")). eexists. split; [reflexivity|discriminate].
    + discriminate.
    + apply lined_end.
Qed.
Example C67_ex : set_out P_Lexer.ex_env false ex_lines ex_open_words /\ ex_open_words ++ [10%N] = ex_tight_words /\
  ledger_tokens true ex_lines = ledger_tokens false ex_lines ++ [T_Eol] /\ relaid_but_end P_Lexer.ex_env ex_open_words ex_loose_words.
Proof.
  split; [exact ex_open_set_out|]. split; [reflexivity|]. split; [reflexivity|]. exists false, true, ex_lines, ex_lines.
  split; [exact ex_open_set_out|]. split; [exact ex_loose_set_out|]. split; [reflexivity|]. repeat constructor.
Qed.

(** ** Where a newline at the end does matter *)

(** A text which ends with blanks on a line of their own is not laid out as
    lines of words.  It is an error, which a newline puts right. *)
Theorem C67_blank_end_refuted : exists L E s es ws d opts ws',
  unicode_ok (le_unicode L) /\ environment_ok E /\
  parses L E s (Failure es ws) /\ parses L E (s ++ [10%N]) (Success [d] opts [] ws').
Proof.
  destruct (ex_differ ((lit "2024-01-01 open Assets:Cash" ++ [10%N] ++ lit "  ") ++ [10%N]) (lit "2024-01-01 open Assets:Cash" ++ [10%N] ++ lit "  "))
    as (d & opts & ws & es & ws' & X & Y); [vm_compute; exact Logic.I|].
  exists P_Lexer.ex_env, P_Grammar.ex_env, (lit "2024-01-01 open Assets:Cash" ++ [10%N] ++ lit "  "), es, ws', d, opts, ws.
  split; [exact P_Lexer.arabic_ok|]. split; [exact P_File.ex_environment|]. split; assumption.
Qed.

Print Assumptions C67_newline.
Print Assumptions C67_tokens.
Print Assumptions C67_parse.
Print Assumptions C67_whole.
Print Assumptions C67_whole_newline.
Print Assumptions C67_blank_end_refuted.
