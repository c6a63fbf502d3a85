(** * C64: the layout does not matter *)
From Coq Require Import String Ascii.
From Coq Require Import List NArith ZArith Arith Bool Lia Permutation.
From Verif Require Import Base BaseFacts Path SpecPath SpecPragma Sources Types SpecTypes Token SpecOptions LexPost SpecLex LexFacts P_Lex Lexer SpecLexer LexerFacts P_Lexer
  DisplayLex DisplayText DisplayLexed DisplayDump SpecLayout LayoutLex
  Grammar SpecGrammar P_Grammar Read SpecRead Parse SpecParse SpecWhole P_File P_Parse SpecAlike SimWhole P_Layout P_Display.
Import SpecLexer SpecLayout.
Import ListNotations.
Local Open Scope nat_scope.

Section Layout.
  Context (L : lexer_env) (U : unicode_ok (le_unicode L))
          (ND : forall c, u_Nd (le_unicode L) c = true -> u_Lu (le_unicode L) c = false /\ u_Lo (le_unicode L) c = false).

  (** A word with a blank, the end of the line, a comment or the end of the
      text after it is not part of a longer one. *)
  Theorem C64_word : forall w t rest, lexeme L w (tok t) -> is_eol t = false ->
    (rest = [] \/ exists c r, rest = c :: r /\ In c [32; 9; 10; 13; 59]%N) ->
    longest (lexeme L) w rest.
  Proof.
    intros w t rest H Ht R. apply (word_longest' L U w t rest H Ht). intros c r -> Hc. destruct R as [X|(d & q & X & Hd)]; [discriminate|]. injection X as <- <-.
    unfold ink in Hc. cbn in Hd. intuition.
  Qed.

  Lemma worded_clear ws rest s : worded L ws rest s -> Forall (fun t => is_eol t = false) (map snd ws).
  Proof. induction 1; cbn; constructor; auto. Qed.
  Lemma words_clear ws rest s : worded L ws rest s -> begins ws -> clear (tkeyed (map snd ws)).
  Proof.
    intros W (w & t & r & -> & Nt). apply tkeyed_clear; [discriminate| |eapply worded_clear; exact W]. cbn. destruct t; auto.
  Qed.
  Lemma lined_clear fin ls s : lined L fin ls s -> Forall (fun l => clear (tkeyed (map snd (snd l)))) ls.
  Proof. induction 1 as [|g Hg|o g c Hg Hc|fin i ws ls g s rest Hg W B I l IH]; constructor; auto. cbn. eapply words_clear; eassumption. Qed.

  (** The tokens of a text which is set out as lines of words. *)
  Theorem C64_tokens : forall fin ls s, set_out L fin ls s ->
    exists out, lex L s = Fine (Some out) /\ map fst out = ledger_tokens fin ls.
  Proof.
    intros fin ls s H. pose proof (cuts_set_out L U fin ls s H) as X.
    assert (Cl : Forall (fun l => clear (tkeyed (map snd (snd l)))) ls).
    { destruct H as [|fin i ws ls b o g s' rest Hb Hg W B I l]; constructor; [eapply words_clear; eassumption|eapply lined_clear; exact l]. }
    destruct X as [[-> (run & Er & C)]|(i & ws & ls' & run & rs & f & -> & B & Er & C & Mr & Fr & Ff)].
    - destruct (cuts_lexed L U ND s run C) as (keys & Mk & Lx). rewrite tkeyed_eol_only in Mk by exact Er.
      rewrite layout_none in Lx by (rewrite Mk; exact Er). exists []. auto.
    - destruct (cuts_lexed L U ND s _ C) as (keys & Mk & Lx). rewrite tkeyed_eols in Mk by exact Er.
      rewrite tkeyed_app in Mk by (eapply pieces_no_colon; eassumption). rewrite (tkeyed_pieces rs f fin Fr Ff) in Mk.
      inversion Cl as [|? ? C0 Cr]; subst. cbn [snd] in C0.
      destruct (layout_lines_g fin f run (tkeyed (map snd ws)) (map keyed_piece rs) keys (blen s, blen s) C0 Er) as (out & Ho & Mo); [|exact Ff|exact Mk|].
      { apply Forall_map. clear - Fr Mr Cr. revert ls' Mr Cr. induction Fr as [|r rs Hr Fr IH]; intros [|l ls'] Mr Cr; try discriminate; [constructor|].
        cbn in Mr. injection Mr as Ml Mr. inversion Cr; subst. constructor; [|eapply IH; eassumption]. cbn [keyed_piece fst snd]. split; [exact Hr|]. rewrite Ml. cbn. assumption. }
      exists out. rewrite Lx, Ho. split; [reflexivity|]. rewrite Mo. unfold ledger_tokens, tokens_of_words. cbn [snd]. rewrite words_tokens_keyed.
      assert (Q : flat_map laid (map snd (map keyed_piece rs)) = flat_map tokens_of_line ls').
      { clear - Mr. revert ls' Mr. induction rs as [|r rs IH]; intros [|l ls'] Mr; try discriminate; [reflexivity|]. cbn in Mr. injection Mr as Ml Mr. cbn [map flat_map].
        rewrite (IH ls' Mr). f_equal. unfold laid, keyed_piece, tokens_of_line, tokens_of_words. cbn [fst snd]. rewrite Ml, words_tokens_keyed. reflexivity. }
      rewrite Q. destruct rs as [|r rs]; destruct ls' as [|l ls']; try discriminate; reflexivity.
  Qed.

  Lemma same_ledger fin ls ls' : same_lines ls ls' -> ledger_tokens fin ls = ledger_tokens fin ls'.
  Proof.
    destruct ls as [|x ls], ls' as [|y ls']; try contradiction; [reflexivity|]. intros [Q F].
    assert (A : flat_map tokens_of_line ls = flat_map tokens_of_line ls').
    { clear - F. induction F as [|a b l l' [Q W] F IH]; [reflexivity|]. cbn. rewrite IH. unfold tokens_of_line, tokens_of_words. rewrite Q, W. reflexivity. }
    unfold ledger_tokens. rewrite A. unfold tokens_of_words. rewrite Q. destruct F; reflexivity.
  Qed.

  (** Blanks, blank lines, comments, ignored lines, how far lines are indented
      and how they are ended do not change the tokens. *)
  Theorem C64_relaid : forall s s', relaid L s s' -> same_tokens L s s'.
  Proof.
    intros s s' (fin & ls & ls' & H & H' & Q). destruct (C64_tokens _ _ _ H) as (out & Lx & M). destruct (C64_tokens _ _ _ H') as (out' & Lx' & M').
    exists out, out'. split; [exact Lx|]. split; [exact Lx'|]. rewrite M, M'. apply same_ledger. exact Q.
  Qed.

  Section Whole.
    Context (E : grammar_env) (En : environment_ok E).
    Context (glob_with : str -> result (list glob_item) str) (canonicalize : path -> option path).
    Context (canonicalize' : path -> option path) (root : option path).

    (** Lay out each file in another way, and the same is read: the same
        directives, options and plugins, or the same errors. *)
    Theorem C64_whole : forall read read' fuel content content' s,
      same_reading (fun c c' => c = c' \/ relaid L c c') read read' -> relaid L content content' ->
      read_with_includes (includes_of L) glob_with canonicalize read fuel root content = Some s ->
      exists s', read_with_includes (includes_of L) glob_with canonicalize read' fuel root content' = Some s' /\
        alike_outcome (parsed_from L E canonicalize' s) (parsed_from L E canonicalize' s').
    Proof.
      intros read read' fuel content content' s Same Re Rd.
      pose proof (alike_whole L E ltac:(apply En) U glob_with canonicalize canonicalize' root (fun c c' => c = c' \/ relaid L c c')) as H.
      specialize (H ltac:(intros c c' [X|X]; [left; exact X|apply same_tokens_alike, C64_relaid; exact X]) read read' fuel content content' Same (or_intror Re)).
      rewrite Rd in H. destruct (read_with_includes (includes_of L) glob_with canonicalize read' fuel root content') as [s'|]; [|contradiction]. exists s'. tauto.
    Qed.
  End Whole.
End Layout.

(** ** A case: a tag and a key, and the same with blanks, comments and a heading *)

Definition ex_lines : list words_line :=
  [(false, [(lit "pushtag", T_Keyword K_Pushtag); (lit "#a", T_Tag (lit "a"))]);
   (true, [(lit "foo", T_Key (lit "foo")); (lit ":", T_Colon)])].
Definition ex_tight_words : str := lit "pushtag #a" ++ [10%N] ++ lit " foo:" ++ [10%N].
Definition ex_loose_words : str :=
  lit " " ++ [10%N] ++ lit "; start" ++ [13%N; 10%N] ++ lit "* heading" ++ [10%N] ++
  lit "pushtag   #a  ; the tag" ++ [13%N; 10%N; 10%N; 9%N; 10%N] ++ lit "      foo   :" ++ [10%N; 10%N] ++ lit "; end".

Lemma ex_pushtag : lexeme P_Lexer.ex_env (lit "pushtag") (tok (T_Keyword K_Pushtag)).
Proof. exact (lx_keyword _ K_Pushtag). Qed.
Lemma ex_tag : lexeme P_Lexer.ex_env (lit "#a") (tok (T_Tag (lit "a"))).
Proof. apply (lx_tag P_Lexer.ex_env (lit "a")). split; [discriminate|]. constructor; [|constructor]. left. right. left. unfold lower. cbn. lia. Qed.
Lemma ex_foo : lexeme P_Lexer.ex_env (lit "foo") (tok (T_Key (lit "foo"))).
Proof.
  apply lx_key; [|intro k; destruct k; discriminate]. split; [|cbn; lia]. exists (102%N), (lit "oo"). split; [reflexivity|].
  split; [unfold lower; lia|]. repeat (constructor; [right; left; unfold lower; cbn; lia|]). constructor.
Qed.
Lemma ex_colon : lexeme P_Lexer.ex_env (lit ":") (tok T_Colon).
Proof. apply lx_symbol. cbn. intuition. Qed.

Lemma cut_start lx off s items : cut lx off s items -> forall x a b, In (x, (a, b)) items -> off <= a.
Proof.
  induction 1; intros y a b Hin; cbn in Hin; [destruct Hin|specialize (IHcut _ _ _ Hin); lia| |].
  - destruct Hin as [Q|Hin]; [injection Q as _ <- _; lia|specialize (IHcut _ _ _ Hin); lia].
  - destruct Hin as [Q|Hin]; [injection Q as _ <- _; lia|specialize (IHcut _ _ _ Hin); lia].
Qed.
Lemma first_longest L s t n its : unicode_ok (le_unicode L) -> raw_lex L s = Fine (Some ((Ok t, (0, n)) :: its)) ->
  exists w rest, s = w ++ rest /\ blen w = n /\ longest (lexeme L) w rest.
Proof.
  intros U H. pose proof (C30_maximal_munch L U s) as C. rewrite H in C. clear H. inversion C as [|? w rest ? Lg Lx C' Q1 Q2|? w rest ? ? Lg Lx C' Q1 Q2 Q3|]; subst.
  - pose proof (cut_start _ _ _ _ C' _ _ _ (or_introl eq_refl)) as X. destruct Lg as [Nw _]. destruct w as [|c w]; [congruence|]. pose proof (BaseFacts.utf8_len_pos c). cbn in X. lia.
  - exists w, rest. auto.
Qed.
Lemma ex_foo_colon : longest (lexeme P_Lexer.ex_env) (lit "foo") (lit ":" ++ [10%N]).
Proof.
  destruct (raw_lex P_Lexer.ex_env (lit "foo:" ++ [10%N])) as [[items|]|] eqn:R; [|vm_compute in R; discriminate|vm_compute in R; discriminate].
  pose proof R as R'. vm_compute in R'. injection R' as <-. apply first_longest in R; [|exact P_Lexer.arabic_ok].
  destruct R as (w & rest & Q & Bw & Lg).
  destruct w as [|c1 [|c2 [|c3 w]]]; cbn in Q, Bw; [discriminate|injection Q as <- Q; discriminate|injection Q as <- <- Q; discriminate|].
  injection Q as <- <- <- Q. cbn in Bw. injection Bw as Bw. destruct w as [|c w]; [cbn in Q; subst rest; exact Lg|]. pose proof (BaseFacts.utf8_len_pos c). cbn in Bw. lia.
Qed.

Ltac ends := first [left; reflexivity | right; eexists; eexists; split; [reflexivity|cbn; intuition]].
Ltac a_break c e l := exists c, e, l; split; [reflexivity|]; split; [|split].
Lemma ex_break_lf : line_break [10%N].
Proof. exists [], [10%N], []. split; [reflexivity|]. split; [auto|]. split; [left; reflexivity|constructor]. Qed.
Lemma ex_break_comment t e : ~ In 10%N t -> line_end e -> line_break (59%N :: t ++ e).
Proof. intros N He. exists (59%N :: t), e, []. rewrite app_nil_r. split; [reflexivity|]. split; [right; exists t; auto|]. split; [exact He|constructor]. Qed.

Lemma ex_tight_set_out : set_out P_Lexer.ex_env true ex_lines ex_tight_words.
Proof.
  apply (laid_lines _ true false _ _ [] None [] ex_tight_words ([10%N] ++ lit " foo:" ++ [10%N])); [constructor|constructor| | |discriminate|].
  - apply (worded_next P_Lexer.ex_env (lit "pushtag") _ (lit " ") _ _ (lit "#a" ++ [10%N] ++ lit " foo:" ++ [10%N])); [exact ex_pushtag|reflexivity|repeat constructor| |].
    + eapply C64_word; [exact P_Lexer.arabic_ok|exact ex_pushtag|reflexivity|ends].
    + apply (worded_next P_Lexer.ex_env (lit "#a") _ [] _ _ ([10%N] ++ lit " foo:" ++ [10%N])); [exact ex_tag|reflexivity|constructor| |constructor].
      eapply C64_word; [exact P_Lexer.arabic_ok|exact ex_tag|reflexivity|ends].
  - exists (lit "pushtag"), (T_Keyword K_Pushtag). eexists. split; [reflexivity|discriminate].
  - apply (lined_next _ true true _ _ ([10%N] ++ lit " ") (lit "foo:" ++ [10%N]) [10%N]).
    + apply gaps_indent; [exact ex_break_lf|split; [discriminate|repeat constructor]].
    + apply (worded_next P_Lexer.ex_env (lit "foo") _ [] _ _ (lit ":" ++ [10%N])); [exact ex_foo|reflexivity|constructor|exact ex_foo_colon|].
      apply (worded_next P_Lexer.ex_env (lit ":") _ [] _ _ [10%N]); [exact ex_colon|reflexivity|constructor| |constructor].
      eapply C64_word; [exact P_Lexer.arabic_ok|exact ex_colon|reflexivity|ends].
    + exists (lit "foo"), (T_Key (lit "foo")). eexists. split; [reflexivity|discriminate].
    + discriminate.
    + apply lined_eol. apply gaps_eol. exact ex_break_lf.
Qed.
Lemma ex_loose_set_out : set_out P_Lexer.ex_env true ex_lines ex_loose_words.
Proof.
  set (tail := [10%N; 10%N] ++ lit "; end").
  set (second := lit "foo   :" ++ tail).
  set (gap := lit "; the tag" ++ [13%N; 10%N; 10%N; 9%N; 10%N] ++ lit "      ").
  set (first := lit "pushtag   #a  " ++ gap ++ second).
  apply (laid_lines _ true false _ _ (lit " ") (Some false) ([10%N] ++ lit "; start" ++ [13%N; 10%N] ++ lit "* heading" ++ [10%N]) first (gap ++ second));
    [repeat constructor| | | |intros _ (c & r & X & Hc); injection X as <- _; cbn in Hc; intuition discriminate|].
  - apply (gaps_more [10%N] []); [exact ex_break_lf|constructor|]. apply gaps_eol.
    exists (lit "; start"), [13%N; 10%N], [lit "* heading" ++ [10%N]]. split; [reflexivity|]. split; [right; exists (lit " start"); split; [reflexivity|cbn; unfold no_newline; cbn; intuition discriminate]|].
    split; [right; reflexivity|]. constructor; [|constructor]. exists 42%N, (lit " heading"), [10%N]. split; [reflexivity|]. split; [cbn; auto|]. split; [unfold no_newline; cbn; intuition discriminate|left; reflexivity].
  - apply (worded_next P_Lexer.ex_env (lit "pushtag") _ (lit "   ") _ _ (lit "#a  " ++ gap ++ second)); [exact ex_pushtag|reflexivity|repeat constructor| |].
    + eapply C64_word; [exact P_Lexer.arabic_ok|exact ex_pushtag|reflexivity|ends].
    + apply (worded_next P_Lexer.ex_env (lit "#a") _ (lit "  ") _ _ (gap ++ second)); [exact ex_tag|reflexivity|repeat constructor| |constructor].
      eapply C64_word; [exact P_Lexer.arabic_ok|exact ex_tag|reflexivity|ends].
  - exists (lit "pushtag"), (T_Keyword K_Pushtag). eexists. split; [reflexivity|discriminate].
  - apply (lined_next _ true true _ _ gap second tail).
    + apply (gaps_more (lit "; the tag" ++ [13%N; 10%N]) [] true ([10%N; 9%N; 10%N] ++ lit "      ")); [apply (ex_break_comment (lit " the tag")); [cbn; intuition discriminate|right; reflexivity]|constructor|].
      apply (gaps_more [10%N] [9%N] true ([10%N] ++ lit "      ")); [exact ex_break_lf|constructor; [right; reflexivity|constructor]|]. apply gaps_indent; [exact ex_break_lf|split; [discriminate|repeat constructor]].
    + apply (worded_next P_Lexer.ex_env (lit "foo") _ (lit "   ") _ _ (lit ":" ++ tail)); [exact ex_foo|reflexivity|repeat constructor| |].
      * eapply C64_word; [exact P_Lexer.arabic_ok|exact ex_foo|reflexivity|ends].
      * apply (worded_next P_Lexer.ex_env (lit ":") _ [] _ _ tail); [exact ex_colon|reflexivity|constructor| |constructor].
        eapply C64_word; [exact P_Lexer.arabic_ok|exact ex_colon|reflexivity|ends].
    + exists (lit "foo"), (T_Key (lit "foo")). eexists. split; [reflexivity|discriminate].
    + discriminate.
    + apply (lined_comment _ (Some false) [10%N; 10%N] (lit "; end")).
      * apply (gaps_more [10%N] []); [exact ex_break_lf|constructor|]. apply gaps_eol. exact ex_break_lf.
      * exists (lit " end"). split; [reflexivity|]. split; cbn; intuition discriminate.
Qed.
Example C64_ex : relaid P_Lexer.ex_env ex_tight_words ex_loose_words /\
  ledger_tokens true ex_lines = [T_Keyword K_Pushtag; T_Tag (lit "a"); T_Eol; T_Indent; T_Key (lit "foo"); T_Colon; T_Eol].
Proof.
  split; [|reflexivity]. exists true, ex_lines, ex_lines. split; [exact ex_tight_set_out|]. split; [exact ex_loose_set_out|].
  split; [reflexivity|]. repeat constructor.
Qed.

(** ** What does matter *)

Lemma ex_differ a b :
  match ex_parse a with Fine (Some (Success [_] _ [] _)) => match ex_parse b with Fine (Some (Failure _ _)) => True | _ => False end | _ => False end ->
  exists d opts ws es ws', parses P_Lexer.ex_env P_Grammar.ex_env a (Success [d] opts [] ws) /\ parses P_Lexer.ex_env P_Grammar.ex_env b (Failure es ws').
Proof.
  intro H. destruct (ex_parse a) as [[[[|d [|? ?]] opts [|? ?] ws|]|]|] eqn:X; try contradiction.
  destruct (ex_parse b) as [[[|es ws']|]|] eqn:Y; try contradiction. exists d, opts, ws, es, ws'. split; apply ex_parses; assumption.
Qed.

(** A heading is ignored anywhere but on the first line. *)
Theorem C64_first_heading_refuted : exists L E heading s d opts ws es ws',
  unicode_ok (le_unicode L) /\ environment_ok E /\ ignored_line heading /\
  parses L E ([10%N] ++ heading ++ s) (Success [d] opts [] ws) /\ parses L E (heading ++ s) (Failure es ws').
Proof.
  destruct (ex_differ ([10%N] ++ (lit "* Accounts" ++ [10%N]) ++ lit "2024-01-01 open Assets:Cash" ++ [10%N]) ((lit "* Accounts" ++ [10%N]) ++ lit "2024-01-01 open Assets:Cash" ++ [10%N]))
    as (d & opts & ws & es & ws' & X & Y); [vm_compute; exact I|].
  exists P_Lexer.ex_env, P_Grammar.ex_env, (lit "* Accounts" ++ [10%N]), (lit "2024-01-01 open Assets:Cash" ++ [10%N]), d, opts, ws, es, ws'.
  split; [exact P_Lexer.arabic_ok|]. split; [exact P_File.ex_environment|]. split; [|split; assumption].
  exists 42%N, (lit " Accounts"), [10%N]. split; [reflexivity|]. split; [cbn; auto|]. split; [unfold no_newline; cbn; intuition discriminate|left; reflexivity].
Qed.

(** Blanks at the end of the text, after the last end of line, are an error. *)
Theorem C64_last_blanks_refuted : exists L E s b d opts ws es ws',
  unicode_ok (le_unicode L) /\ environment_ok E /\ blanks b /\
  parses L E (s ++ [10%N]) (Success [d] opts [] ws) /\ parses L E (s ++ [10%N] ++ b) (Failure es ws').
Proof.
  destruct (ex_differ (lit "2024-01-01 open Assets:Cash" ++ [10%N]) (lit "2024-01-01 open Assets:Cash" ++ [10%N] ++ lit "  "))
    as (d & opts & ws & es & ws' & X & Y); [vm_compute; exact I|].
  exists P_Lexer.ex_env, P_Grammar.ex_env, (lit "2024-01-01 open Assets:Cash"), (lit "  "), d, opts, ws, es, ws'.
  split; [exact P_Lexer.arabic_ok|]. split; [exact P_File.ex_environment|].
  split; [split; [discriminate|repeat constructor]|split; assumption].
Qed.

Print Assumptions C64_word.
Print Assumptions C64_tokens.
Print Assumptions C64_relaid.
Print Assumptions C64_whole.
Print Assumptions C64_first_heading_refuted.
Print Assumptions C64_last_blanks_refuted.
