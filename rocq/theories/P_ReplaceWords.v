(** * C84 and C85 for texts laid out as words on lines *)
From Coq Require Import String Ascii.
From Coq Require Import List NArith ZArith Arith Bool Lia.
From Verif Require Import Base BaseFacts Path Sources Types SpecTypes TypesFacts P_Types Options Token SpecLex Lexer SpecLexer P_Lexer
  Grammar SpecGrammar P_Grammar Read Parse SpecParse SpecWhole P_File SpecLayout P_Words SpecRename SpecNames ReplaceWords P_NamesFiles P_RenameFiles.
Import SpecLexer SpecLayout.
Import ListNotations.
Local Open Scope nat_scope.

Section Words.
  Context (L : lexer_env) (U : unicode_ok (le_unicode L))
          (ND : forall c, u_Nd (le_unicode L) c = true -> u_Lu (le_unicode L) c = false /\ u_Lo (le_unicode L) c = false).

  (** Where the words of a text which are accounts are replaced by the renamed ones,
      and what is between the words by any other, the accounts are renamed. *)
  Theorem C85_words : forall rename fin ls ls' s s', set_out L fin ls s -> set_out L fin ls' s' -> lines_by (rename_token rename) ls ls' ->
    reaccounted rename L s s'.
  Proof.
    intros rn fin ls ls' s s' H H' B. destruct (C64_tokens L U ND _ _ _ H) as (ts & Lx & M). destruct (C64_tokens L U ND _ _ _ H') as (ts' & Lx' & M').
    exists ts, ts'. split; [exact Lx|]. split; [exact Lx'|]. rewrite M, M'. apply ledger_tokens_by; auto.
    intro t. destruct t; eauto; right; right; repeat split; try intro; discriminate.
  Qed.
  (** Likewise for names, dates and strings. A key which is a keyword is not to be
      changed. *)
  Theorem C84_words : forall n fin ls ls' s s', set_out L fin ls s -> set_out L fin ls' s' -> lines_by (name_token n) ls ls' ->
    (forall k, on_key n (keyword_text k) = keyword_text k) ->
    keeps_options (on_string n) (ledger_tokens fin ls) -> keeps_includes (on_string n) (ledger_tokens fin ls) -> renamed L n s s'.
  Proof.
    intros n fin ls ls' s s' H H' B Kk Ko Ki. destruct (C64_tokens L U ND _ _ _ H) as (ts & Lx & M). destruct (C64_tokens L U ND _ _ _ H') as (ts' & Lx' & M').
    exists ts, ts'. split; [exact Lx|]. split; [exact Lx'|]. rewrite M, M'. split; [|auto]. apply ledger_tokens_by; auto.
    - intro t. destruct t; eauto; right; right; repeat split; try intro; discriminate.
    - intro k. cbn. rewrite Kk. reflexivity.
  Qed.
End Words.

(** ** A case: an account is closed, and the same with it renamed *)
Definition ex_close (a : str) : list words_line := [(false, [(lit "2024-01-02", T_Date (mk_date 2024 1 2)); (lit "close", T_Keyword K_Close); (a, T_Account a)])].
Lemma ex_close_set_out a b : account_text P_Lexer.ex_env a -> Forall is_blank b -> set_out P_Lexer.ex_env true (ex_close a) (lit "2024-01-02 close " ++ b ++ a ++ [10%N]).
Proof.
  intros Ha Hb.
  assert (D : lexeme P_Lexer.ex_env (lit "2024-01-02") (tok (T_Date (mk_date 2024 1 2)))).
  { apply (lx_date P_Lexer.ex_env (lit "2024") 45%N (lit "01") 45%N (lit "02") (Fine (Ok (mk_date 2024 1 2)))); auto; try (split; [reflexivity|repeat constructor]).
    apply (dr_ok (lit "2024") (lit "01") (lit "02")); try (repeat constructor; unfold digit; cbn; lia). exists 31%N. split; [apply m31; cbn; auto|cbn; lia]. }
  assert (K : lexeme P_Lexer.ex_env (lit "close") (tok (T_Keyword K_Close))) by exact (lx_keyword _ K_Close).
  assert (A : lexeme P_Lexer.ex_env a (tok (T_Account a))) by (apply lx_account; exact Ha).
  assert (Fs : is_blank 32%N) by (left; reflexivity).
  apply (laid_lines _ true false _ _ [] None [] _ [10%N]); [constructor|constructor| | |discriminate|].
  - apply (worded_next P_Lexer.ex_env (lit "2024-01-02") _ (lit " ") _ _ (lit "close" ++ ([32%N] ++ b) ++ a ++ [] ++ [10%N])); [exact D|reflexivity|repeat constructor; exact Fs|eapply C64_word; [exact P_Lexer.arabic_ok|exact D|reflexivity|ends]|].
    apply (worded_next P_Lexer.ex_env (lit "close") _ ([32%N] ++ b)); [exact K|reflexivity|constructor; [exact Fs|exact Hb]|eapply C64_word; [exact P_Lexer.arabic_ok|exact K|reflexivity|ends]|].
    apply (worded_next P_Lexer.ex_env a _ []); [exact A|reflexivity|constructor|eapply C64_word; [exact P_Lexer.arabic_ok|exact A|reflexivity|ends]|constructor].
  - eexists _, _, _. split; [reflexivity|discriminate].
  - apply lined_eol. apply gaps_eol. exact ex_break_lf.
Qed.
Lemma ex_assets w : w = lit "Cash" \/ w = lit "Bank" -> account_text P_Lexer.ex_env (lit "Assets:" ++ w).
Proof.
  intro H. exists (lit "Assets"), w, []. destruct H as [->| ->]; (split; [reflexivity|]); split; [|constructor; [|constructor]| |constructor; [|constructor]];
    (eexists _, _; split; [reflexivity|]; split; [auto|]; repeat (constructor; [cbv; auto|]); constructor).
Qed.
Definition ex_cash_bank (a : str) : str := if list_eq_dec N.eq_dec a (lit "Assets:Cash") then lit "Assets:Bank" else a.
Example C85_words_ex : reaccounted ex_cash_bank P_Lexer.ex_env (lit "2024-01-02 close Assets:Cash" ++ [10%N]) (lit "2024-01-02 close   Assets:Bank" ++ [10%N]).
Proof.
  apply (C85_words P_Lexer.ex_env P_Lexer.arabic_ok P_Lexer.arabic_disjoint ex_cash_bank true (ex_close (lit "Assets:Cash")) (ex_close (lit "Assets:Bank"))).
  - exact (ex_close_set_out (lit "Assets:Cash") [] (ex_assets _ (or_introl eq_refl)) (Forall_nil _)).
  - apply (ex_close_set_out (lit "Assets:Bank") (lit "  ")); [exact (ex_assets _ (or_intror eq_refl))|repeat constructor].
  - repeat constructor.
Qed.

(** ** A case: a tag is pushed, and the same with it renamed *)
Definition ex_push (t : str) : list words_line := [(false, [(lit "pushtag", T_Keyword K_Pushtag); (35%N :: t, T_Tag t)])].
Lemma ex_push_set_out t b : label t -> Forall is_blank b -> set_out P_Lexer.ex_env true (ex_push t) (lit "pushtag " ++ b ++ (35%N :: t) ++ [10%N]).
Proof.
  intros Ht Hb. assert (A : lexeme P_Lexer.ex_env (35%N :: t) (tok (T_Tag t))) by (apply lx_tag; exact Ht).
  apply (laid_lines _ true false _ _ [] None [] _ [10%N]); [constructor|constructor| | |discriminate|].
  - apply (worded_next P_Lexer.ex_env (lit "pushtag") _ ([32%N] ++ b) _ _ ((35%N :: t) ++ [] ++ [10%N])); [exact ex_pushtag|reflexivity|constructor; [left; reflexivity|exact Hb]|eapply C64_word; [exact P_Lexer.arabic_ok|exact ex_pushtag|reflexivity|ends]|].
    apply (worded_next P_Lexer.ex_env (35%N :: t) _ []); [exact A|reflexivity|constructor|eapply C64_word; [exact P_Lexer.arabic_ok|exact A|reflexivity|ends]|constructor].
  - eexists _, _, _. split; [reflexivity|discriminate].
  - apply lined_eol. apply gaps_eol. exact ex_break_lf.
Qed.
Definition ex_dotted : naming := mk_naming (fun s => s) (fun s => s ++ lit "-2024") (fun s => s) (fun s => s) (fun d => d) (fun s => s).
Example C84_words_ex : renamed P_Lexer.ex_env ex_dotted (lit "pushtag #trip" ++ [10%N]) (lit "pushtag  #trip-2024" ++ [10%N]).
Proof.
  assert (Lb : forall t, t = lit "trip" \/ t = lit "trip-2024" -> label t).
  { intros t [->| ->]; (split; [discriminate|]); repeat (constructor; [cbv; intuition discriminate|]); constructor. }
  apply (C84_words P_Lexer.ex_env P_Lexer.arabic_ok P_Lexer.arabic_disjoint ex_dotted true (ex_push (lit "trip")) (ex_push (lit "trip-2024"))).
  - exact (ex_push_set_out (lit "trip") [] (Lb _ (or_introl eq_refl)) (Forall_nil _)).
  - apply (ex_push_set_out (lit "trip-2024") (lit " ")); [exact (Lb _ (or_intror eq_refl))|repeat constructor].
  - repeat constructor.
  - reflexivity.
  - unfold keeps_options. cbn. auto.
  - unfold keeps_includes. cbn. auto.
Qed.

Print Assumptions C84_words.
Print Assumptions C85_words.
