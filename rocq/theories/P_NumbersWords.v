(** * C86 for texts laid out as words on lines *)
From Coq Require Import String Ascii.
From Coq Require Import List NArith ZArith Arith Bool Lia Permutation.
From Verif Require Import Base BaseFacts Path Sources Types SpecTypes TypesFacts P_Types Options SpecOptions Token SpecLex Lexer SpecLexer P_Lexer
  Grammar SpecGrammar SpecDisplay SpecLedger SpecAlike P_Grammar Pragma SpecPragma Read SpecRead Parse SpecParse SpecWhole P_Parse P_File SpecAppend P_Append SpecLayout P_Words SpecRename ReplaceWords SpecNumbers P_Numbers.
Import SpecLexer SpecLayout Read.
Import ListNotations.
Local Open Scope nat_scope.

Section Words.
  Context (L : lexer_env) (E : grammar_env) (En : environment_ok E) (U : unicode_ok (le_unicode L))
          (ND : forall c, u_Nd (le_unicode L) c = true -> u_Lu (le_unicode L) c = false /\ u_Lo (le_unicode L) c = false).
  Context (canonicalize : path -> option path) (root : option path).
  Context (Cano : forall p q c d, same_path p q -> canonicalize p = Some c -> canonicalize q = Some d -> same_path c d).
  Context (Root : forall p, root = Some p -> canonicalize p <> None).

  (** Where the words of a text which are numbers are replaced by others, and what is
      between the words by anything else which may be there, what comes out is the
      same with the other numbers. *)
  Theorem C86_words : forall nu fin ls ls' s s' ds opts ps ws,
    set_out L fin ls s -> set_out L fin ls' s' -> lines_by (number_token nu) ls ls' ->
    numbers_alone (ledger_tokens fin ls) -> without K_Include (ledger_tokens fin ls) -> fine_content L E 0 s ->
    ledger_is L E canonicalize root s (Success ds opts ps ws) ->
    exists ds' opts' ps' ws', ledger_is L E canonicalize root s' (Success ds' opts' ps' ws') /\
      Forall2 (fun d d' => alike (number_directive (g_ops E) nu (item d)) (item d')) ds ds' /\
      alike_options opts opts' /\ Forall2 alike_plugin ps ps' /\ Permutation (map rp_problem ws) (map rp_problem ws').
  Proof.
    intros nu fin ls ls' s s' ds opts ps ws H H' B Al Ni Fc Su. destruct (C64_tokens L U ND _ _ _ H) as (ts & Lx & M). destruct (C64_tokens L U ND _ _ _ H') as (ts' & Lx' & M').
    apply (C86_alone L E En U canonicalize root Cano Root nu s s' ts ts'); auto; rewrite M; auto. rewrite M'. apply ledger_tokens_by; auto.
    intro t. destruct t; eauto; right; right; repeat split; try intro; discriminate.
  Qed.

  (** And in any file of several. *)
  Theorem C87_words : forall nu fin ls ls' s s', set_out L fin ls s -> set_out L fin ls' s' -> lines_by (number_token nu) ls ls' ->
    numbers_alone (ledger_tokens fin ls) -> renumbered E nu L s s'.
  Proof.
    intros nu fin ls ls' s s' H H' B Al. destruct (C64_tokens L U ND _ _ _ H) as (ts & Lx & M). destruct (C64_tokens L U ND _ _ _ H') as (ts' & Lx' & M').
    rewrite <- M in Al. assert (Q : map fst ts' = map (number_token nu) (map fst ts)).
    { rewrite M, M'. apply ledger_tokens_by; auto. intro t. destruct t; eauto; right; right; repeat split; try intro; discriminate. }
    exists ts, ts'. split; [exact Lx|]. split; [exact Lx'|]. split; [exact Q|].
    split; apply alone_calculable; [exact Al|]. cbn. rewrite Q. apply numbers_alone_by. exact Al.
  Qed.
End Words.

(** ** A case: a price, and another one *)
Lemma ex_currency_text c : c = lit "USD" \/ c = lit "CHF" -> currency_text c.
Proof.
  intro H. left. destruct H as [->| ->]; (eexists _, _; split; [reflexivity|]; split; [unfold upper; cbn; lia|]; repeat (constructor; [left; unfold upper; cbn; lia|]); constructor).
Qed.
Definition ex_price (w : str) (d : decimal) : list words_line :=
  [(false, [(lit "2024-01-04", T_Date (mk_date 2024 1 4)); (lit "price", T_Keyword K_Price); (lit "USD", T_Currency (lit "USD")); (w, T_Number d); (lit "CHF", T_Currency (lit "CHF"))])].
Lemma ex_price_set_out w d b : lexeme P_Lexer.ex_env w (tok (T_Number d)) -> Forall is_blank b ->
  set_out P_Lexer.ex_env true (ex_price w d) (lit "2024-01-04 price USD " ++ b ++ w ++ lit " CHF" ++ [10%N]).
Proof.
  intros A Hb.
  assert (D : lexeme P_Lexer.ex_env (lit "2024-01-04") (tok (T_Date (mk_date 2024 1 4)))).
  { apply (lx_date P_Lexer.ex_env (lit "2024") 45%N (lit "01") 45%N (lit "04") (Fine (Ok (mk_date 2024 1 4)))); auto; try (split; [reflexivity|repeat constructor]).
    apply (dr_ok (lit "2024") (lit "01") (lit "04")); try (repeat constructor; unfold digit; cbn; lia). exists 31%N. split; [apply m31; cbn; auto|cbn; lia]. }
  assert (K : lexeme P_Lexer.ex_env (lit "price") (tok (T_Keyword K_Price))) by exact (lx_keyword _ K_Price).
  assert (C : forall c, c = lit "USD" \/ c = lit "CHF" -> lexeme P_Lexer.ex_env c (tok (T_Currency c))).
  { intros c Hc. apply lx_currency; [|destruct Hc as [->| ->]; cbn; intuition discriminate]. apply ex_currency_text. exact Hc. }
  pose proof (C _ (or_introl eq_refl)) as Cu. pose proof (C _ (or_intror eq_refl)) as Cc.
  assert (Fs : is_blank 32%N) by (left; reflexivity).
  apply (laid_lines _ true false _ _ [] None [] _ [10%N]); [constructor|constructor| | |discriminate|].
  - apply (worded_next P_Lexer.ex_env (lit "2024-01-04") _ (lit " ") _ _ (lit "price USD " ++ b ++ w ++ lit " CHF" ++ [10%N])); [exact D|reflexivity|repeat constructor; exact Fs|eapply C64_word; [exact P_Lexer.arabic_ok|exact D|reflexivity|ends]|].
    apply (worded_next P_Lexer.ex_env (lit "price") _ (lit " ") _ _ (lit "USD " ++ b ++ w ++ lit " CHF" ++ [10%N])); [exact K|reflexivity|repeat constructor; exact Fs|eapply C64_word; [exact P_Lexer.arabic_ok|exact K|reflexivity|ends]|].
    apply (worded_next P_Lexer.ex_env (lit "USD") _ ([32%N] ++ b) _ _ (w ++ lit " CHF" ++ [10%N])); [exact Cu|reflexivity|constructor; [exact Fs|exact Hb]|eapply C64_word; [exact P_Lexer.arabic_ok|exact Cu|reflexivity|ends]|].
    apply (worded_next P_Lexer.ex_env w _ [32%N] _ _ (lit "CHF" ++ [10%N])); [exact A|reflexivity|repeat constructor; exact Fs|eapply C64_word; [exact P_Lexer.arabic_ok|exact A|reflexivity|ends]|].
    apply (worded_next P_Lexer.ex_env (lit "CHF") _ []); [exact Cc|reflexivity|constructor|eapply C64_word; [exact P_Lexer.arabic_ok|exact Cc|reflexivity|ends]|constructor].
  - eexists _, _, _. split; [reflexivity|discriminate].
  - apply lined_eol. apply gaps_eol. exact ex_break_lf.
Qed.
Lemma ex_number i f w d : number_text P_Lexer.ex_env i [] f w -> ex_from_str (i ++ match f with Some x => 46%N :: x | None => [] end) = Ok d -> lexeme P_Lexer.ex_env w (tok (T_Number d)).
Proof. intros H Q. pose proof (lx_number P_Lexer.ex_env i [] f w H) as X. cbn [concat app] in X. change (le_decimal P_Lexer.ex_env) with ex_from_str in X. rewrite Q in X. exact X. Qed.
Definition ex_double (d : decimal) : decimal := mk_dec (dec_neg d) (2 * dec_mant d) (dec_scale d).
Example C86_words_ex : exists ls ls' ds opts ps ws,
  let s := lit "2024-01-04 price USD 1.75 CHF" ++ [10%N] in let s' := lit "2024-01-04 price USD   3.50 CHF" ++ [10%N] in
  set_out P_Lexer.ex_env true ls s /\ set_out P_Lexer.ex_env true ls' s' /\ lines_by (number_token ex_double) ls ls' /\
  numbers_alone (ledger_tokens true ls) /\ without K_Include (ledger_tokens true ls) /\ fine_content P_Lexer.ex_env P_Grammar.ex_env 0 s /\
  ledger_is P_Lexer.ex_env P_Grammar.ex_env (fun p => Some p) None s (Success ds opts ps ws) /\ List.length ds = 1.
Proof.
  destruct (ex_ledger_success (lit "2024-01-04 price USD 1.75 CHF" ++ [10%N]) ltac:(vm_compute; exact Logic.I)) as (ds & opts & ps & ws & H & Q).
  assert (Dg : forall c, In c (lit "0123456789") -> decimal_digit P_Lexer.ex_env c) by (intros c Hc; cbv in Hc; repeat (destruct Hc as [<-|Hc]; [vm_compute; reflexivity|]); contradiction).
  exists (ex_price (lit "1.75") (mk_dec false 175 2)), (ex_price (lit "3.50") (mk_dec false 350 2)), ds, opts, ps, ws. cbv zeta. split.
  { apply (ex_price_set_out (lit "1.75") (mk_dec false 175 2) []); [|constructor]. apply (ex_number (lit "1") (Some (lit "75"))); [|vm_compute; reflexivity].
    split; [discriminate|]. split; [repeat constructor; apply Dg; cbv; tauto|]. split; [constructor|]. split; [|reflexivity]. intros d X. injection X as <-. split; [discriminate|repeat constructor; apply Dg; cbv; tauto]. }
  split.
  { apply (ex_price_set_out (lit "3.50") (mk_dec false 350 2) (lit "  ")); [|repeat constructor]. apply (ex_number (lit "3") (Some (lit "50"))); [|vm_compute; reflexivity].
    split; [discriminate|]. split; [repeat constructor; apply Dg; cbv; tauto|]. split; [constructor|]. split; [|reflexivity]. intros d X. injection X as <-. split; [discriminate|repeat constructor; apply Dg; cbv; tauto]. }
  split; [repeat constructor|]. split; [apply check_alone_ok; reflexivity|]. split; [apply check_without_include; reflexivity|].
  split; [apply check_content_ok; vm_compute; reflexivity|]. split; [exact H|]. clear - Q. vm_compute in Q. injection Q as <- _ _ _. reflexivity.
Qed.

Example C87_words_ex : renumbered P_Grammar.ex_env ex_double P_Lexer.ex_env (lit "2024-01-04 price USD 1.75 CHF" ++ [10%N]) (lit "2024-01-04 price USD   3.50 CHF" ++ [10%N]).
Proof.
  destruct C86_words_ex as (ls & ls' & _ & _ & _ & _ & H & H' & B & Al & _).
  exact (C87_words P_Lexer.ex_env P_Grammar.ex_env P_Lexer.arabic_ok P_Lexer.arabic_disjoint ex_double true ls ls' _ _ H H' B Al).
Qed.

Print Assumptions C86_words.
Print Assumptions C87_words.
