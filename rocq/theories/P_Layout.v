(** * C63: only the tokens matter *)
From Coq Require Import String Ascii.
From Coq Require Import List NArith ZArith Arith Bool Lia Permutation.
From Verif Require Import Base BaseFacts Text Path SpecPath PathFacts Sources Types SpecTypes TypesFacts P_Types SortM SpecSort P_Sort Options SpecOptions OptionsFacts P_Options
  Pragma SpecPragma PragmaRun P_Pragma Read SpecRead ReadFacts P_Read
  Token Lexer SpecLexer P_Lexer Peg Grammar SpecGrammar SpecDirective P_Grammar SpecDisplay SpecLedger
  Parse SpecParse SpecWhole ParseFacts ParseOnce ParseFile P_File P_Includes P_Parse SpecAlike AlikeRead AlikeOptions SimWhole.
Import SpecPragma.
Import ListNotations.
Local Open Scope nat_scope.

Section Whole.
  Context (L : lexer_env) (E : grammar_env) (En : environment_ok E) (U : unicode_ok (le_unicode L)).
  Context (glob_with : str -> result (list glob_item) str) (canonicalize : path -> option path).
  Context (canonicalize' : path -> option path) (root : option path).

  Lemma same_tokens_alike c c' : same_tokens L c c' -> alike_text L c c'.
  Proof. intros (ts & ts' & A & B & Q). right. exists ts, ts'. rewrite Q. repeat split; auto. constructor. Qed.

  (** Texts with the same tokens are parsed alike: if there is a success for the
      one there is for the other, with the same directives, options and
      plugins, and as many warnings which say the same; if there are errors
      there are as many for the other, which say the same; and if parsing
      panics it does so for both. *)
  Theorem C63_parse : forall read read' fuel fuel' content content' s s',
    reads_to (includes_of L) glob_with canonicalize read fuel root content s ->
    reads_to (includes_of L) glob_with canonicalize read' fuel' root content' s' ->
    same_sources (same_tokens L) s s' ->
    alike_outcome (parsed_from L E canonicalize' s) (parsed_from L E canonicalize' s').
  Proof.
    intros read read' fuel fuel' content content' s s' Reads Reads' [S1 S2 S3 S4].
    apply (alike_parsed L E ltac:(apply En) U glob_with canonicalize canonicalize' root _ _ _ _ _ _ _ _ Reads Reads'). constructor; auto.
    clear - S4. induction S4 as [|x y l l' [Q A] F IH]; constructor; auto. split; [exact Q|]. apply same_tokens_alike. exact A.
  Qed.

  (** When the tokens of each file are the same, the same files are found, in
      the same order and with the same numbers. *)
  Theorem C63_read : forall read read' fuel content content', same_reading (same_tokens L) read read' -> same_tokens L content content' ->
    match read_with_includes (includes_of L) glob_with canonicalize read fuel root content,
          read_with_includes (includes_of L) glob_with canonicalize read' fuel root content' with
    | Some s, Some s' => same_sources (same_tokens L) s s' /\ source_id_strings s = source_id_strings s'
    | None, None => True
    | _, _ => False
    end.
  Proof. intros. apply alike_read; try assumption. intros c c' Sc. apply same_includes. apply same_tokens_alike. exact Sc. Qed.

  (** Both together: replace each file by another one with the same tokens, and
      the same is read from it. *)
  Theorem C63_whole : forall read read' fuel content content' s, same_reading (same_tokens L) read read' -> same_tokens L content content' ->
    read_with_includes (includes_of L) glob_with canonicalize read fuel root content = Some s ->
    exists s', read_with_includes (includes_of L) glob_with canonicalize read' fuel root content' = Some s' /\
      alike_outcome (parsed_from L E canonicalize' s) (parsed_from L E canonicalize' s').
  Proof.
    intros read read' fuel content content' s Same T Rd.
    pose proof (alike_whole L E ltac:(apply En) U glob_with canonicalize canonicalize' root (same_tokens L) same_tokens_alike read read' fuel content content' Same T) as H.
    rewrite Rd in H. destruct (read_with_includes (includes_of L) glob_with canonicalize read' fuel root content') as [s'|]; [|contradiction]. exists s'. tauto.
  Qed.
End Whole.

(** ** A case: two files, and the same with other spaces, blank lines and comments *)

Definition ex_tight : str := lit "include ""b.bean""" ++ [10%N] ++ lit "2024-01-03 txn ""x""" ++ [10%N] ++ lit "  Assets:B 1+2 USD" ++ [10%N].
Definition ex_loose : str := lit "; a ledger" ++ [10%N; 10%N] ++ lit "include   ""b.bean"" ; as follows" ++ [13%N; 10%N; 10%N] ++
  lit "2024-01-03   txn ""x""" ++ [10%N] ++ lit "      ; postings" ++ [10%N] ++ lit "    Assets:B     1 + 2  USD" ++ [10%N; 10%N].
Definition ex_tight_b : str := lit "2024-01-02 open Assets:B USD" ++ [10%N].
Definition ex_loose_b : str := [10%N] ++ lit "2024-01-02  open   Assets:B  USD ; x" ++ [10%N; 10%N; 10%N].
Definition ex_read_b (b : str) (p : path) : result str str := if path_eqb p (lit "/d/b.bean") then Ok b else Err (lit "none").
Definition ex_root : option path := Some (lit "/d/a.bean").

Definition tokens_of (c : str) : option (list token) := match lex P_Lexer.ex_env c with Fine (Some ts) => Some (map fst ts) | _ => None end.
Lemma same_tokens_check c c' ts : tokens_of c = Some ts -> tokens_of c' = Some ts -> same_tokens P_Lexer.ex_env c c'.
Proof.
  unfold tokens_of. intros H H'. destruct (lex P_Lexer.ex_env c) as [[a|]|] eqn:X; try discriminate. destruct (lex P_Lexer.ex_env c') as [[b|]|] eqn:Y; try discriminate.
  exists a, b. repeat split; congruence.
Qed.

Lemma ex_same_reading : same_reading (same_tokens P_Lexer.ex_env) (ex_read_b ex_tight_b) (ex_read_b ex_loose_b).
Proof. intro p. unfold ex_read_b. destruct (path_eqb p (lit "/d/b.bean")); [|reflexivity]. eapply same_tokens_check; vm_compute; reflexivity. Qed.
Example C63_ex : exists s,
  same_reading (same_tokens P_Lexer.ex_env) (ex_read_b ex_tight_b) (ex_read_b ex_loose_b) /\
  same_tokens P_Lexer.ex_env ex_tight ex_loose /\
  read_with_includes (includes_of P_Lexer.ex_env) ex_glob ex_canonicalize (ex_read_b ex_tight_b) 5 ex_root ex_tight = Some s /\
  match parsed_from P_Lexer.ex_env ex_env ex_canonicalize s with Fine (Some (Success [_; _] _ _ _)) => True | _ => False end.
Proof.
  destruct (read_with_includes (includes_of P_Lexer.ex_env) ex_glob ex_canonicalize (ex_read_b ex_tight_b) 5 ex_root ex_tight) as [s|] eqn:R; [|vm_compute in R; discriminate].
  vm_compute in R. injection R as <-. eexists. split; [exact ex_same_reading|]. split; [eapply same_tokens_check; vm_compute; reflexivity|]. split; [reflexivity|]. vm_compute. exact Logic.I.
Qed.

(** And one with errors: an unknown option, a tag which is not pushed and what
    is no declaration. *)
Definition ex_tight_bad : str := lit "option ""a"" ""b""" ++ [10%N] ++ lit "poptag #x" ++ [10%N] ++ lit "rubbish" ++ [10%N] ++ lit "include ""b.bean""" ++ [10%N].
Definition ex_loose_bad : str := lit "; bad" ++ [10%N] ++ lit "option   ""a""   ""b""" ++ [10%N; 10%N] ++ lit "poptag  #x" ++ [13%N; 10%N] ++ lit "rubbish ; !" ++ [10%N] ++ lit "include ""b.bean""" ++ [10%N; 10%N].
Example C63_ex_errors : exists s,
  same_tokens P_Lexer.ex_env ex_tight_bad ex_loose_bad /\
  read_with_includes (includes_of P_Lexer.ex_env) ex_glob ex_canonicalize (ex_read_b ex_tight_b) 5 ex_root ex_tight_bad = Some s /\
  match parsed_from P_Lexer.ex_env ex_env ex_canonicalize s with Fine (Some (Failure [_; _; _] [])) => True | _ => False end.
Proof.
  destruct (read_with_includes (includes_of P_Lexer.ex_env) ex_glob ex_canonicalize (ex_read_b ex_tight_b) 5 ex_root ex_tight_bad) as [s|] eqn:R; [|vm_compute in R; discriminate].
  vm_compute in R. injection R as <-. eexists. split; [eapply same_tokens_check; vm_compute; reflexivity|]. split; [reflexivity|]. vm_compute. exact Logic.I.
Qed.

Print Assumptions C63_parse.
Print Assumptions C63_read.
Print Assumptions C63_whole.
