(** * C69: what is necessary for an include to be as good as its text *)
From Coq Require Import String Ascii.
From Coq Require Import List NArith ZArith Arith Bool Lia Permutation.
From Verif Require Import Base BaseFacts Text Path PathFacts Sources Types SpecTypes Options SpecOptions Pragma SpecPragma Read SpecRead
  Token Lexer SpecLexer P_Lexer Peg Grammar SpecGrammar SpecDirective SpecAlike P_Grammar
  Parse SpecParse SpecWhole P_File P_Parse SpecPaste P_Paste SpecAppend.
Import SpecPragma Read.
Import ListNotations.
Local Open Scope nat_scope.

(** The file [a], which includes the file [b] by its name, parses as [r], and
    the text [c], which is that of [a] with that of [b] in place of the include,
    as [r']. *)
Inductive pasted_by_hand (L : lexer_env) (E : grammar_env) (root : option path) (name : path) (a b c : str) (r r' : parsed_as) : Prop :=
| by_hand glob_with read fuel s toks ta tb tc :
    read_with_includes (includes_of L) glob_with (fun p => Some p) read fuel root a = Some s ->
    content_iter s = [(0, root, a); (1, Some name, b)] ->
    parser_new L s = Fine (Some toks) -> parse E (fun p => Some p) s toks = Fine (Some r) ->
    lex L a = Fine (Some ta) -> lex L b = Fine (Some tb) -> lex L c = Fine (Some tc) ->
    pasted glob_with [(Some name, map fst tb)] root (map fst ta) (map fst tc) [] ->
    ledger_is L E (fun p => Some p) root c r' ->
    pasted_by_hand L E root name a b c r r'.

Definition by_name (name : path) (b : str) (p : path) : result str str := if path_eqb p name then Ok b else Err (lit "none").
Definition run_with (name : path) (b content : str) : outcome (option parsed_as) :=
  match read_with_includes (includes_of P_Lexer.ex_env) ex_glob (fun p => Some p) (by_name name b) 5 (Some (lit "/d/a.bean")) content with
  | Some s => match parser_new P_Lexer.ex_env s with
              | Fine (Some toks) => parse P_Grammar.ex_env (fun p => Some p) s toks
              | _ => Panic
              end
  | None => Panic
  end.
Definition has_include (l : list token) : bool := existsb (fun t => match t with T_Keyword K_Include => true | _ => false end) l.
Lemma has_no_include l : has_include l = false -> ~ In (T_Keyword K_Include) l.
Proof. intros H X. assert (has_include l = true) by (apply existsb_exists; exists (T_Keyword K_Include); auto). congruence. Qed.

(** [a] is the tokens before the include, those of the include, and those after. *)
Lemma by_hand_runs name text a b c n r r' :
  run_with name b a = Fine (Some r) -> run_with name b c = Fine (Some r') ->
  match read_with_includes (includes_of P_Lexer.ex_env) ex_glob (fun p => Some p) (by_name name b) 5 (Some (lit "/d/a.bean")) a with
  | Some s => content_iter s = [(0, Some (lit "/d/a.bean"), a); (1, Some name, b)] | None => False end ->
  lex P_Lexer.ex_env a = Fine (Some (ex_lexed a)) -> lex P_Lexer.ex_env b = Fine (Some (ex_lexed b)) -> lex P_Lexer.ex_env c = Fine (Some (ex_lexed c)) ->
  resolve_included_path (Some (lit "/d/a.bean")) text = name ->
  (let ta := map fst (ex_lexed a) in let tb := map fst (ex_lexed b) in
    ta = firstn n ta ++ T_Keyword K_Include :: T_String text :: T_Eol :: skipn (3 + n) ta /\
    tb = removelast tb ++ [T_Eol] /\ map fst (ex_lexed c) = firstn n ta ++ tb ++ skipn (3 + n) ta /\
    has_include (firstn n ta) = false /\ has_include (skipn (3 + n) ta) = false /\ has_include (removelast tb) = false) ->
  pasted_by_hand P_Lexer.ex_env P_Grammar.ex_env (Some (lit "/d/a.bean")) name a b c r r'.
Proof.
  intros Ra Rc Ci La Lb Lc Rn (Qa & Qb & Qc & Na & Nt & Nb). unfold run_with in Ra, Rc.
  destruct (read_with_includes _ _ _ _ _ _ a) as [s|] eqn:Rd; [|contradiction]. destruct (parser_new P_Lexer.ex_env s) as [[toks|]|] eqn:Pn; [|discriminate Ra|discriminate Ra].
  destruct (read_with_includes _ _ _ _ _ _ c) as [s2|] eqn:Rd2; [|discriminate Rc]. destruct (parser_new P_Lexer.ex_env s2) as [[toks2|]|] eqn:Pn2; [|discriminate Rc|discriminate Rc].
  econstructor; [exact Rd|exact Ci|exact Pn|exact Ra|exact La|exact Lb|exact Lc| |econstructor; [exact Rd2|exact Pn2|exact Rc]].
  rewrite Qa, Qc, Qb. apply (pasted_one ex_glob name (Some (lit "/d/a.bean")) text [G_Ok name] name); try (apply has_no_include; assumption); [unfold ex_glob; rewrite Rn; reflexivity|reflexivity|reflexivity].
Qed.

Ltac by_hand_tac text := eapply (by_hand_runs _ text _ _ _ 0); [eassumption|eassumption|vm_compute; reflexivity|vm_compute; reflexivity|vm_compute; reflexivity|vm_compute; reflexivity|vm_compute; reflexivity|vm_compute; repeat split; reflexivity].

(** If an included file sets the name of an account type, the lines after the
    include are read in another way when it is pasted. *)
Theorem C69_rules_refuted : exists L E root name a b c ds opts ps ws es ws',
  unicode_ok (le_unicode L) /\ environment_ok E /\ pasted_by_hand L E root name a b c (Success ds opts ps ws) (Failure es ws').
Proof.
  set (i := lit "include ""b.bean""" ++ [10%N]). set (b := lit "option ""name_assets"" ""Actifs""" ++ [10%N]). set (d := lit "2024-01-02 open Assets:Cash" ++ [10%N]).
  destruct (run_with (lit "/d/b.bean") b (i ++ d)) as [[[ds opts ps ws|]|]|] eqn:A; try (vm_compute in A; discriminate A).
  destruct (run_with (lit "/d/b.bean") b (b ++ d)) as [[[|es ws']|]|] eqn:C; try (vm_compute in C; discriminate C).
  exists P_Lexer.ex_env, P_Grammar.ex_env, (Some (lit "/d/a.bean")), (lit "/d/b.bean"), (i ++ d), b, (b ++ d), ds, opts, ps, ws, es, ws'.
  split; [exact P_Lexer.arabic_ok|]. split; [exact P_File.ex_environment|]. by_hand_tac (lit "b.bean").
Qed.
(** If the root file sets the name of an account type after an include, so are
    the lines of the included file. *)
Theorem C69_rules_first_refuted : exists L E root name a b c ds opts ps ws es ws',
  unicode_ok (le_unicode L) /\ environment_ok E /\ pasted_by_hand L E root name a b c (Success ds opts ps ws) (Failure es ws') /\
  (forall tb, lex L b = Fine (Some tb) -> ~ sets_rules (input_of 1 b tb)).
Proof.
  set (i := lit "include ""b.bean""" ++ [10%N]). set (o := lit "option ""name_assets"" ""Actifs""" ++ [10%N]). set (b := lit "2024-01-02 open Actifs:Cash" ++ [10%N]).
  destruct (run_with (lit "/d/b.bean") b (i ++ o)) as [[[ds opts ps ws|]|]|] eqn:A; try (vm_compute in A; discriminate A).
  destruct (run_with (lit "/d/b.bean") b (b ++ o)) as [[[|es ws']|]|] eqn:C; try (vm_compute in C; discriminate C).
  exists P_Lexer.ex_env, P_Grammar.ex_env, (Some (lit "/d/a.bean")), (lit "/d/b.bean"), (i ++ o), b, (b ++ o), ds, opts, ps, ws, es, ws'.
  split; [exact P_Lexer.arabic_ok|]. split; [exact P_File.ex_environment|]. split; [by_hand_tac (lit "b.bean")|].
  intros tb Lx. apply P_Order.check_rules_ok. vm_compute in Lx. injection Lx as <-. vm_compute. reflexivity.
Qed.
(** If an included file in another directory names a directory of documents, then
    that is sought elsewhere. *)
Theorem C69_documents_refuted : exists L E root name a b c ds opts ps ws ds' opts' ps' ws',
  unicode_ok (le_unicode L) /\ environment_ok E /\ pasted_by_hand L E root name a b c (Success ds opts ps ws) (Success ds' opts' ps' ws') /\ ~ alike_options opts opts'.
Proof.
  set (i := lit "include ""sub/b.bean""" ++ [10%N]). set (b := lit "option ""documents"" ""docs""" ++ [10%N]). set (d := lit "2024-01-02 open Assets:Cash" ++ [10%N]).
  destruct (run_with (lit "/d/sub/b.bean") b (i ++ d)) as [[[ds opts ps ws|]|]|] eqn:A; try (vm_compute in A; discriminate A).
  destruct (run_with (lit "/d/sub/b.bean") b (b ++ d)) as [[[ds' opts' ps' ws'|]|]|] eqn:C; try (vm_compute in C; discriminate C).
  exists P_Lexer.ex_env, P_Grammar.ex_env, (Some (lit "/d/a.bean")), (lit "/d/sub/b.bean"), (i ++ d), b, (b ++ d), ds, opts, ps, ws, ds', opts', ps', ws'.
  split; [exact P_Lexer.arabic_ok|]. split; [exact P_File.ex_environment|]. split; [by_hand_tac (lit "sub/b.bean")|].
  intro Al. apply ao_documents in Al. vm_compute in A, C. injection A as _ <- _ _. injection C as _ <- _ _. vm_compute in Al. discriminate Al.
Qed.

Print Assumptions C69_rules_refuted.
Print Assumptions C69_rules_first_refuted.
Print Assumptions C69_documents_refuted.
