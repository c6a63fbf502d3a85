(** * C38: the includes which the first pass finds *)
From Coq Require Import String Ascii.
From Coq Require Import List NArith ZArith Arith Bool Lia.
From Verif Require Import Base BaseFacts Path Types SpecTypes P_Types Options Decimal Token LexPost Lexer SpecLexer P_Lexer
  Peg Grammar SpecGrammar PegFacts GrammarSafe Parse SpecParse.
Import ListNotations.
Local Open Scope nat_scope.

Section Includes.
  Context (I : input) (po : parser_options).
  Notation n := (List.length (in_tokens I)).

  Definition include_or_any : parser (option str) :=
    alt (keyword_ I K_Include ;; pmap Some (p_string I po)) (sel I (fun _ => Some None)).

  Lemma sel_at {A} (f : token -> option A) i t s : nth_error (in_tokens I) i = Some (t, s) ->
    Grammar.sel I f i = match f t with Some a => Got a (S i) [] [] | None => Not [] end.
  Proof. intro X. unfold Grammar.sel, select. rewrite X. reflexivity. Qed.
  Lemma sel_end {A} (f : token -> option A) i : nth_error (in_tokens I) i = None -> Grammar.sel I f i = Not [].
  Proof. intro X. unfold Grammar.sel, select. rewrite X. reflexivity. Qed.

  Lemma include_step i : i < n ->
    exists o j ws, include_or_any i = Got o j ws [] /\ i < j <= n /\
      (match o with Some s => [s] | None => [] end) = flat_map (included_at I) (List.seq i (j - i)).
  Proof.
    intro Hi. destruct (nth_error (in_tokens I) i) as [[t r]|] eqn:X; [|apply nth_error_None in X; lia].
    assert (One : included_at I i = [] -> [] = flat_map (included_at I) (List.seq i (S i - i))).
    { intro H. replace (S i - i) with 1 by lia. cbn. rewrite H. reflexivity. }
    unfold include_or_any, alt, keyword_, just, pmap, bind, ret, p_string, spn, sp.
    rewrite !(sel_at _ i t r X). destruct (token_eq_dec t (T_Keyword K_Include)) as [->|Nt].
    2:{ exists None, (S i), []. split; [reflexivity|]. split; [lia|]. apply One. unfold included_at. rewrite X.
        destruct t; try reflexivity. destruct k; try reflexivity. congruence. }
    unfold map_span. destruct (nth_error (in_tokens I) (S i)) as [[t' r']|] eqn:X'.
    2:{ rewrite (sel_end _ _ X'). exists None, (S i), []. split; [reflexivity|]. split; [lia|]. apply One. unfold included_at. rewrite X, X'. reflexivity. }
    rewrite (sel_at _ _ t' r' X'). assert (S i < n) by (apply nth_error_Some; congruence).
    assert (V : (exists s, t' = T_String s) \/ forall s, t' <> T_String s) by (destruct t'; eauto; right; intros ? Y; discriminate).
    destruct V as [[s ->]|V].
    - eexists (Some s), (S (S i)), _. split; [reflexivity|]. split; [lia|]. replace (S (S i) - i) with 2 by lia.
      cbn. unfold included_at at 1. rewrite X, X'. unfold included_at. rewrite X'. destruct (nth_error (in_tokens I) (S (S i))) as [[[] ]|]; reflexivity.
    - replace (match t' with T_String s => Some s | _ => None end) with (@None str) by (destruct t'; try reflexivity; exfalso; eapply V; reflexivity).
      exists None, (S i), []. split; [reflexivity|]. split; [lia|]. apply One. unfold included_at. rewrite X, X'.
      destruct t'; try reflexivity. exfalso. eapply V. reflexivity.
  Qed.

  Lemma include_many : forall f i, i <= n -> n - i < f ->
    exists l ws, many_n f include_or_any i = Got l n ws [] /\
      flat_map (fun o => match o with Some s => [s] | None => [] end) l = flat_map (included_at I) (List.seq i (n - i)).
  Proof.
    induction f as [|f IH]; intros i Hi Hf; [lia|]. cbn [many_n]. destruct (Nat.eq_dec i n) as [->|Ne].
    - assert (X : nth_error (in_tokens I) n = None) by (apply nth_error_None; lia).
      unfold include_or_any, alt, keyword_, just, bind. rewrite !(sel_end _ _ X). exists [], []. rewrite Nat.sub_diag. auto.
    - destruct (include_step i ltac:(lia)) as (o & j & ws & -> & B & Ho).
      destruct (IH j ltac:(lia) ltac:(lia)) as (l & ws' & -> & Hl). exists (o :: l), (ws ++ ws'). split; [reflexivity|].
      cbn [flat_map]. rewrite Hl, Ho, <- flat_map_app. f_equal.
      replace (n - i) with ((j - i) + (n - j)) by lia. rewrite seq_app. replace (i + (j - i)) with j by lia. reflexivity.
  Qed.

  (** The strings after include keywords, in order, and everything is read. *)
  Theorem C38_scan : exists ws, p_includes I po 0 = Got (included_strings I) n ws [].
  Proof.
    destruct (include_many (S (n - 0)) 0 ltac:(lia) ltac:(lia)) as (l & ws & H & Hl). exists ws. unfold p_includes, rep, many. fold include_or_any.
    generalize dependent include_or_any. intros p H. unfold pmap, bind, ret. rewrite H, Hl, Nat.sub_0_r, !app_nil_r. reflexivity.
  Qed.
End Includes.

(** What the first pass finds in a file: the string of each include keyword
    which a string follows, whatever else is in the file and whatever its
    number. *)
Theorem C38_includes : forall L id content, get_includes L id content =
  match lex L content with
  | Panic => Panic
  | Fine None => Fine None
  | Fine (Some toks) => Fine (Some (included_strings (input_of id content toks)))
  end.
Proof.
  intros L id content. unfold get_includes. destruct (lex L content) as [[toks|]|]; [|reflexivity|reflexivity].
  destruct (C38_scan (input_of id content toks) default_parser_options) as [ws ->]. cbn [in_tokens input_of].
  assert (X : nth_error toks (List.length toks) = None) by (apply nth_error_None; lia). rewrite X. reflexivity.
Qed.

(** [included_strings] says what it should. *)
Theorem C38_complete : forall I i s, tok I i (T_Keyword K_Include) -> tok I (S i) (T_String s) -> In s (included_strings I).
Proof.
  intros I i s [r X] [r' Y]. unfold included_strings. apply in_flat_map. exists i. split.
  - apply in_seq. assert (i < List.length (in_tokens I)) by (apply nth_error_Some; congruence). lia.
  - unfold included_at. rewrite X, Y. left. reflexivity.
Qed.
Theorem C38_exact : forall I s, In s (included_strings I) -> exists i, tok I i (T_Keyword K_Include) /\ tok I (S i) (T_String s).
Proof.
  intros I s H. apply in_flat_map in H. destruct H as (i & _ & H). exists i. unfold included_at in H.
  destruct (nth_error (in_tokens I) i) as [[t r]|] eqn:X; [|destruct H]. destruct t; try destruct H. destruct k; try destruct H.
  destruct (nth_error (in_tokens I) (S i)) as [[t' r']|] eqn:Y; [|destruct H]. destruct t'; try destruct H; [|contradiction].
  subst. split; eexists; eassumption.
Qed.

(** A case: includes in the middle of errors; one is not followed by a string. *)
Definition ex_include : str :=
  lit "include ""a.bean""" ++ [10%N] ++ lit "2024-99-99 include include ""b.bean"" ""c.bean""" ++ [10%N] ++ lit "include a.bean".
Example ex_includes : get_includes P_Lexer.ex_env 3 ex_include = Fine (Some [lit "a.bean"; lit "b.bean"]).
Proof. now vm_compute. Qed.

Print Assumptions C38_scan.
Print Assumptions C38_includes.
Print Assumptions C38_complete.
Print Assumptions C38_exact.
