(** * Displayed directives with empty lines between them, as the parser gets them *)
From Coq Require Import String Ascii.
From Coq Require Import List NArith Arith Bool Lia Permutation.
From Verif Require Import Base BaseFacts Types SpecTypes Decimal SpecDecimal Token SpecOptions LexPost SpecLex LexFacts P_Lex Lexer Peg Grammar SpecExpr SpecLexer LexerFacts P_Lexer Display SpecDisplay SpecLedger
  DisplayLex DisplayText DisplayDirective DisplayLexed SpecGrammar SpecDirective DisplayRead DisplayLaid DisplayLedger.
Import ListNotations.
Local Open Scope nat_scope.

(** ** Empty lines *)

(** So many empty lines, and then a line. *)
Definition breaksn (l : nat * (bool * list token)) : list token := repeat T_Eol (fst l) ++ breaks (snd l).

Lemma repeat_eols n : Forall (fun t => is_eol t = true) (repeat T_Eol n).
Proof. induction n; constructor; auto. Qed.
Lemma ranged_eols (r : list rtoken) n : map fst r = repeat T_Eol n -> Forall (fun x => is_eol (fst x) = true) r.
Proof. intro Q. pose proof (repeat_eols n) as H. rewrite <- Q in H. apply Forall_map in H. exact H. Qed.

Lemma emit_run (r : list rtoken) t x c : Forall (fun y => is_eol (fst y) = true) r -> (t = T_Eol \/ t = T_EolThenIndent) ->
  map fst (emit (r ++ [(t, x)], c)) = (if match t with T_Eol => true | _ => false end then [T_Eol] else [T_Eol; T_Indent]) ++ map fst c.
Proof.
  intros F H. unfold emit. cbn [fst snd]. rewrite map_app. f_equal. unfold break_of.
  assert (La : forall d, last (r ++ [(t, x)]) d = (t, x)) by (intro d; apply last_last).
  destruct r as [|[u [a e]] r]; cbn [app] in *.
  - cbn. destruct x. destruct H as [->| ->]; reflexivity.
  - rewrite La. destruct x. destruct H as [->| ->]; reflexivity.
Qed.
Lemma kept_run r t x c : (t = T_Eol \/ t = T_EolThenIndent) -> (forall q d, c <> (T_Colon, q) :: d) -> ignored_b (r ++ [(t, x)], c) = false.
Proof.
  intros H N. unfold ignored_b. cbn [fst snd].
  destruct c as [|[u q] c]; [destruct (last _ _) as [[] ?]; reflexivity|]. destruct u; try (destruct (last _ _) as [[] ?]; reflexivity). destruct (N q c eq_refl).
Qed.

Lemma lines_ranged_n rest k : Forall (fun l => clear (snd (snd l))) rest -> forall l : list rtoken, map fst l = flat_map breaksn rest ++ repeat T_Eol k ++ [T_Eol] ->
  exists ls, SpecLex.lines_of l ls /\ ls <> [] /\ kept_list ls = ls /\ map fst (flat_map emit ls) = flat_map laid (map snd rest) ++ [T_Eol].
Proof.
  induction 1 as [|[n [b c]] rest (Cn & Cc & Ce) F IH]; intros l Q.
  - cbn [flat_map app map] in *. apply map_eq_app in Q as (r & z & -> & Qr & Qz). destruct z as [|[t x] [|? ?]]; try discriminate. injection Qz as ->.
    exists [(r ++ [(T_Eol, x)], [])]. pose proof (ranged_eols r k Qr) as Fr. split; [|split; [discriminate|split]].
    + constructor; [cbn; now rewrite !app_nil_r| |].
      * intros r' t' [X|[]]. injection X as <- <-. split; [now destruct r|]. split; [|constructor]. apply Forall_app. split; [exact Fr|]. constructor; [reflexivity|constructor].
      * intros a r' t' d X N. destruct a as [|? [|? ?]]; injection X; intros; congruence || discriminate.
    + unfold kept_list. cbn [filter]. rewrite kept_run; [reflexivity|auto|discriminate].
    + cbn [flat_map]. rewrite app_nil_r, emit_run; [reflexivity|exact Fr|auto].
  - cbn [flat_map breaksn fst snd] in Q. unfold breaksn in Q at 1. cbn [fst snd] in Q. rewrite <- !app_assoc in Q.
    apply map_eq_app in Q as (r & z & -> & Qr & Q). unfold breaks in Q. cbn [fst snd app] in Q. destruct z as [|[t x] z]; [discriminate|]. injection Q as Qt Q.
    apply map_eq_app in Q as (c' & l' & -> & Qc & Ql). cbn [fst snd] in *. subst c.
    destruct (IH l' Ql) as (ls & Ls & Ln & Lk & Le). exists ((r ++ [(t, x)], c') :: ls).
    pose proof (ranged_eols r n Qr) as Fr.
    assert (Ht : t = T_Eol \/ t = T_EolThenIndent) by (subst t; destruct b; auto).
    assert (Hi : is_eol t = true) by (destruct Ht as [->| ->]; reflexivity).
    assert (Nc : c' <> []) by (intros ->; apply Cn; reflexivity).
    split; [|split; [discriminate|split]].
    + assert (J := lo_all _ _ Ls). rewrite J in Ls |- *.
      replace (r ++ (t, x) :: c' ++ SpecLex.joined ls) with (SpecLex.joined ((r ++ [(t, x)], c') :: ls)) by (cbn; rewrite <- !app_assoc; reflexivity).
      apply lines_cons; auto; [now destruct r| |apply ranged_not_eol; exact Ce]. apply Forall_app. split; [exact Fr|]. constructor; [exact Hi|constructor].
    + unfold kept_list in *. cbn [filter]. rewrite kept_run; [|exact Ht|]. 2:{ intros q d ->. destruct Cc. }
      cbn [negb]. f_equal. exact Lk.
    + cbn [flat_map map]. rewrite map_app, Le, <- app_assoc, emit_run by assumption. unfold laid. cbn [fst snd]. subst t. destruct b; cbn; rewrite ?app_assoc; reflexivity.
Qed.

Lemma layout_lines_n c rest k (l : list rtoken) fin : clear c -> Forall (fun l => clear (snd (snd l))) rest ->
  map fst l = c ++ flat_map breaksn rest ++ repeat T_Eol k ++ [T_Eol] ->
  exists out, handle_eol_indent l fin = Some out /\ map fst out = c ++ flat_map laid (map snd rest) ++ [T_Eol].
Proof.
  intros (Cn & Cc & Ce) F Q. apply map_eq_app in Q. destruct Q as (c' & l' & -> & Qc & Ql). subst c.
  destruct (lines_ranged_n rest k F l' Ql) as (ls & Ls & Ln & Lk & Le).
  assert (Lo : SpecLex.lines_of ((T_Eol, (0, 0)) :: c' ++ l') (([(T_Eol, (0, 0))], c') :: ls)).
  { assert (J := lo_all _ _ Ls). rewrite J in Ls |- *. change ((T_Eol, (0, 0)) :: c' ++ SpecLex.joined ls) with (SpecLex.joined (([(T_Eol, (0, 0))], c') :: ls)).
    apply lines_cons; auto; [discriminate|apply ranged_not_eol; exact Ce|intros _ ->; apply Cn; reflexivity]. }
  exists (layout (([(T_Eol, (0, 0))], c') :: ls) fin). split; [apply handle_eol_indent_layout; exact Lo|].
  assert (St : strip (([(T_Eol, (0, 0))], c') :: ls) = Some (c', ls)).
  { cbn [strip]. destruct c' as [|[u q] c']; [exfalso; apply Cn; reflexivity|]. destruct u; try reflexivity. destruct Cc. }
  unfold layout. rewrite St, Lk. unfold ending. rewrite Lk. destruct ls as [|x ls]; [congruence|]. rewrite app_nil_r, map_app, Le. reflexivity.
Qed.

Section Dump.
  Context (L : lexer_env) (UO : unicode_ok (le_unicode L))
          (ND : forall c, u_Nd (le_unicode L) c = true -> u_Lu (le_unicode L) c = false /\ u_Lo (le_unicode L) c = false).
  Context (D : display_env) (E : grammar_env) (names : account_type -> str) (Dok : display_ok D) (RD : reads_decimals (le_decimal L)).

  (** A text which spells tokens, up to the layout of lines. *)
  Lemma spelled_lexed s raw : spells L (fun rest => rest = []) s raw ->
    exists keys, map fst keys = tkeyed raw /\ lex L s = Fine (handle_eol_indent keys (Some (blen s, blen s))).
  Proof.
    intros S. destruct (S [] 0 [] eq_refl (wc_end _ _)) as (its & W & M). rewrite !app_nil_r in W.
    unfold lex. rewrite (C30_complete L UO _ _ ND W).
    pose proof (attempt_recovery_spec s (recovery_lex L) its) as R.
    assert (Ok : forall e r, In (Err e, r) its -> False).
    { intros e r X. apply (in_map fst) in X. rewrite M in X. apply in_map_iff in X. destruct X as (t & X & _). discriminate. }
    destruct (attempt_recovery s (recovery_lex L) its) as [[toks|]|]; [|destruct R|exfalso; apply R; intros e a b X; destruct (Ok _ _ X)].
    destruct R as [Rt _].
    assert (Q : map fst toks = raw).
    { rewrite Rt. clear - M. revert raw M. induction its as [|[x r] its IH]; intros [|t ts] Q; try discriminate; [reflexivity|]. cbn in Q. injection Q as -> Q. cbn. rewrite (IH ts Q). reflexivity. }
    clear Rt. destruct (C28_keyword_then_colon toks) as (keys & Hk & _). rewrite Hk.
    assert (Qk : keys = keyed_list toks).
    { unfold keyword_then_colon_to_key in Hk. rewrite (keyword_collect (toks, None)) in Hk; [|exact I|cbn; lia]. injection Hk as <-. reflexivity. }
    exists keys. split; [rewrite Qk, tkeyed_list, Q; reflexivity|reflexivity].
  Qed.

  (** Each directive is followed by an empty line. *)
  Definition spaced (ds : list directive) : str := flat_map (fun d => display_directive D d ++ [newline; newline]) ds.
  Definition raw_spaced (ds : list directive) : list token := flat_map (fun d => t_directive D raw_key d ++ [T_Eol; T_Eol]) ds.

  Lemma spells_spaced ds : Forall (common L E names) ds ->
    spells L (fun rest => rest = []) (spaced ds) (raw_spaced ds) /\ line_start (spaced ds).
  Proof.
    induction 1 as [|d ds C F [IH Fr]]; [split; [apply spells_nil|now left]|].
    destruct (spells_directive L UO D E names Dok RD d C) as (S & c & r & Q & Hc). cbn [spaced raw_spaced flat_map]. fold (spaced ds) (raw_spaced ds). split.
    - apply (spells_app L line_start (fun rest => rest = [])); [|exact IH|intros rest ->; rewrite app_nil_r; exact Fr].
      apply (spells_app L after_line); [exact S| |intros rest _; right; eexists; reflexivity].
      change [newline; newline] with ([newline] ++ [newline]). change [T_Eol; T_Eol] with ([T_Eol] ++ [T_Eol]).
      apply (spells_app L line_start line_start); [exact (spells_eol L UO)|exact (spells_eol L UO)|].
      intros rest _. right. exists newline. eexists. split; [reflexivity|]. split; [unfold is_blank, newline; lia|]. unfold ignored_first. cbn. unfold newline. intuition discriminate.
    - right. rewrite Q. exists c. eexists. split; [reflexivity|]. unfold digit in Hc. split; [apply not_is_blank; lia|]. unfold ignored_first. cbn. intuition lia.
  Qed.
  Lemma spaced_keyed ds : tkeyed (raw_spaced ds) = flat_map (fun d => t_directive D T_Key d ++ [T_Eol; T_Eol]) ds.
  Proof.
    unfold raw_spaced. induction ds as [|d ds IH]; [reflexivity|]. cbn [flat_map]. rewrite tkeyed_app by (destruct ds; exact I). rewrite IH. f_equal.
    unfold t_directive. rewrite <- !app_assoc. rewrite (tkeyed_app (t_header D d)) by (destruct (directive_lines D d); exact I).
    rewrite (tkeyed_plain _ (plain_header D d)), (lines_keyed _ _ [T_Eol; T_Eol] (directive_lines D d) I). reflexivity.
  Qed.

  Definition spaced_rest (d : directive) : list (nat * (bool * list token)) := map (pair 0) (rest_lines D T_Key d).
  Definition spaced_later (ds : list directive) : list (nat * (bool * list token)) :=
    flat_map (fun d => (1, (false, t_header D d)) :: spaced_rest d) ds.
  Lemma spaced_rest_breaks d : flat_map breaksn (spaced_rest d) = indented_lines (l_directive D T_Key d).
  Proof. rewrite <- breaks_rest. unfold spaced_rest. induction (rest_lines D T_Key d) as [|x l IH]; [reflexivity|]. cbn [map flat_map]. rewrite IH. reflexivity. Qed.
  Lemma spaced_later_breaks ds : [T_Eol; T_Eol] ++ flat_map (fun d => t_directive D T_Key d ++ [T_Eol; T_Eol]) ds = flat_map breaksn (spaced_later ds) ++ repeat T_Eol 1 ++ [T_Eol].
  Proof.
    induction ds as [|d ds IH]; [reflexivity|].
    change (spaced_later (d :: ds)) with (((1, (false, t_header D d)) :: spaced_rest d) ++ spaced_later ds).
    rewrite flat_map_app, <- app_assoc, <- IH. cbn [flat_map]. rewrite spaced_rest_breaks. unfold t_directive at 1. unfold breaksn, breaks. cbn [fst snd repeat app].
    rewrite <- !app_assoc. reflexivity.
  Qed.
  Lemma spaced_later_snd ds : map snd (spaced_later ds) = later_lines D T_Key ds.
  Proof.
    unfold spaced_later, later_lines. induction ds as [|d ds IH]; [reflexivity|]. cbn [flat_map]. rewrite map_app, IH. cbn [map snd]. f_equal. f_equal.
    unfold spaced_rest. rewrite map_map. cbn. apply map_id.
  Qed.

  Lemma spaced_lexed ds : Forall (common L E names) ds ->
    exists out, lex L (spaced ds) = Fine (Some out) /\ map fst out = o_ledger D [] ds.
  Proof.
    intro Fd. destruct (spells_spaced ds Fd) as [S _]. destruct (spelled_lexed _ _ S) as (keys & Mk & ->). rewrite spaced_keyed in Mk.
    unfold o_ledger. cbn [flat_map app]. destruct ds as [|d ds].
    - destruct keys; [|discriminate]. exists []. split; [|reflexivity].
      rewrite (handle_eol_indent_layout [] _ [([(T_Eol, (0, 0))], [])]); [reflexivity|].
      constructor; [reflexivity| |].
      + intros r t [X|[]]. injection X as <- <-. split; [discriminate|]. split; constructor; [reflexivity|constructor].
      + intros a r t b X N. destruct a as [|? [|? ?]]; injection X; intros; congruence || discriminate.
    - assert (Mk' : map fst keys = t_header D d ++ flat_map breaksn (spaced_rest d ++ spaced_later ds) ++ repeat T_Eol 1 ++ [T_Eol]).
      { rewrite Mk. cbn [flat_map]. rewrite flat_map_app, spaced_rest_breaks. unfold t_directive at 1. rewrite <- !app_assoc, spaced_later_breaks. reflexivity. }
      destruct (layout_lines_n (t_header D d) (spaced_rest d ++ spaced_later ds) 1 keys (Some (blen (spaced (d :: ds)), blen (spaced (d :: ds))))) as (out & Ho & Mo).
      + apply header_clear.
      + apply Forall_map with (f := snd) (P := fun l => clear (snd l)). rewrite map_app, spaced_later_snd. unfold spaced_rest. rewrite map_map, map_id.
        apply Forall_app. split; [apply rest_clear|]. unfold later_lines. apply Forall_flat_map, Forall_forall. intros x _. constructor; [apply header_clear|apply rest_clear].
      + exact Mk'.
      + exists out. rewrite Ho. split; [reflexivity|]. rewrite laid_document, Mo, map_app, spaced_later_snd. unfold spaced_rest. rewrite map_map, map_id. reflexivity.
  Qed.
End Dump.
