(** * C86: other numbers *)
From Coq Require Import String Ascii.
From Coq Require Import List NArith ZArith Arith Bool Lia Permutation.
From Verif Require Import Base BaseFacts Text Path PathFacts Sources Types SpecTypes TypesFacts P_Types SortM SpecSort P_Sort Options SpecOptions OptionsFacts P_Options
  Pragma SpecPragma PragmaRun P_Pragma Read SpecRead ReadFacts P_Read
  Token Lexer SpecLexer P_Lexer Peg PegFacts Grammar SpecExpr SpecGrammar SpecDirective SpecDisplay SpecLedger SpecAlike ExprFacts P_Grammar
  Parse SpecParse SpecWhole ParseFacts ParseOnce ParseFile P_File P_Includes P_Parse IncludeTokens P_Order P_Complete AlikeEquiv AlikeRead AlikeFile AlikeWalk AlikeOptions SortFacts SimCopy SpecPaste Paste P_Paste SpecLayout P_Words P_Newline SpecAppend Append AppendText P_Append
  SpecDecimal Decimal P_Expr SpecRename SpecNumbers Numbers NumbersRun.
Import SpecPragma Read.
Import ListNotations.
Local Open Scope nat_scope.
Local Notation ended := SpecAppend.ended.

(** ** What may be calculated *)

Lemma same_calculable E I J : map fst (in_tokens I) = map fst (in_tokens J) -> calculable E I -> calculable E J.
Proof. intros Same C i j e S. apply (C i j e). apply (same_exprs J I (eq_sym Same)). exact S. Qed.
Lemma computable_from E I : (forall i s, tok I i (T_Currency s) -> Forall ascii s) -> calculable E I -> computable E I.
Proof. intros A C. split; [exact A|]. intros i j e _ [S _]. exact (C i j e S). Qed.

(** Where numbers stand alone there is only one number in an expression, which has
    a value, whichever it is. *)
Inductive lone : expr -> Prop := lone_value d : lone (E_Value d) | lone_neg e : lone e -> lone (E_Neg e) | lone_paren e : lone e -> lone (E_Paren e).
Lemma lone_worth ops e : lone e -> exists v, worth ops v /\ ev_expr v = e.
Proof.
  intro H. assert (C : exists d, computes ops e d) by (induction H as [d|e H [d C]|e H [d C]]; eexists; constructor; eassumption).
  destruct C as (d & C). destruct (max_places_exists e) as (s & M). exists (mk_ev (op_rescale ops d s) e). split; [|reflexivity]. exists d, s. auto.
Qed.
Lemma alone_calculable E I : numbers_alone (map fst (in_tokens I)) -> calculable E I.
Proof.
  intros A i j e S. apply lone_worth. revert i j e S.
  assert (No : forall k x y, ends_expr x -> tok I k x -> tok I (Datatypes.S k) y -> ~ In y [T_Plus; T_Minus; T_Asterisk; T_Slash]).
  { intros k x y Ex (r & X) (r' & Y). apply (A k x y); [rewrite nth_error_map, X; reflexivity|rewrite nth_error_map, Y; reflexivity|exact Ex]. }
  set (good := fun (i j : nat) (e : expr) => lone e /\ exists k t, j = Datatypes.S k /\ ends_expr t /\ tok I k t).
  assert (G : (forall i j e, sum I i j e -> good i j e) /\ (forall i j e, product I i j e -> good i j e) /\ (forall i j e, factor I i j e -> good i j e) /\ (forall i j e, primary I i j e -> good i j e)).
  { apply expr_mutind; unfold good; intros; try assumption;
      try (exfalso; match goal with H : lone _ /\ exists k t, ?j = _ /\ _ /\ _, T : tok I ?j ?y |- _ => destruct H as (_ & k9 & t9 & -> & Et & Tt); apply (No _ _ _ Et Tt T); cbn; tauto end).
    - match goal with H : lone _ /\ _ |- _ => destruct H as (Hl & Hr) end. split; [constructor; exact Hl|exact Hr].
    - split; [constructor|]. eexists _, _. split; [reflexivity|]. split; [right; eauto|eassumption].
    - match goal with H : lone _ /\ _ |- _ => destruct H as (Hl & _) end. split; [constructor; exact Hl|]. eexists _, _. split; [reflexivity|]. split; [left; reflexivity|assumption]. }
  intros i j e S. apply G in S. exact (proj1 S).
Qed.
Lemma numbers_alone_by nu ts : numbers_alone ts -> numbers_alone (map (number_token nu) ts).
Proof.
  intros A k x y Hx Hy Ex. rewrite nth_error_map in Hx, Hy. destruct (nth_error ts k) as [x0|] eqn:X; [|discriminate]. destruct (nth_error ts (Datatypes.S k)) as [y0|] eqn:Y; [|discriminate].
  cbn in Hx, Hy. injection Hx as <-. injection Hy as <-.
  assert (E0 : ends_expr x0) by (destruct Ex as [Q|[d Q]]; destruct x0; try discriminate; [left; reflexivity|right; eauto]).
  pose proof (A k x0 y0 X Y E0) as N. destruct y0; cbn in N |- *; try exact N; intuition discriminate.
Qed.

Section Numbers.
  Context (L : lexer_env) (E : grammar_env) (En : environment_ok E) (U : unicode_ok (le_unicode L)).
  Context (canonicalize : path -> option path) (root : option path).
  Context (Cano : forall p q c d, same_path p q -> canonicalize p = Some c -> canonicalize q = Some d -> same_path c d).
  Context (Root : forall p, root = Some p -> canonicalize p <> None).

  (** When a text is a ledger without includes, parsed successfully, then so is a
      text with the same tokens but with other numbers, as long as everything in
      both of them can be calculated.  What comes out is the same with the
      expressions of the other numbers, and with what they come to. *)
  Theorem C86_numbers : forall nu a c ta tc ds opts ps ws,
    lex L a = Fine (Some ta) -> lex L c = Fine (Some tc) ->
    map fst tc = map (number_token nu) (map fst ta) ->
    fine_content L E 0 a -> calculable E (input_of 0 a ta) -> calculable E (input_of 0 c tc) -> without K_Include (map fst ta) ->
    ledger_is L E canonicalize root a (Success ds opts ps ws) ->
    exists ds' opts' ps' ws', ledger_is L E canonicalize root c (Success ds' opts' ps' ws') /\
      Forall2 (fun d d' => alike (number_directive (g_ops E) nu (item d)) (item d')) ds ds' /\
      alike_options opts opts' /\ Forall2 alike_plugin ps ps' /\ Permutation (map rp_problem ws) (map rp_problem ws').
  Proof.
    intros nu a c ta tc dsA optsA psA wsA Lxa Lxc Tc Fc Ci Cj Na Ha.
    destruct Fc as (t & X & Ca & Oa). rewrite Lxa in X. injection X as <-.
    destruct (alone_success L E En U canonicalize root Cano Root a ta Lxa Ca Oa Na _ _ _ _ Ha) as (da & rA & poA & yA & TA & NpA & DuA & LeA & YA & SoA & ObA & -> & ->).
    set (tj := map (fun x => (number_token nu (fst x), snd x)) ta).
    set (I := input_of 0 a ta) in *. set (J0 := input_of 0 a tj).
    assert (Tk : in_tokens J0 = map (fun x => (number_token nu (fst x), snd x)) (in_tokens I)) by reflexivity.
    assert (Qj : map fst tj = map (number_token nu) (map fst ta)) by (unfold tj; rewrite !map_map; reflexivity).
    assert (Cj' : calculable E J0) by (eapply same_calculable; [|exact Cj]; cbn; rewrite Qj; exact Tc).
    assert (Cj0 : computable E J0).
    { apply computable_from; [|exact Cj']. intros i s T. apply (com_ascii _ _ Ca i s). apply (other_I nu I J0 Tk); [exact Logic.I|exact T]. }
    pose proof (fine_options_J nu I J0 Tk Oa) as Oj0.
    pose proof (tiles_J E nu I J0 Ci Cj' eq_refl eq_refl Tk (fun i j e S => proj1 (proj1 (bounds I) i j e S)) root
      (fun r0 i H => ParseOnce.not_indented E I root r0 i H) initial_rules 0 da [] wsA rA TA) as TJ.
    set (dn := map (in_place (number_declaration E nu)) da) in *.
    assert (Nb : without K_Include (map fst tj)).
    { unfold without in *. rewrite Qj. intro H. apply in_map_iff in H. destruct H as (x & Q & H). apply Na. destruct x; try discriminate; cbn in Q; congruence. }
    pose proof (numbered_plain E nu da NpA) as NpN. fold dn in NpN.
    assert (Pl : forall l l', Forall2 (alike_declaration any) l l' -> Forall (fun d => is_include (item d) = false) l -> Forall (fun d => is_include (item d) = false) l').
    { intros l l' Al. induction Al as [|d d' l l' Ad Al IH]; intro Np; constructor; inversion Np; subst; auto. rewrite <- (alike_include _ _ _ Ad). assumption. }
    assert (Tc' : map fst tc = map fst tj ++ []) by (rewrite Qj, app_nil_r; exact Tc).
    pose proof (same_computable E J0 (input_of 0 c tc) ltac:(cbn; rewrite Tc', app_nil_r; reflexivity) Cj0) as Cc.
    pose proof (same_fine_options J0 (input_of 0 c tc) ltac:(cbn; rewrite Tc', app_nil_r; reflexivity) Oj0) as Oc.
    set (J := input_of 0 c tc) in *.
    destruct (copied_on E En root c tc a tj dn wsA initial_rules rA Cc Oc Cj0 Oj0 Nb (obeyed E En) (ex_intro _ _ ObA) TJ NpN) as [_ RdB]. fold J in RdB.
    assert (K0 : kin E initial_rules initial_rules).
    { destruct (obeyed E En) as [p0 X]. exists p0, p0. repeat split; apply X. }
    assert (R0 : rest_at J 0 (map fst tj ++ [])) by (split; [apply Nat.le_0_l|cbn; exact Tc']).
    assert (Cl : closes (map fst tj) [] []).
    { destruct (last_cases (map fst tj)) as [->|(u & t & ->)]; [constructor|]. destruct (token_eol_dec t) as [->|Ne]; constructor; exact Ne. }
    destruct (RdB initial_rules 0 [] [] K0 R0 Cl ltac:(discriminate)) as (db' & wsB' & k2 & r2 & RuB & Rk2 & K2 & Al & PeB).
    assert (Fk : finished J k2) by (apply rest_finished in Rk2; unfold finished; apply nth_error_None; lia).
    pose proof (runs_tiles _ _ _ _ _ _ _ _ _ RuB Fk) as T2.
    assert (Nc : without K_Include (map fst tc)) by (unfold without; rewrite Tc', app_nil_r; exact Nb).
    pose proof (Pl _ _ Al NpN) as Np2.
    pose proof (numbered_dues E nu root canonicalize da NpA [] DuA) as DuN. cbn [map] in DuN. fold dn in DuN.
    pose proof (numbered_leftover E nu root da LeA) as LeN. fold dn in LeN.
    pose proof (numbered_yields E nu root da [] yA YA) as YN. cbn [map] in YN. fold dn in YN.
    set (eN := map (here root) dn) in *.
    pose proof (alike_here root _ _ Al) as Ae. fold eN in Ae.
    assert (St : plain eN = dn).
    { unfold eN. clear - NpN. induction NpN as [|d ds Nd Np IH]; [reflexivity|]. cbn [map]. unfold here at 1. unfold plain in *. cbn [flat_map]. rewrite Nd, IH. reflexivity. }
    assert (Du' : dues canonicalize [] [] [] (map (here root) db') []).
    { eapply (strip_dues root canonicalize [] [] [] [] [] _ DuN [] db' (Forall2_nil _)). rewrite St. exact Al. }
    pose proof (alike_leftover any _ _ Ae LeN) as Le'.
    destruct (alone_parses L E En U canonicalize root Cano Root c tc Lxc Cc Oc Nc _ _ _ T2 Np2 Du' Le') as (po2 & y2 & sorted & Y2 & So2 & Ob2 & Lg).
    pose proof (alike_options_of any _ _ Ae) as Qo.
    exists sorted, (fst (assimilate_all (options_new po2) (options_of (map (here root) db')))), (plugins_of (map (here root) db')), wsB'.
    split; [exact Lg|]. split; [|split; [|split; [|exact PeB]]].
    - assert (X : Forall2 (fun d d' => alike (item d) (item d')) (map (in_place (number_directive (g_ops E) nu)) dsA) sorted).
      { eapply alike_sorted; [|exact (numbered_sorted E nu _ _ SoA)|exact So2]. eapply alike_yields; [exact YN|apply Forall2_nil|exact Ae|exact Y2]. }
      clear - X. remember (map (in_place (number_directive (g_ops E) nu)) dsA) as l eqn:Q. revert dsA Q.
      induction X as [|x y l l' A Al IH]; intros [|d ds] Q; try discriminate; constructor; cbn in Q; injection Q as -> Q; auto.
    - pose proof (alike_opts E poA po2 rA r2 eN (map (here root) db') ObA Ob2 K2 Qo) as X. unfold eN, dn in X. rewrite (numbered_options E nu) in X. exact X.
    - pose proof (alike_plugins_of any _ _ Ae) as X. unfold eN, dn in X. rewrite (numbered_plugins E nu) in X. exact X.
  Qed.

  (** So where numbers stand alone, with signs and parentheses at most, any numbers
      can take their place. *)
  Theorem C86_alone : forall nu a c ta tc ds opts ps ws,
    lex L a = Fine (Some ta) -> lex L c = Fine (Some tc) ->
    map fst tc = map (number_token nu) (map fst ta) ->
    fine_content L E 0 a -> numbers_alone (map fst ta) -> without K_Include (map fst ta) ->
    ledger_is L E canonicalize root a (Success ds opts ps ws) ->
    exists ds' opts' ps' ws', ledger_is L E canonicalize root c (Success ds' opts' ps' ws') /\
      Forall2 (fun d d' => alike (number_directive (g_ops E) nu (item d)) (item d')) ds ds' /\
      alike_options opts opts' /\ Forall2 alike_plugin ps ps' /\ Permutation (map rp_problem ws) (map rp_problem ws').
  Proof.
    intros nu a c ta tc ds opts ps ws Lxa Lxc Tc Fc Al Na Ha.
    apply (C86_numbers nu a c ta tc ds opts ps ws); auto; apply alone_calculable; [exact Al|]. cbn. rewrite Tc. apply numbers_alone_by. exact Al.
  Qed.
End Numbers.

(** ** A case: ten more of the last place, where numbers stand alone *)
Definition ex_nu (d : decimal) : decimal := mk_dec (dec_neg d) (dec_mant d + 10) (dec_scale d).
Fixpoint check_alone (ts : list token) : bool :=
  match ts with
  | (T_Number _ | T_Rparen) :: (((T_Plus | T_Minus | T_Asterisk | T_Slash) :: _) as rest) => false
  | _ :: rest => check_alone rest
  | [] => true
  end.
Lemma check_alone_ok ts : check_alone ts = true -> numbers_alone ts.
Proof.
  induction ts as [|a ts IH]; intros H k x y Hx Hy Ex.
  - destruct k; discriminate.
  - assert (T : check_alone ts = true) by (clear - H; destruct a; try exact H; destruct ts as [|[] ts]; try exact H; discriminate).
    destruct k as [|k]; cbn in Hx, Hy; [|exact (IH T k x y Hx Hy Ex)]. injection Hx as ->. destruct ts as [|b ts]; [discriminate|]. injection Hy as ->. clear IH T.
    intro X. cbn in X. destruct Ex as [->|[d ->]]; repeat (destruct X as [<-|X]; [discriminate|]); exact X.
Qed.
Definition ex_small : str :=
  lit "pushmeta nr: 3" ++ [10%N] ++ lit "2024-01-01 open Assets:Cash" ++ [10%N] ++ lit "2024-01-02 * ""b"" #food" ++ [10%N] ++ lit "  of: 3 USD" ++ [10%N] ++
  lit "  Assets:Cash  -(5.25) CHF {4 # 2 USD} @ 5 USD" ++ [10%N] ++ lit "  Income:Gift" ++ [10%N] ++ lit "2024-01-03 balance Assets:Cash 3 ~ 0.1 CHF" ++ [10%N] ++
  lit "2024-01-04 price USD 1.5 CHF" ++ [10%N] ++ lit "2024-01-05 custom ""x"" 1 2 CHF" ++ [10%N] ++ lit "popmeta nr:" ++ [10%N].
Definition ex_large : str :=
  lit "pushmeta nr: 13" ++ [10%N] ++ lit "2024-01-01 open Assets:Cash" ++ [10%N] ++ lit "2024-01-02 * ""b"" #food" ++ [10%N] ++ lit "  of: 13 USD" ++ [10%N] ++
  lit "  Assets:Cash  -(5.35) CHF {14 # 12 USD} @ 15 USD" ++ [10%N] ++ lit "  Income:Gift" ++ [10%N] ++ lit "2024-01-03 balance Assets:Cash 13 ~ 1.1 CHF" ++ [10%N] ++
  lit "2024-01-04 price USD 2.5 CHF" ++ [10%N] ++ lit "2024-01-05 custom ""x"" 11 12 CHF" ++ [10%N] ++ lit "popmeta nr:" ++ [10%N].
Example C86_alone_ex : exists ta tc ds opts ps ws,
  lex P_Lexer.ex_env ex_small = Fine (Some ta) /\ lex P_Lexer.ex_env ex_large = Fine (Some tc) /\
  map fst tc = map (number_token ex_nu) (map fst ta) /\
  fine_content P_Lexer.ex_env P_Grammar.ex_env 0 ex_small /\ numbers_alone (map fst ta) /\ without K_Include (map fst ta) /\
  ledger_is P_Lexer.ex_env P_Grammar.ex_env (fun p => Some p) None ex_small (Success ds opts ps ws) /\ List.length ds = 5.
Proof.
  assert (Ca : check_content P_Lexer.ex_env P_Grammar.ex_env 0 ex_small = true) by (vm_compute; reflexivity).
  assert (Cc : check_content P_Lexer.ex_env P_Grammar.ex_env 0 ex_large = true) by (vm_compute; reflexivity).
  destruct (ex_ledger_success ex_small ltac:(vm_compute; exact Logic.I)) as (ds & opts & ps & ws & H & Q).
  exists (ex_lexed ex_small), (ex_lexed ex_large), ds, opts, ps, ws.
  split; [apply ex_lexes; exact Ca|]. split; [apply ex_lexes; exact Cc|]. split; [vm_compute; reflexivity|].
  split; [apply check_content_ok; exact Ca|]. split; [apply check_alone_ok; vm_compute; reflexivity|]. split; [apply check_without_include; vm_compute; reflexivity|].
  split; [exact H|]. clear - Q. vm_compute in Q. injection Q as <- _ _ _. reflexivity.
Qed.

(** ** A case: an expression of two numbers *)
Definition ex_third : str := lit "2024-01-04 price USD 1 / 3 CHF" ++ [10%N].
Definition ex_eleven : str := lit "2024-01-04 price USD 11 / 13 CHF" ++ [10%N].
Lemma quotient_calculable x y r : (forall e, In e [E_Value x; E_Value y; E_Div (E_Value x) (E_Value y)] -> exists v, worth (g_ops P_Grammar.ex_env) v /\ ev_expr v = e) ->
  map fst (in_tokens r) = [T_Date (mk_date 2024 1 4); T_Keyword K_Price; T_Currency (lit "USD"); T_Number x; T_Slash; T_Number y; T_Currency (lit "CHF"); T_Eol] -> calculable P_Grammar.ex_env r.
Proof.
  intros W Q. 
  assert (T : forall k t, tok r k t -> nth_error [T_Date (mk_date 2024 1 4); T_Keyword K_Price; T_Currency (lit "USD"); T_Number x; T_Slash; T_Number y; T_Currency (lit "CHF"); T_Eol] k = Some t).
  { intros k t (p & H). rewrite <- Q, nth_error_map, H. reflexivity. }
  assert (X : (forall i j e, sum r i j e -> In (i, j, e) [(3, 4, E_Value x); (5, 6, E_Value y); (3, 6, E_Div (E_Value x) (E_Value y))]) /\
              (forall i j e, product r i j e -> In (i, j, e) [(3, 4, E_Value x); (5, 6, E_Value y); (3, 6, E_Div (E_Value x) (E_Value y))]) /\
              (forall i j e, factor r i j e -> In (i, j, e) [(3, 4, E_Value x); (5, 6, E_Value y)]) /\ (forall i j e, primary r i j e -> In (i, j, e) [(3, 4, E_Value x); (5, 6, E_Value y)])).
  { apply expr_mutind; intros; repeat match goal with H : tok r _ _ |- _ => apply T in H end;
      repeat match goal with H : In _ _ |- _ => cbn [In] in H; repeat (destruct H as [H|H]; [injection H as <- <- <-|]); try contradiction end; try discriminate; cbn [In]; auto.
    - destruct H as [H|[H|[H|[]]]]; try discriminate. injection H as <- <-. auto.
    - do 8 (destruct i as [|i]; [discriminate || (cbn in t; injection t as <-; auto)|]). destruct i; discriminate. }
  intros i j e S. apply X in S. apply W. cbn [In] in S |- *. repeat (destruct S as [S|S]; [injection S as <- <- <-; auto|]). contradiction.
Qed.
Example C86_numbers_ex : exists ta tc ds opts ps ws,
  lex P_Lexer.ex_env ex_third = Fine (Some ta) /\ lex P_Lexer.ex_env ex_eleven = Fine (Some tc) /\
  map fst tc = map (number_token ex_nu) (map fst ta) /\
  fine_content P_Lexer.ex_env P_Grammar.ex_env 0 ex_third /\ calculable P_Grammar.ex_env (input_of 0 ex_third ta) /\ calculable P_Grammar.ex_env (input_of 0 ex_eleven tc) /\
  without K_Include (map fst ta) /\
  ledger_is P_Lexer.ex_env P_Grammar.ex_env (fun p => Some p) None ex_third (Success ds opts ps ws) /\ List.length ds = 1.
Proof.
  assert (Ca : check_content P_Lexer.ex_env P_Grammar.ex_env 0 ex_third = true) by (vm_compute; reflexivity).
  assert (Cc : check_content P_Lexer.ex_env P_Grammar.ex_env 0 ex_eleven = true) by (vm_compute; reflexivity).
  destruct (ex_ledger_success ex_third ltac:(vm_compute; exact Logic.I)) as (ds & opts & ps & ws & H & Q).
  assert (W : forall e, match expr_value_from exact_ops e with Fine _ => True | Panic => False end -> exists v, worth (g_ops P_Grammar.ex_env) v /\ ev_expr v = e).
  { intros e X. destruct (expr_value_from exact_ops e) as [v|] eqn:V; [|contradiction]. apply C20_evaluates_tree in V. destruct V as (d & s & A & B & C & D). subst e. exists v. split; [|reflexivity]. exists d, s. auto. }
  exists (ex_lexed ex_third), (ex_lexed ex_eleven), ds, opts, ps, ws.
  split; [apply ex_lexes; exact Ca|]. split; [apply ex_lexes; exact Cc|]. split; [vm_compute; reflexivity|].
  split; [apply check_content_ok; exact Ca|].
  split; [apply (quotient_calculable (mk_dec false 1 0) (mk_dec false 3 0)); [intros e He; apply W; cbn in He; repeat (destruct He as [<-|He]; [vm_compute; exact Logic.I|]); contradiction|vm_compute; reflexivity]|].
  split; [apply (quotient_calculable (mk_dec false 11 0) (mk_dec false 13 0)); [intros e He; apply W; cbn in He; repeat (destruct He as [<-|He]; [vm_compute; exact Logic.I|]); contradiction|vm_compute; reflexivity]|].
  split; [apply check_without_include; vm_compute; reflexivity|].
  split; [exact H|]. clear - Q. vm_compute in Q. injection Q as <- _ _ _. reflexivity.
Qed.

(** ** What is necessary *)

(** If a divisor becomes zero, nothing comes out: parsing panics. *)
Theorem C86_zero_refuted : exists L E nu a c ta tc dsA optsA psA wsA glob_with read s toks,
  unicode_ok (le_unicode L) /\ environment_ok E /\
  lex L a = Fine (Some ta) /\ lex L c = Fine (Some tc) /\ map fst tc = map (number_token nu) (map fst ta) /\
  ledger_is L E (fun p => Some p) None a (Success dsA optsA psA wsA) /\
  read_with_includes (includes_of L) glob_with (fun p => Some p) read 1 None c = Some s /\ parser_new L s = Fine (Some toks) /\ parse E (fun p => Some p) s toks = Panic.
Proof.
  pose (nu := fun d : decimal => if (dec_mant d =? 3)%N then mk_dec false 0 0 else d).
  pose (c := lit "2024-01-04 price USD 1 / 0 CHF" ++ [10%N]).
  destruct (ex_ledger_success ex_third ltac:(vm_compute; exact Logic.I)) as (dsA & optsA & psA & wsA & HA & _).
  assert (Ca : check_content P_Lexer.ex_env P_Grammar.ex_env 0 ex_third = true) by (vm_compute; reflexivity).
  exists P_Lexer.ex_env, P_Grammar.ex_env, nu, ex_third, c, (ex_lexed ex_third), (ex_lexed c), dsA, optsA, psA, wsA, (fun _ => Ok []), (fun _ => Err []).
  do 2 eexists. split; [exact P_Lexer.arabic_ok|]. split; [exact P_File.ex_environment|].
  split; [apply ex_lexes; exact Ca|]. split; [vm_compute; reflexivity|]. split; [vm_compute; reflexivity|]. split; [exact HA|].
  split; [vm_compute; reflexivity|]. split; [vm_compute; reflexivity|]. vm_compute. reflexivity.
Qed.

Print Assumptions C86_numbers.
Print Assumptions C86_alone.
Print Assumptions C86_zero_refuted.
