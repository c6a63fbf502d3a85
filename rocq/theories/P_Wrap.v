(** * C74: what is pushed around a ledger *)
From Coq Require Import String Ascii.
From Coq Require Import List NArith ZArith Arith Bool Lia Permutation.
From Verif Require Import Base BaseFacts Text Path PathFacts Sources Types SpecTypes TypesFacts P_Types SortM SpecSort P_Sort Options SpecOptions OptionsFacts P_Options
  Pragma SpecPragma PragmaRun P_Pragma Read SpecRead ReadFacts P_Read
  Token Lexer SpecLexer P_Lexer Peg PegFacts Grammar SpecExpr SpecGrammar SpecDirective SpecDisplay SpecLedger SpecAlike P_Grammar
  Parse SpecParse SpecWhole ParseFacts ParseOnce ParseFile P_File P_Includes P_Parse IncludeTokens P_Order P_Complete AlikeRead AlikeFile AlikeWalk AlikeOptions SortFacts SimCopy SpecPaste Paste P_Paste
  SpecAppend Append P_Append SpecLocal Local Parts P_Local SpecWrap Wrap.
Import SpecPragma Read.
Import ListNotations.
Local Open Scope nat_scope.
Local Notation tok := SpecGrammar.tok.
Local Notation ended := SpecAppend.ended.

Section Wrap.
  Context (L : lexer_env) (E : grammar_env) (En : environment_ok E) (U : unicode_ok (le_unicode L)).
  Context (canonicalize : path -> option path) (root : option path).
  Context (Cano : forall p q c d, same_path p q -> canonicalize p = Some c -> canonicalize q = Some d -> same_path c d).
  Context (Root : forall p, root = Some p -> canonicalize p <> None).

  Section Around.
    Context (b c : str) (tb tc : list rtoken) (tp tq : list token).
    Context (Lb : lex L b = Fine (Some tb)) (Lc : lex L c = Fine (Some tc)) (Tc : map fst tc = tp ++ map fst tb ++ tq) (Eb : ended (map fst tb)).
    Context (Fb : fine_content L E 0 b) (Fc : fine_content L E 0 c) (Ni : without K_Include (map fst tc)) (Nq : afresh_next tq).
    Let J := input_of 0 c tc.
    Let m := List.length tp + List.length tb.
    Context (T : str -> list (spanned str)) (M : str -> list (span * spanned meta_value)) (dp dq : spanned declaration).
    Context (Dp : declares E J root initial_rules 0 (List.length tp) dp [] initial_rules) (Dq : forall r, declares E J root r m (m + List.length tq) dq [] r).
    Context (Sq : forall lim, long_strings lim J m (m + List.length tq) = []).
    Context (Tp : forall t, tag_stack t [here root dp] = T t) (Mp : forall k, meta_stack k [here root dp] = M k).
    Context (Op : options_of [here root dp] = [] /\ plugins_of [here root dp] = [] /\ as_directive (here root dp) = None /\ is_include (item dp) = false).
    Context (Oq : options_of [here root dq] = [] /\ plugins_of [here root dq] = [] /\ as_directive (here root dq) = None /\ is_include (item dq) = false).
    Context (Up : due canonicalize [] [] [] (here root dp) []).
    Context (Uq : forall s, (forall t, tag_stack t s = T t) -> (forall k, meta_stack k s = M k) -> due canonicalize [] [] s (here root dq) [] /\ leftover (s ++ [here root dq]) []).

    Lemma around ds opts ps ws : ledger_is L E canonicalize root b (Success ds opts ps ws) ->
      exists ds' opts' ps' ws', ledger_is L E canonicalize root c (Success ds' opts' ps' ws') /\
        Forall2 (fun x y => carries T M (item x) (item y)) ds ds' /\ alike_options opts opts' /\ Forall2 alike_plugin ps ps' /\ map rp_problem ws' = map rp_problem (long_strings None J 0 (List.length tp) ++ ws).
    Proof.
      intro H. destruct Fb as (t & X & Ci & Oi). rewrite Lb in X. injection X as <-. destruct Fc as (t & X & Cj & Oj). rewrite Lc in X. injection X as <-.
      assert (Nb : without K_Include (map fst tb)) by (unfold without in *; rewrite Tc in Ni; rewrite !in_app_iff in Ni; tauto).
      destruct (alone_success L E En U canonicalize root Cano Root b tb Lb Ci Oi Nb _ _ _ _ H) as (decls & rE & po & ys & Ti & Np & Du & Le & Y & So & Ob & -> & ->).
      set (I := input_of 0 b tb) in *. fold J in Cj, Oj.
      assert (Li : List.length (in_tokens I) = List.length tb) by reflexivity.
      assert (Lj : List.length (in_tokens J) = m + List.length tq) by (rewrite <- (map_length fst); change (in_tokens J) with tc; rewrite Tc, !app_length, map_length; unfold m; lia).
      pose proof (tiles_runs E En I root _ _ _ _ _ _ Ti eq_refl ltac:(lia) Ci Oi (obeyed E En)) as R.
      destruct (runs_copied E En I J root _ _ _ _ _ _ Ci Oi Cj Oj R initial_rules (List.length tp) (kin_initial E En) ltac:(lia)) as (ds1 & ws1 & r1 & R1 & A1 & W1 & K1).
      { intros k t Hk Hi. apply (tokens_at I _ _ _ eq_refl) in Hi. apply (tokens_at J _ _ _ Tc). rewrite nth_error_app2, Nat.add_comm, Nat.add_sub by lia. cbn in Hi.
        rewrite nth_error_app1; [exact Hi|]. rewrite map_length. lia. }
      { intros [z Z]. assert (nth_error (in_tokens I) (List.length (in_tokens I)) <> None) as V by congruence. apply nth_error_Some in V. lia. }
      { intro Z. apply (tokens_at J _ _ _ Tc) in Z. rewrite app_assoc, nth_error_app2 in Z by (rewrite app_length, map_length; lia).
        rewrite app_length, map_length, Li in Z. replace (List.length tp + (List.length tb - 0) - (List.length tp + List.length tb)) with 0 in Z by lia.
        destruct tq as [|z tq']; [discriminate Z|]. injection Z as ->. exact (Nq _ eq_refl). }
      { destruct Eb as [Q|(u & Q)].
        - left. rewrite Li, <- (map_length fst), Q. reflexivity.
        - right. left. exists (List.length u). split; [rewrite Li, <- (map_length fst), Q, app_length; cbn; lia|].
          apply (tokens_at I _ _ _ Q). rewrite nth_error_app2, Nat.sub_diag by lia. reflexivity. }
      replace (List.length tp + (List.length (in_tokens I) - 0)) with m in R1 by (unfold m; lia).
      assert (R2 : runs E J root r1 m [dq] [] (m + List.length tq) r1).
      { replace (@nil report) with (long_strings (rl_limit r1) J m (m + List.length tq) ++ []) by (rewrite Sq; reflexivity). econstructor; [apply Dq|constructor]. }
      assert (R0 : runs E J root initial_rules 0 [dp] (long_strings None J 0 (List.length tp) ++ []) (List.length tp) initial_rules) by (econstructor; [exact Dp|constructor]).
      pose proof (runs_tiles _ _ _ _ _ _ _ _ _ (runs_app _ _ _ _ _ _ _ _ _ _ _ _ _ R0 (runs_app _ _ _ _ _ _ _ _ _ _ _ _ _ R1 R2)) (proj2 (nth_error_None _ _) (Nat.eq_le_incl _ _ Lj))) as TJ.
      rewrite !app_nil_r in TJ. cbn [app] in TJ.
      pose proof (alike_no_include _ _ A1 Np) as Np1. destruct Op as (Op1 & Op2 & Op3 & Op4), Oq as (Oq1 & Oq2 & Oq3 & Oq4).
      pose proof (alike_here root _ _ A1) as Ae.
      assert (Du1 : dues canonicalize [] [] [] (map (here root) ds1) []) by (eapply (strip_dues root canonicalize [] [] [] [] [] _ Du [] ds1 (Forall2_nil _)); rewrite plain_here by exact Np; exact A1).
      assert (L0 : lifted T M [] [here root dp]) by (split; [exact Tp|split; [exact Mp|exact Op1]]).
      destruct (lifted_dues T M canonicalize root ds1 Np1 _ _ L0 Du1) as [Du2 Lf].
      pose proof (alike_leftover any _ _ Ae Le) as Le1. apply leftover_none in Le1. destruct Le1 as [Le1 Le2].
      destruct Lf as (Lf1 & Lf2 & Lf3). cbn [app] in Lf1, Lf2, Lf3.
      destruct (Uq (here root dp :: map (here root) ds1)) as [U1 U2].
      { intro t. rewrite Lf1, Le1. reflexivity. }
      { intro k. rewrite Lf2, Le2. reflexivity. }
      assert (Ev : map (here root) (dp :: ds1 ++ [dq]) = here root dp :: map (here root) ds1 ++ [here root dq]) by (cbn [map]; rewrite map_app; reflexivity).
      assert (DuJ : dues canonicalize [] [] [] (map (here root) (dp :: ds1 ++ [dq])) []).
      { rewrite Ev. change (@nil report) with (@nil report ++ []). constructor; [exact Up|]. change (@nil report) with (@nil report ++ []). apply dues_app; [exact Du2|].
        change (@nil report) with (@nil report ++ []). constructor; [exact U1|constructor]. }
      assert (LeJ : leftover (map (here root) (dp :: ds1 ++ [dq])) []) by (rewrite Ev; exact U2).
      assert (NpJ : Forall (fun d => is_include (item d) = false) (dp :: ds1 ++ [dq])).
      { constructor; [exact Op4|]. apply Forall_app. auto. }
      destruct (alone_parses L E En U canonicalize root Cano Root c tc Lc Cj Oj Ni _ _ _ TJ NpJ DuJ LeJ) as (poJ & yJ & sorted & YJ & SoJ & ObJ & G).
      exists sorted, (fst (assimilate_all (options_new poJ) (options_of (map (here root) (dp :: ds1 ++ [dq]))))), (plugins_of (map (here root) (dp :: ds1 ++ [dq]))), (long_strings None J 0 (List.length tp) ++ ws1).
      split; [exact G|]. split; [|split; [|split; [|rewrite !map_app, W1; reflexivity]]].
      - rewrite Ev in YJ. inversion YJ as [|? ? ? x y yr As Au Sp Yr|? ? ? ? As Yr]; subst; [congruence|]. cbn [app] in Yr.
        apply yields_split in Yr. destruct Yr as (y1 & y2 & -> & Y1 & Y2). inversion Y2 as [|? ? ? x y yr As2 Au Sp Yr|? ? ? ? As2 Yr]; subst; [congruence|]. inversion Yr; subst. rewrite app_nil_r in SoJ.
        eapply (kept_sorted (carries T M)); [|eapply lifted_yields; [| | | | |exact Y|exact Y1]|exact So|exact SoJ].
        + intros z z' [Q1 Q2 _ _ _ _ _ _ _]. split; assumption.
        + constructor.
        + exact L0.
        + exact A1.
        + exact Np1.
        + exact Du1.
      - eapply alike_opts; [exact Ob|exact ObJ|exact K1|]. rewrite (alike_options_of any _ _ Ae), Ev. f_equal.
        change (here root dp :: map (here root) ds1 ++ [here root dq]) with ([here root dp] ++ map (here root) ds1 ++ [here root dq]).
        unfold options_of in *. rewrite !flat_map_app, Op1, Oq1, app_nil_r. reflexivity.
      - rewrite Ev. change (here root dp :: map (here root) ds1 ++ [here root dq]) with ([here root dp] ++ map (here root) ds1 ++ [here root dq]).
        replace (plugins_of ([here root dp] ++ map (here root) ds1 ++ [here root dq])) with (plugins_of (map (here root) ds1)); [eapply alike_plugins_of; exact Ae|].
        unfold plugins_of in *. rewrite !flat_map_app, Op2, Oq2, app_nil_r. reflexivity.
    Qed.
  End Around.

  (** Put [pushtag #t] before a ledger which is parsed successfully and [poptag #t]
      after it, and it is parsed successfully, with the same directives in the
      same order, each with the tag [t] in addition, the same options and plugins,
      and the same warnings. *)
  Theorem C74_tag : forall t b c tb tc ds opts ps ws,
    lex L b = Fine (Some tb) -> lex L c = Fine (Some tc) ->
    map fst tc = [T_Keyword K_Pushtag; T_Tag t; T_Eol] ++ map fst tb ++ [T_Keyword K_Poptag; T_Tag t; T_Eol] ->
    tag_link_lang (g_unicode E) t -> ended (map fst tb) -> without K_Include (map fst tb) ->
    fine_content L E 0 b ->
    ledger_is L E canonicalize root b (Success ds opts ps ws) ->
    exists ds' opts' ps' ws', ledger_is L E canonicalize root c (Success ds' opts' ps' ws') /\
      Forall2 (fun x y => with_tag t (item x) (item y)) ds ds' /\ alike_options opts opts' /\ Forall2 alike_plugin ps ps' /\ map rp_problem ws = map rp_problem ws'.
  Proof.
    intros t b c tb tc ds opts ps ws Lb Lc Tc Tl Eb Nb Fb H.
    assert (Fc : fine_content L E 0 c).
    { apply (content_tokens L E 0 b tb Lb) in Fb. apply (content_tokens L E 0 c tc Lc). rewrite Tc.
      apply fine_app; [right; exists [T_Keyword K_Pushtag; T_Tag t]; reflexivity|]. split; [|apply (fine_app E _ _ Eb); split; [exact Fb|]]; apply fine_plain; unfold without; cbn; intuition discriminate. }
    set (J := input_of 0 c tc). set (m := 3 + List.length tb).
    assert (At : forall k x, k < 3 -> nth_error [T_Keyword K_Pushtag; T_Tag t; T_Eol] k = Some x -> tok J k x).
    { intros k x Hk Q. apply (tokens_at J _ _ _ Tc). rewrite nth_error_app1 by exact Hk. exact Q. }
    assert (Bt : forall k x, nth_error [T_Keyword K_Poptag; T_Tag t; T_Eol] k = Some x -> tok J (m + k) x).
    { intros k x Q. apply (tokens_at J _ _ _ Tc). rewrite app_assoc, nth_error_app2 by (rewrite app_length, map_length; cbn; unfold m; lia).
      rewrite app_length, map_length. replace (m + k - (List.length [T_Keyword K_Pushtag; T_Tag t; T_Eol] + List.length tb)) with k by (cbn; unfold m; lia). exact Q. }
    assert (Ni : without K_Include (map fst tc)).
    { unfold without in *. rewrite Tc, !in_app_iff. intros [[Q|[Q|[Q|[]]]]|[Q|[Q|[Q|[Q|[]]]]]]; try discriminate Q. contradiction. }
    set (dp := mk_spanned (D_Pragma (P_Pushtag (mk_spanned t (text J 0 2)))) (text J 0 3)).
    set (dq := mk_spanned (D_Pragma (P_Poptag (mk_spanned t (text J m (m + 2))))) (text J m (m + 3))).
    assert (Eqt : str_eqb t t = true) by (apply str_eqb_eq; reflexivity).
    assert (Sp : long_strings None J 0 3 = []).
    { apply line_strings. intros k s Hk Q. apply (tokens_at J _ _ _ Tc) in Q. destruct k as [|[|[|k]]]; try discriminate Q. lia. }
    assert (Sq : forall lim, long_strings lim J m (m + 3) = []).
    { intro lim. apply line_strings. intros k s Hk Q.
      assert (Z : forall j x, k = m + j -> nth_error [T_Keyword K_Poptag; T_Tag t; T_Eol] j = Some x -> x <> T_String s -> False).
      { intros j x -> Qx Ne. destruct (Bt _ _ Qx) as [r Y], Q as [r' Y']. congruence. }
      destruct (Nat.eq_dec k m) as [->|]; [apply (Z 0 (T_Keyword K_Poptag)); [lia|reflexivity|discriminate]|].
      destruct (Nat.eq_dec k (m + 1)) as [->|]; [apply (Z 1 (T_Tag t)); [lia|reflexivity|discriminate]|]. apply (Z 2 T_Eol); [lia|reflexivity|discriminate]. }
    assert (Dq : forall r, declares E J root r m (m + 3) dq [] r).
    { intro r. pose proof (Bt 0 _ eq_refl) as B0. pose proof (Bt 1 _ eq_refl) as B1. pose proof (Bt 2 _ eq_refl) as B2.
      unfold dq. rewrite Nat.add_0_r in B0. replace (m + 1) with (S m) in B1 by lia. replace (m + 2) with (S (S m)) in * by lia. replace (m + 3) with (S (S (S m))) in * by lia.
      eapply declares_pragma; [apply pragma_poptag; [exact B0|constructor; [exact B1|exact Tl]]|]. constructor. exact B2. }
    destruct (around b c tb tc [T_Keyword K_Pushtag; T_Tag t; T_Eol] [T_Keyword K_Poptag; T_Tag t; T_Eol] Lb Lc Tc Eb Fb Fc Ni) with (T := only_tag (mk_spanned t (text J 0 2))) (M := fun _ : str => @nil (span * spanned meta_value)) (dp := dp) (dq := dq) (11 := H)
      as (ds' & opts' & ps' & ws' & G & A & O & P & W).
    - intros vs Q. discriminate Q.
    - eapply declares_pragma; [apply pragma_pushtag; [apply At; [lia|reflexivity]|constructor; [apply At; [lia|reflexivity]|exact Tl]]|]. constructor. apply At; [lia|reflexivity].
    - exact Dq.
    - exact Sq.
    - intro y. reflexivity.
    - intro k. reflexivity.
    - repeat split.
    - repeat split.
    - reflexivity.
    - intros s St Sm. split.
      + cbn. rewrite St. unfold only_tag. cbn. rewrite Eqt. reflexivity.
      + apply leftover_none. unfold tag_stack, meta_stack in *. split; intro y; rewrite fold_left_app; [rewrite St|rewrite Sm; reflexivity]. unfold only_tag. cbn. destruct (str_eqb t y); reflexivity.
    - exists ds', opts', ps', ws'. split; [exact G|]. split; [|split; [exact O|split; [exact P|]]].
      + clear - A. induction A; constructor; [|assumption]. apply (carries_tag (mk_spanned t (text J 0 2))). assumption.
      + cbn [List.length] in W. fold J in W. rewrite Sp in W. symmetry. exact W.
  Qed.

  (** Put [pushmeta k: v] before it and [popmeta k:] after it instead, and each
      directive has the value [v] for the key [k], unless it has one for this key
      already.  There is a warning more if [v] is a long string. *)
  Theorem C74_meta : forall kv n b c tb tc tp ds opts ps ws,
    lex L b = Fine (Some tb) -> lex L c = Fine (Some tc) ->
    map fst tc = tp ++ map fst tb ++ [T_Keyword K_Popmeta; T_Key (item (mkv_key kv)); T_Colon; T_Eol] -> List.length tp = S n ->
    tok (input_of 0 c tc) 0 (T_Keyword K_Pushmeta) -> key_value_at E (input_of 0 c tc) default_names 1 n kv -> tok (input_of 0 c tc) n T_Eol ->
    ended (map fst tb) -> without K_Include (map fst tc) ->
    fine_content L E 0 c ->
    ledger_is L E canonicalize root b (Success ds opts ps ws) ->
    exists ds' opts' ps' ws', ledger_is L E canonicalize root c (Success ds' opts' ps' ws') /\
      Forall2 (fun x y => with_key (item (mkv_key kv)) (item (mkv_value kv)) (item x) (item y)) ds ds' /\ alike_options opts opts' /\ Forall2 alike_plugin ps ps' /\
      map rp_problem ws' = map rp_problem (long_strings None (input_of 0 c tc) 0 (S n) ++ ws).
  Proof.
    intros kv n b c tb tc tp ds opts ps ws Lb Lc Tc Lp T0 Kv Tn Eb Ni Fc H.
    assert (Fb : fine_content L E 0 b).
    { apply (content_tokens L E 0 c tc Lc) in Fc. apply (content_tokens L E 0 b tb Lb). rewrite Tc in Fc. apply fine_app in Fc.
      - destruct Fc as [_ Fc]. apply (fine_app E _ _ Eb) in Fc. apply Fc.
      - right. apply (tokens_at (input_of 0 c tc) _ _ _ Tc) in Tn. rewrite nth_error_app1 in Tn by lia. apply nth_error_split in Tn. destruct Tn as (us & vs & Q & Lu). exists us. rewrite Q in Lp |- *. rewrite app_length in Lp. cbn in Lp.
        destruct vs; [reflexivity|cbn in Lp; lia]. }
    set (J := input_of 0 c tc) in *. set (m := S n + List.length tb). set (k := item (mkv_key kv)) in *.
    set (tq := [T_Keyword K_Popmeta; T_Key k; T_Colon; T_Eol]) in *.
    assert (Bt : forall j x, nth_error tq j = Some x -> tok J (m + j) x).
    { intros j x Q. apply (tokens_at J _ _ _ Tc). rewrite app_assoc, nth_error_app2 by (rewrite app_length, map_length; unfold m; lia).
      rewrite app_length, map_length. replace (m + j - (List.length tp + List.length tb)) with j by (unfold m; lia). exact Q. }
    assert (Kl : key_lang (g_unicode E) k).
    { assert (Z : forall i j x, written J (key_at E J) i j x -> key_lang (g_unicode E) (item x)) by (intros i j x [W _]; inversion W; subst; congruence).
      unfold k. destruct Kv as [j n' key v W _ _|j key W _]; exact (Z _ _ _ W). }
    set (dp := mk_spanned (D_Pragma (P_Pushmeta kv)) (text J 0 (S n))).
    set (dq := mk_spanned (D_Pragma (P_Popmeta (mk_spanned k (text J m (m + 3))))) (text J m (m + 4))).
    assert (Eqt : str_eqb k k = true) by (apply str_eqb_eq; reflexivity).
    assert (Sq : forall lim, long_strings lim J m (m + 4) = []).
    { intro lim. apply line_strings. intros y s Hk Q.
      assert (Z : forall j x, y = m + j -> nth_error tq j = Some x -> x <> T_String s -> False).
      { intros j x -> Qx Ne. destruct (Bt _ _ Qx) as [r Y], Q as [r' Y']. congruence. }
      destruct (Nat.eq_dec y m) as [->|]; [apply (Z 0 (T_Keyword K_Popmeta)); [lia|reflexivity|discriminate]|].
      destruct (Nat.eq_dec y (m + 1)) as [->|]; [apply (Z 1 (T_Key k)); [lia|reflexivity|discriminate]|].
      destruct (Nat.eq_dec y (m + 2)) as [->|]; [apply (Z 2 T_Colon); [lia|reflexivity|discriminate]|]. apply (Z 3 T_Eol); [lia|reflexivity|discriminate]. }
    assert (Dq : forall r, declares E J root r m (m + 4) dq [] r).
    { intro r. pose proof (Bt 0 _ eq_refl) as B0. pose proof (Bt 1 _ eq_refl) as B1. pose proof (Bt 2 _ eq_refl) as B2. pose proof (Bt 3 _ eq_refl) as B3.
      unfold dq. rewrite Nat.add_0_r in B0. replace (m + 1) with (S m) in B1 by lia. replace (m + 2) with (S (S m)) in * by lia. replace (m + 3) with (S (S (S m))) in * by lia. replace (m + 4) with (S (S (S (S m)))) in * by lia.
      eapply declares_pragma; [apply pragma_popmeta; [exact B0|constructor; [exact B1|exact Kl]|exact B2]|]. constructor. exact B3. }
    destruct (around b c tb tc tp tq Lb Lc Tc Eb Fb Fc Ni) with (T := fun _ : str => @nil (spanned str)) (M := only_key kv) (dp := dp) (dq := dq) (11 := H)
      as (ds' & opts' & ps' & ws' & G & A & O & P & W).
    - intros vs Q. discriminate Q.
    - rewrite Lp. eapply declares_pragma; [apply pragma_pushmeta; [exact T0|exact Kv]|]. constructor. exact Tn.
    - intro r. rewrite Lp. exact (Dq r).
    - intro lim. rewrite Lp. exact (Sq lim).
    - intro y. reflexivity.
    - intro y. reflexivity.
    - repeat split.
    - repeat split.
    - reflexivity.
    - intros s St Sm. split.
      + cbn. rewrite Sm. unfold only_key. cbn. fold k. rewrite Eqt. reflexivity.
      + apply leftover_none. unfold tag_stack, meta_stack in *. split; intro y; rewrite fold_left_app; [rewrite St; reflexivity|rewrite Sm]. unfold only_key. cbn. fold k. destruct (str_eqb k y); reflexivity.
    - exists ds', opts', ps', ws'. split; [exact G|]. split; [|split; [exact O|split; [exact P|]]].
      + clear - A. induction A; constructor; [|assumption]. apply carries_key. assumption.
      + rewrite Lp in W. exact W.
  Qed.
End Wrap.

(** ** Examples *)
Definition ex_inner : str := lit "2024-01-03 close Assets:Cash" ++ [10%N] ++ lit "pushtag #trip" ++ [10%N] ++ lit "2024-01-01 open Assets:Cash" ++ [10%N] ++ lit "  where: ""here""" ++ [10%N] ++ lit "poptag #trip" ++ [10%N].
Definition ex_tagged : str := lit "pushtag #trip" ++ [10%N] ++ ex_inner ++ lit "poptag #trip" ++ [10%N].
Definition ex_keyed : str := lit "pushmeta where: ""there""" ++ [10%N] ++ ex_inner ++ lit "popmeta where:" ++ [10%N].
Example C74_ex_tag : exists ds opts ps ws,
  lex P_Lexer.ex_env ex_inner = Fine (Some (ex_lexed ex_inner)) /\ lex P_Lexer.ex_env ex_tagged = Fine (Some (ex_lexed ex_tagged)) /\
  map fst (ex_lexed ex_tagged) = [T_Keyword K_Pushtag; T_Tag (lit "trip"); T_Eol] ++ map fst (ex_lexed ex_inner) ++ [T_Keyword K_Poptag; T_Tag (lit "trip"); T_Eol] /\
  tag_link_lang (g_unicode P_Grammar.ex_env) (lit "trip") /\ ended (map fst (ex_lexed ex_inner)) /\ without K_Include (map fst (ex_lexed ex_inner)) /\
  fine_content P_Lexer.ex_env P_Grammar.ex_env 0 ex_inner /\ fine_content P_Lexer.ex_env P_Grammar.ex_env 0 ex_tagged /\
  ledger_is P_Lexer.ex_env P_Grammar.ex_env (fun p => Some p) None ex_inner (Success ds opts ps ws) /\
  map (fun d => tags_of (item d)) ds = [[lit "trip"]; []].
Proof.
  destruct (ex_ledger_success ex_inner ltac:(vm_compute; exact Logic.I)) as (ds & opts & ps & ws & HA & QA).
  exists ds, opts, ps, ws. do 2 (split; [apply ex_lexes; vm_compute; reflexivity|]). split; [vm_compute; reflexivity|].
  split; [apply (proj1 (tag_link_ok (g_unicode P_Grammar.ex_env) (lit "trip") (lit "trip"))); vm_compute; reflexivity|]. split; [right; exists (removelast (map fst (ex_lexed ex_inner))); vm_compute; reflexivity|].
  split; [apply check_without_include; vm_compute; reflexivity|]. do 2 (split; [apply check_content_ok; vm_compute; reflexivity|]).
  split; [exact HA|]. clear HA. vm_compute in QA. injection QA as <- _ _ _. vm_compute. reflexivity.
Qed.

Definition ex_keyed_input : input := input_of 0 ex_keyed (ex_lexed ex_keyed).
Definition ex_key_value : meta_key_value :=
  mk_mkv (mk_spanned (lit "where") (text ex_keyed_input 1 2)) (mk_spanned (MV_Simple (SV_String (lit "there"))) (text ex_keyed_input 3 4)).
Example C74_ex_meta : exists ds opts ps ws tp,
  lex P_Lexer.ex_env ex_inner = Fine (Some (ex_lexed ex_inner)) /\ lex P_Lexer.ex_env ex_keyed = Fine (Some (ex_lexed ex_keyed)) /\
  map fst (ex_lexed ex_keyed) = tp ++ map fst (ex_lexed ex_inner) ++ [T_Keyword K_Popmeta; T_Key (item (mkv_key ex_key_value)); T_Colon; T_Eol] /\ List.length tp = 5 /\
  tok ex_keyed_input 0 (T_Keyword K_Pushmeta) /\ key_value_at P_Grammar.ex_env ex_keyed_input default_names 1 4 ex_key_value /\ tok ex_keyed_input 4 T_Eol /\
  ended (map fst (ex_lexed ex_inner)) /\ without K_Include (map fst (ex_lexed ex_keyed)) /\
  fine_content P_Lexer.ex_env P_Grammar.ex_env 0 ex_inner /\ fine_content P_Lexer.ex_env P_Grammar.ex_env 0 ex_keyed /\
  ledger_is P_Lexer.ex_env P_Grammar.ex_env (fun p => Some p) None ex_inner (Success ds opts ps ws) /\
  map (fun d => keys_of (item d)) ds = [[lit "where"]; []].
Proof.
  destruct (ex_ledger_success ex_inner ltac:(vm_compute; exact Logic.I)) as (ds & opts & ps & ws & HA & QA).
  exists ds, opts, ps, ws, (firstn 5 (map fst (ex_lexed ex_keyed))). do 2 (split; [apply ex_lexes; vm_compute; reflexivity|]). split; [vm_compute; reflexivity|]. split; [vm_compute; reflexivity|].
  assert (Tk : forall i t, nth_error (map fst (ex_lexed ex_keyed)) i = Some t -> tok ex_keyed_input i t) by (intros i t Q; apply (tokens_at ex_keyed_input _ _ _ eq_refl); exact Q).
  split; [apply Tk; vm_compute; reflexivity|]. split.
  { apply (key_value_ P_Grammar.ex_env ex_keyed_input default_names 1 2 4).
    - split; [|reflexivity]. constructor; [apply Tk; vm_compute; reflexivity|]. apply (proj1 (key_ok (g_unicode P_Grammar.ex_env) (lit "where") (lit "where"))). vm_compute. reflexivity.
    - apply Tk. vm_compute. reflexivity.
    - split; [|reflexivity]. apply meta_simple. apply simple_string. constructor. apply Tk. vm_compute. reflexivity. }
  split; [apply Tk; vm_compute; reflexivity|]. split; [right; exists (removelast (map fst (ex_lexed ex_inner))); vm_compute; reflexivity|].
  split; [apply check_without_include; vm_compute; reflexivity|]. do 2 (split; [apply check_content_ok; vm_compute; reflexivity|]).
  split; [exact HA|]. clear HA. vm_compute in QA. injection QA as <- _ _ _. vm_compute. reflexivity.
Qed.

Print Assumptions C74_tag.
Print Assumptions C74_meta.
