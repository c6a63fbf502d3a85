(** * C73: a directive stands for itself *)
From Coq Require Import String Ascii.
From Coq Require Import List NArith ZArith Arith Bool Lia Permutation.
From Verif Require Import Base BaseFacts Text Path PathFacts Sources Types SpecTypes TypesFacts P_Types SortM SpecSort P_Sort Options SpecOptions OptionsFacts P_Options
  Pragma SpecPragma PragmaRun P_Pragma Read SpecRead ReadFacts P_Read
  Token Lexer SpecLexer P_Lexer Peg PegFacts Grammar SpecExpr SpecGrammar SpecDirective SpecDisplay SpecLedger SpecAlike P_Grammar
  Parse SpecParse SpecWhole ParseFacts ParseOnce ParseFile P_File P_Includes P_Parse IncludeTokens P_Order P_Complete AlikeRead AlikeFile AlikeWalk AlikeOptions SortFacts SimCopy SpecPaste Paste P_Paste
  SpecAppend Append AppendText P_Append SpecLocal Local Parts.
Import SpecPragma Read.
Import ListNotations.
Local Open Scope nat_scope.
Local Notation tok := SpecGrammar.tok.
Local Notation ended := SpecAppend.ended.

Lemma tokens_at I l k t : map fst (in_tokens I) = l -> (tok I k t <-> nth_error l k = Some t).
Proof.
  intros <-. rewrite nth_error_map. unfold tok. destruct (nth_error (in_tokens I) k) as [[t' r]|]; cbn; split.
  - intros [x X]. congruence.
  - intro X. injection X as ->. eauto.
  - intros [x X]. discriminate.
  - discriminate.
Qed.

Section Local.
  Context (L : lexer_env) (E : grammar_env) (En : environment_ok E) (U : unicode_ok (le_unicode L)).
  Context (canonicalize : path -> option path) (root : option path).
  Context (Cano : forall p q c d, same_path p q -> canonicalize p = Some c -> canonicalize q = Some d -> same_path c d).
  Context (Root : forall p, root = Some p -> canonicalize p <> None).

  Section Split.
    Context (ta td tb : list token) (Ea : ended ta) (Ed : entry td) (Fb : afresh_next tb).
    Lemma start_after I more : map fst (in_tokens I) = ta ++ more -> afresh_next more -> line_start I (List.length ta).
    Proof.
      intros Q F. split.
      - destruct Ea as [->|(u & ->)]; [left; reflexivity|right]. exists (List.length u). split; [rewrite app_length; cbn; lia|].
        apply (tokens_at _ _ _ _ Q). rewrite <- app_assoc, nth_error_app2, Nat.sub_diag by lia. reflexivity.
      - intro T. apply (tokens_at _ _ _ _ Q) in T. rewrite nth_error_app2, Nat.sub_diag in T by lia. destruct more as [|x more]; [discriminate|]. injection T as ->. exact (F _ eq_refl).
    Qed.
    Lemma entry_afresh more : afresh_next (td ++ more).
    Proof. destruct Ed as [(d & r & ->) _ _]. intros vs X. discriminate. Qed.
    Lemma entry_line : ended (ta ++ td).
    Proof. destruct Ed as [_ (u & ->) _]. right. exists (ta ++ u). apply app_assoc. Qed.
  End Split.

  Lemma kin_initial : kin E initial_rules initial_rules.
  Proof. destruct (obeyed E En) as [p0 X]. exists p0, p0. repeat split; apply X. Qed.
  Lemma plain_here ds : Forall (fun d => is_include (item d) = false) ds -> plain (map (here root) ds) = ds.
  Proof. intro F. induction F as [|d ds Nd Np IH]; [reflexivity|]. cbn [map]. unfold here at 1. unfold plain in *. cbn [flat_map]. rewrite Nd, IH. reflexivity. Qed.
  Lemma alike_no_include ds ds' : Forall2 (alike_declaration any) ds ds' -> Forall (fun d => is_include (item d) = false) ds -> Forall (fun d => is_include (item d) = false) ds'.
  Proof. intro Al. induction Al as [|d d' l l' Ad Al IH]; intro Np; constructor; inversion Np; subst; auto. rewrite <- (alike_include _ _ _ Ad). assumption. Qed.

  (** What comes of declarations and of the same declarations with a directive
      among them. *)
  Lemma level_between d1 x sp d3 : level (map (here root) (d1 ++ d3)) (map (here root) (d1 ++ mk_spanned (D_Directive x) sp :: d3)).
  Proof. rewrite !map_app. cbn [map]. change (here root (mk_spanned (D_Directive x) sp) :: map (here root) d3) with ([here root (mk_spanned (D_Directive x) sp)] ++ map (here root) d3). rewrite app_assoc. apply level_snoc. eapply level_directive. reflexivity. Qed.
  Lemma level_leftover a b : level a b -> (leftover a [] <-> leftover b []).
  Proof. intros (T & M & _). rewrite !leftover_none. split; intros [X Y]; split; intro z; [rewrite <- T|rewrite <- M|rewrite T|rewrite M]; auto. Qed.
  Lemma plugins_between d1 x sp d3 : plugins_of (map (here root) (d1 ++ mk_spanned (D_Directive x) sp :: d3)) = plugins_of (map (here root) (d1 ++ d3)).
  Proof. unfold plugins_of. rewrite !map_app, !flat_map_app. reflexivity. Qed.
  Lemma dues_between d1 x sp d3 : Forall (fun d => is_include (item d) = false) (d1 ++ d3) ->
    dues canonicalize [] [] [] (map (here root) (d1 ++ mk_spanned (D_Directive x) sp :: d3)) [] <-> dues canonicalize [] [] [] (map (here root) (d1 ++ d3)) [].
  Proof.
    intro F. apply Forall_app in F. destruct F as [F1 F3]. rewrite !map_app. cbn [map]. set (e := here root (mk_spanned (D_Directive x) sp)). split; intro D.
    - apply dues_split in D. destruct D as [A B]. inversion B as [|? ? ? rs rs' X Y Q1 Q2]; subst. match goal with Q : _ ++ _ = [] |- _ => apply app_eq_nil in Q; destruct Q as [-> ->] end.
      change (@nil report) with (@nil report ++ []). apply dues_app; [exact A|]. eapply level_dues; [exact F3| |exact Y]. apply level_sym. eapply level_directive. reflexivity.
    - apply dues_split in D. destruct D as [A B]. change (@nil report) with (@nil report ++ []). apply dues_app; [exact A|]. change (@nil report) with (@nil report ++ []).
      apply dues_cons; [reflexivity|]. eapply level_dues; [exact F3| |exact B]. eapply level_directive. reflexivity.
  Qed.
  Lemma yields_between d1 x sp d3 ys : yields [] (map (here root) (d1 ++ mk_spanned (D_Directive x) sp :: d3)) ys ->
    exists y1 y y3, ys = y1 ++ y :: y3 /\ span_of y = sp /\ yields [] (map (here root) (d1 ++ d3)) (y1 ++ y3).
  Proof.
    rewrite !map_app. cbn [map]. intro Y. apply yields_split in Y. destruct Y as (y1 & y2 & -> & Y1 & Y2). inversion Y2 as [|? ? ? d d' ds As Au Sp Y3|? ? ? ? As]; subst.
    - exists y1, d', ds. split; [reflexivity|]. split; [rewrite Sp; cbn in As; injection As as <-; reflexivity|]. apply yields_app; [exact Y1|]. eapply level_yields; [exact Y3|]. apply level_sym. eapply level_directive. reflexivity.
    - discriminate As.
  Qed.

  (** Take the lines of one directive out of a text which is parsed successfully,
      and it is parsed successfully, with the same directives but for that one
      (which is the one whose place is these lines), the same options and
      plugins, and the same warnings but for those about strings in these
      lines. *)
  Theorem C73_delete : forall c c' tc tc' ta td tb ds opts ps ws,
    lex L c = Fine (Some tc) -> lex L c' = Fine (Some tc') -> map fst tc = ta ++ td ++ tb -> map fst tc' = ta ++ tb ->
    ended ta -> entry td -> afresh_next tb ->
    fine_content L E 0 c -> without K_Include (map fst tc) ->
    ledger_is L E canonicalize root c (Success ds opts ps ws) ->
    exists before d after ds' opts' ps' ws' limit,
      ds = before ++ d :: after /\ span_of d = text (input_of 0 c tc) (List.length ta) (List.length ta + List.length td) /\
      ledger_is L E canonicalize root c' (Success ds' opts' ps' ws') /\
      Forall2 (fun x y => alike (item x) (item y)) (before ++ after) ds' /\ alike_options opts opts' /\ Forall2 alike_plugin ps ps' /\
      Permutation (map rp_problem ws) (map rp_problem (ws' ++ long_strings limit (input_of 0 c tc) (List.length ta) (List.length ta + List.length td))).
  Proof.
    intros c c' tc tc' ta td tb ds opts ps ws Lx Lx' Tc Tc' Ea Ed Fb Fc Ni H.
    assert (Fc' : fine_content L E 0 c').
    { apply (content_tokens L E 0 c tc Lx) in Fc. apply (content_tokens L E 0 c' tc' Lx'). rewrite Tc in Fc. rewrite Tc'. apply (fine_app E ta _ Ea) in Fc. destruct Fc as [Fa Ft].
      apply (fine_app E td _ (or_intror (entry_ended _ Ed))) in Ft. apply (fine_app E ta _ Ea). split; [exact Fa|apply Ft]. }
    destruct Fc as (t & X & Ci & Oi). rewrite Lx in X. injection X as <-. destruct Fc' as (t & X & Cj & Oj). rewrite Lx' in X. injection X as <-.
    destruct (alone_success L E En U canonicalize root Cano Root c tc Lx Ci Oi Ni _ _ _ _ H) as (decls & rE & po & ys & T & Np & Du & Le & Y & So & Ob & -> & ->).
    set (I := input_of 0 c tc) in *. set (J := input_of 0 c' tc') in *. set (p := List.length ta). set (q := p + List.length td).
    assert (Li : List.length (in_tokens I) = q + List.length tb) by (rewrite <- (map_length fst); change (in_tokens I) with tc; rewrite Tc, !app_length; unfold p, q; lia).
    assert (Lj : List.length (in_tokens J) = p + List.length tb) by (rewrite <- (map_length fst); change (in_tokens J) with tc'; rewrite Tc', !app_length; unfold p; lia).
    pose proof (start_after ta Ea I _ Tc (entry_afresh td Ed tb)) as Sp. fold p in Sp.
    assert (Sq : line_start I q).
    { pose proof (start_after (ta ++ td) (entry_line ta td Ed) I tb) as Z. rewrite app_length in Z. apply Z; [rewrite <- app_assoc; exact Tc|exact Fb]. }
    pose proof (start_after ta Ea J _ Tc' Fb) as Sj. fold p in Sj.
    destruct (tiles_at E En I root _ _ _ _ _ _ p Ci Oi (obeyed E En) T eq_refl ltac:(unfold q in *; lia) Sp) as (d1 & d2 & w1 & w2 & r1 & -> & -> & R1 & T2 & Ob1).
    destruct (tiles_at E En I root _ _ _ _ _ _ q Ci Oi Ob1 T2 eq_refl ltac:(unfold q in *; lia) Sq) as (dm & d3 & wm & w3 & r2 & -> & -> & Rm & T3 & Ob2).
    destruct (runs_entry E En I root _ _ _ _ _ _ td Ci Oi Ob1 Rm Ed ltac:(unfold q; lia) ltac:(unfold q; lia)) as (x & -> & Dx & -> & ->).
    { intros z Hz. assert (Z : nth_error (map fst (in_tokens I)) (p + z) = nth_error td z).
      { change (in_tokens I) with tc. rewrite Tc, nth_error_app2 by (unfold p; lia). replace (p + z - List.length ta) with z by (unfold p; lia). apply nth_error_app1. unfold q in Hz. lia. }
      rewrite nth_error_map in Z. exact Z. }
    pose proof (tiles_runs E En I root _ _ _ _ _ _ T3 eq_refl ltac:(lia) Ci Oi Ob2) as R3.
    assert (Same : forall k t, k < p -> tok I k t -> tok J k t).
    { intros k t Hk Hi. apply (tokens_at I _ _ _ Tc) in Hi. apply (tokens_at J _ _ _ Tc'). rewrite nth_error_app1 in * by exact Hk. exact Hi. }
    assert (Same3 : forall k t, tok I (q + k) t -> tok J (p + k) t).
    { intros k t Hi. apply (tokens_at I _ _ _ Tc) in Hi. apply (tokens_at J _ _ _ Tc'). rewrite app_assoc, nth_error_app2 in Hi by (rewrite app_length; unfold q, p; lia).
      rewrite nth_error_app2 by (unfold p; lia). rewrite app_length in Hi. replace (q + k - (List.length ta + List.length td)) with k in Hi by (unfold q, p; lia). replace (p + k - List.length ta) with k by (unfold p; lia). exact Hi. }
    destruct (runs_copied E En I J root _ _ _ _ _ _ Ci Oi Cj Oj R1 initial_rules 0 kin_initial ltac:(lia)) as (d1' & w1' & r1' & R1' & A1 & W1 & K1).
    { intros k t Hk. apply Same. lia. }
    { apply Sp. }
    { replace (0 + (p - 0)) with p by lia. apply Sj. }
    { destruct (proj1 Sp) as [Z|Z]; [left; exact Z|right; left; exact Z]. }
    replace (0 + (p - 0)) with p in R1' by lia.
    destruct (runs_copied E En I J root _ _ _ _ _ _ Ci Oi Cj Oj R3 r1' p K1 ltac:(lia)) as (d3' & w3' & r3' & R3' & A3 & W3 & K3).
    { intros k t _. apply Same3. }
    { intros [z Z]. assert (nth_error (in_tokens I) (List.length (in_tokens I)) <> None) as V by congruence. apply nth_error_Some in V. lia. }
    { intros [z Z]. assert (nth_error (in_tokens J) (p + (List.length (in_tokens I) - q)) <> None) as V by congruence. apply nth_error_Some in V. lia. }
    { right. right. split; apply nth_error_None; lia. }
    assert (Fj : finished J (p + (List.length (in_tokens I) - q))) by (apply nth_error_None; lia).
    pose proof (runs_tiles _ _ _ _ _ _ _ _ _ (runs_app _ _ _ _ _ _ _ _ _ _ _ _ _ R1' R3') Fj) as TJ. pose proof (Forall2_app A1 A3) as Al.
    cbn [app] in *. set (dx := mk_spanned (D_Directive x) (text I p q)) in *.
    assert (Np' : Forall (fun d => is_include (item d) = false) (d1 ++ d3)).
    { apply Forall_app in Np. destruct Np as [Na Nb]. inversion Nb; subst. apply Forall_app. auto. }
    pose proof (alike_no_include _ _ Al Np') as NpJ.
    assert (Ni' : without K_Include (map fst tc')).
    { unfold without in *. rewrite Tc'. rewrite Tc in Ni. rewrite !in_app_iff in *. tauto. }
    pose proof (proj1 (dues_between _ _ _ _ Np') Du) as Du1. pose proof (proj2 (level_leftover _ _ (level_between d1 x (text I p q) d3)) Le) as Le1.
    destruct (yields_between _ _ _ _ _ Y) as (y1 & y & y3 & -> & Sy & Y1).
    pose proof (alike_here root _ _ Al) as Ae.
    assert (DuJ : dues canonicalize [] [] [] (map (here root) (d1' ++ d3')) []).
    { eapply (strip_dues root canonicalize [] [] [] [] [] _ Du1 [] (d1' ++ d3') (Forall2_nil _)). rewrite plain_here by exact Np'. exact Al. }
    pose proof (alike_leftover any _ _ Ae Le1) as LeJ.
    destruct (alone_parses L E En U canonicalize root Cano Root c' tc' Lx' Cj Oj Ni' _ _ _ TJ NpJ DuJ LeJ) as (poJ & yJ & sorted & YJ & SoJ & ObJ & G).
    destruct (sorted_without _ _ _ _ So) as (before & after & -> & So1).
    exists before, y, after, sorted, (fst (assimilate_all (options_new poJ) (options_of (map (here root) (d1' ++ d3'))))), (plugins_of (map (here root) (d1' ++ d3'))), (w1' ++ w3'), (rl_limit r1).
    split; [reflexivity|]. split; [exact Sy|]. split; [exact G|]. split; [|split; [|split]].
    - eapply alike_sorted; [|exact So1|exact SoJ]. eapply alike_yields; [exact Y1|apply Forall2_nil|exact Ae|exact YJ].
    - eapply alike_opts; [exact Ob|exact ObJ|exact K3|]. rewrite <- (alike_options_of any _ _ Ae). destruct (level_between d1 x (text I p q) d3) as (_ & _ & Q). rewrite Q. reflexivity.
    - unfold dx. rewrite plugins_between. eapply alike_plugins_of. exact Ae.
    - rewrite !map_app, W1, W3. rewrite <- app_assoc. apply Permutation_app_head. apply Permutation_app_comm.
  Qed.

  Lemma ledger_unique c tc r r' : lex L c = Fine (Some tc) -> without K_Include (map fst tc) ->
    ledger_is L E canonicalize root c r -> ledger_is L E canonicalize root c r' -> r = r'.
  Proof.
    intros Lx Ni H H'. inversion H as [g1 rd1 f1 s1 t1 x1 R1 P1 X1]; inversion H' as [g2 rd2 f2 s2 t2 x2 R2 P2 X2]; subst.
    rewrite (alone_reads L canonicalize root c tc Lx Ni) in R1, R2. congruence.
  Qed.

  (** Put the lines of a directive, which on their own are parsed successfully,
      before a line of a text which is, and sets no rules before that line, and the
      whole is parsed successfully, with just one directive more. *)
  Theorem C73_insert : forall c c' e tc tc' te ta tb ds' opts' ps' ws' dsE optsE psE wsE,
    lex L c = Fine (Some tc) -> lex L c' = Fine (Some tc') -> lex L e = Fine (Some te) ->
    map fst tc = ta ++ map fst te ++ tb -> map fst tc' = ta ++ tb ->
    ended ta -> entry (map fst te) -> afresh_next tb ->
    fine_content L E 0 c' -> fine_content L E 0 e -> without K_Include (map fst tc) ->
    (forall x, x < List.length ta -> ~ sets_rule_at (input_of 0 c' tc') x) ->
    ledger_is L E canonicalize root c' (Success ds' opts' ps' ws') -> ledger_is L E canonicalize root e (Success dsE optsE psE wsE) ->
    exists before d after opts ps ws limit,
      ledger_is L E canonicalize root c (Success (before ++ d :: after) opts ps ws) /\
      span_of d = text (input_of 0 c tc) (List.length ta) (List.length ta + List.length te) /\
      Forall2 (fun x y => alike (item x) (item y)) (before ++ after) ds' /\ alike_options opts opts' /\ Forall2 alike_plugin ps ps' /\
      Permutation (map rp_problem ws) (map rp_problem (ws' ++ long_strings limit (input_of 0 c tc) (List.length ta) (List.length ta + List.length te))).
  Proof.
    intros c c' e tc tc' te ta tb ds' opts' ps' ws' dsE optsE psE wsE Lx Lx' LxE Tc Tc' Ea Ed Fb Fc' Fe Ni Nr H' HE.
    assert (Fc : fine_content L E 0 c).
    { apply (content_tokens L E 0 c' tc' Lx') in Fc'. apply (content_tokens L E 0 e te LxE) in Fe. apply (content_tokens L E 0 c tc Lx). rewrite Tc. rewrite Tc' in Fc'. apply (fine_app E ta _ Ea) in Fc'. destruct Fc' as [Fa Ft].
      apply (fine_app E ta _ Ea). split; [exact Fa|]. apply (fine_app E (map fst te) _ (or_intror (entry_ended _ Ed))). split; assumption. }
    assert (Ni' : without K_Include (map fst tc')).
    { unfold without in *. rewrite Tc'. rewrite Tc in Ni. rewrite !in_app_iff in *. tauto. }
    assert (NiE : without K_Include (map fst te)).
    { unfold without in *. rewrite Tc in Ni. rewrite !in_app_iff in Ni. tauto. }
    assert (G : exists ds opts ps ws, ledger_is L E canonicalize root c (Success ds opts ps ws)).
    2: { destruct G as (ds & opts & ps & ws & G).
      destruct (C73_delete c c' tc tc' ta (map fst te) tb ds opts ps ws Lx Lx' Tc Tc' Ea Ed Fb Fc Ni G) as (before & d & after & ds2 & opts2 & ps2 & ws2 & limit & -> & Sp & G' & A & O & P & W).
      pose proof (ledger_unique _ _ _ _ Lx' Ni' H' G') as Q. injection Q as <- <- <- <-. rewrite map_length in Sp, W. exists before, d, after, opts, ps, ws, limit. auto 8. }
    destruct Fc as (t & X & Ci & Oi). rewrite Lx in X. injection X as <-. destruct Fc' as (t & X & Cj & Oj). rewrite Lx' in X. injection X as <-.
    destruct Fe as (t & X & Ce & Oe). rewrite LxE in X. injection X as <-.
    destruct (alone_success L E En U canonicalize root Cano Root c' tc' Lx' Cj Oj Ni' _ _ _ _ H') as (decls & rJ & po & ys & T & Np & Du & Le & _).
    destruct (alone_success L E En U canonicalize root Cano Root e te LxE Ce Oe NiE _ _ _ _ HE) as (declsE & rE & _ & _ & TE & _).
    clear H' HE. set (I := input_of 0 c tc) in *. set (J := input_of 0 c' tc') in *. set (K0 := input_of 0 e te) in *. set (td := map fst te) in *. set (p := List.length ta). set (q := p + List.length td).
    assert (Li : List.length (in_tokens I) = q + List.length tb) by (rewrite <- (map_length fst); change (in_tokens I) with tc; rewrite Tc, !app_length; unfold p, q; lia).
    assert (Lj : List.length (in_tokens J) = p + List.length tb) by (rewrite <- (map_length fst); change (in_tokens J) with tc'; rewrite Tc', !app_length; unfold p; lia).
    assert (Lk : List.length (in_tokens K0) = List.length td) by (unfold td; rewrite map_length; reflexivity).
    pose proof (start_after ta Ea I _ Tc (entry_afresh td Ed tb)) as Sp. fold p in Sp.
    assert (Sq : line_start I q).
    { pose proof (start_after (ta ++ td) (entry_line ta td Ed) I tb) as Z. rewrite app_length in Z. apply Z; [rewrite <- app_assoc; exact Tc|exact Fb]. }
    pose proof (start_after ta Ea J _ Tc' Fb) as Sj. fold p in Sj.
    destruct (tiles_at E En J root _ _ _ _ _ _ p Cj Oj (obeyed E En) T eq_refl ltac:(lia) Sj) as (d1 & d3 & w1 & w3 & r1 & -> & -> & R1 & T3 & Ob1).
    assert (r1 = initial_rules) as -> by (eapply (runs_settled E En); [exact Cj|exact Oj|exact (obeyed E En)| |exact R1]; intros x Hx; apply Nr; fold p; lia).
    pose proof (tiles_runs E En J root _ _ _ _ _ _ T3 eq_refl ltac:(lia) Cj Oj Ob1) as R3.
    pose proof (tiles_runs E En K0 root _ _ _ _ _ _ TE eq_refl ltac:(lia) Ce Oe (obeyed E En)) as RE.
    destruct (runs_entry E En K0 root _ _ _ _ _ _ td Ce Oe (obeyed E En) RE Ed ltac:(lia) ltac:(lia)) as (x & -> & Dx & -> & ->).
    { intros z Hz. unfold td. rewrite nth_error_map. reflexivity. }
    assert (Same : forall k t, k < p -> tok J k t -> tok I k t).
    { intros k t Hk Hi. apply (tokens_at J _ _ _ Tc') in Hi. apply (tokens_at I _ _ _ Tc). rewrite nth_error_app1 in * by exact Hk. exact Hi. }
    assert (SameE : forall k t, tok K0 k t -> tok I (p + k) t).
    { intros k t Hi. apply (tokens_at K0 td _ _ eq_refl) in Hi. apply (tokens_at I _ _ _ Tc). rewrite nth_error_app2 by (unfold p; lia). replace (p + k - List.length ta) with k by (unfold p; lia).
      rewrite nth_error_app1; [exact Hi|]. apply nth_error_Some. congruence. }
    assert (Same3 : forall k t, tok J (p + k) t -> tok I (q + k) t).
    { intros k t Hi. apply (tokens_at J _ _ _ Tc') in Hi. apply (tokens_at I _ _ _ Tc). rewrite app_assoc, nth_error_app2 by (rewrite app_length; unfold q, p; lia).
      rewrite nth_error_app2 in Hi by (unfold p; lia). rewrite app_length. replace (q + k - (List.length ta + List.length td)) with k by (unfold q, p; lia). replace (p + k - List.length ta) with k in Hi by (unfold p; lia). exact Hi. }
    assert (Past : forall A0, ~ tok A0 (List.length (in_tokens A0)) T_Indent).
    { intros A0 [z Z]. assert (nth_error (in_tokens A0) (List.length (in_tokens A0)) <> None) as V by congruence. apply nth_error_Some in V. lia. }
    destruct (runs_copied E En J I root _ _ _ _ _ _ Cj Oj Ci Oi R1 initial_rules 0 kin_initial ltac:(lia)) as (d1' & w1' & r1' & R1' & A1 & W1 & K1).
    { intros k t Hk. apply Same. lia. }
    { apply Sj. }
    { replace (0 + (p - 0)) with p by lia. apply Sp. }
    { destruct (proj1 Sj) as [Z|Z]; [left; exact Z|right; left; exact Z]. }
    replace (0 + (p - 0)) with p in R1' by lia.
    destruct (runs_copied E En K0 I root _ _ _ _ _ _ Ce Oe Ci Oi RE r1' p K1 ltac:(lia)) as (dm & wm & r2' & Rm & Am & Wm & K2).
    { intros k t _. apply SameE. }
    { apply Past. }
    { rewrite Nat.sub_0_r, Lk. apply Sq. }
    { right. left. destruct (entry_ended _ Ed) as (us & Qu). exists (List.length us). rewrite Lk. split; [rewrite Qu, app_length; cbn; lia|].
      apply (tokens_at K0 td _ _ eq_refl). rewrite Qu, nth_error_app2, Nat.sub_diag by lia. reflexivity. }
    rewrite Nat.sub_0_r, Lk in Rm. fold q in Rm.
    destruct (runs_copied E En J I root _ _ _ _ _ _ Cj Oj Ci Oi R3 r2' q K2 ltac:(lia)) as (d3' & w3' & r3' & R3' & A3 & W3 & K3).
    { intros k t _. apply Same3. }
    { apply Past. }
    { replace (q + (List.length (in_tokens J) - p)) with (List.length (in_tokens I)) by lia. apply Past. }
    { right. right. split; apply nth_error_None; lia. }
    assert (Fi : finished I (q + (List.length (in_tokens J) - p))) by (apply nth_error_None; lia).
    pose proof (runs_tiles _ _ _ _ _ _ _ _ _ (runs_app _ _ _ _ _ _ _ _ _ _ _ _ _ R1' (runs_app _ _ _ _ _ _ _ _ _ _ _ _ _ Rm R3')) Fi) as TI.
    inversion Am as [|? dx ? ? Ax Am']; subst. inversion Am'; subst. cbn [app] in TI. pose proof (Forall2_app A1 (Forall2_cons _ _ Ax A3)) as Al.
    set (x0 := mk_spanned (D_Directive x) (text K0 0 (List.length (in_tokens K0)))) in *.
    assert (NpI : Forall (fun d => is_include (item d) = false) (d1 ++ x0 :: d3)).
    { apply Forall_app in Np. destruct Np as [Na Nb]. apply Forall_app. split; [exact Na|]. constructor; [reflexivity|exact Nb]. }
    pose proof (alike_no_include _ _ Al NpI) as NpI'.
    pose proof (proj2 (dues_between d1 x (text K0 0 (List.length (in_tokens K0))) d3 Np) Du) as Du1. pose proof (proj1 (level_leftover _ _ (level_between d1 x (text K0 0 (List.length (in_tokens K0))) d3)) Le) as Le1. fold x0 in Du1, Le1.
    pose proof (alike_here root _ _ Al) as Ae.
    assert (DuI : dues canonicalize [] [] [] (map (here root) (d1' ++ dx :: d3')) []).
    { eapply (strip_dues root canonicalize [] [] [] [] [] _ Du1 [] (d1' ++ dx :: d3') (Forall2_nil _)). rewrite plain_here by exact NpI. exact Al. }
    pose proof (alike_leftover any _ _ Ae Le1) as LeI.
    destruct (alone_parses L E En U canonicalize root Cano Root c tc Lx Ci Oi Ni _ _ _ TI NpI' DuI LeI) as (poI & yI & sorted & YI & SoI & ObI & G).
    eauto.
  Qed.
End Local.

(** ** A case: a transaction with postings, in the middle of a text *)
Definition check_rules_before (n : nat) (I : input) : bool :=
  forallb (fun i => negb match nth_error (in_tokens I) i, nth_error (in_tokens I) (S i) with
    | Some (T_Keyword K_Option, _), Some (T_String name, _) =>
        existsb (str_eqb name) (map lit ["name_assets"; "name_liabilities"; "name_equity"; "name_income"; "name_expenses"; "long_string_maxlines"]%string)
    | _, _ => false
    end) (seq 0 n).
Lemma check_rules_before_ok n I : check_rules_before n I = true -> forall x, x < n -> ~ sets_rule_at I x.
Proof.
  intros H i Hi (name & value & [r T] & [r1 T1] & _ & Hin). unfold check_rules_before in H. rewrite forallb_forall in H.
  specialize (H i ltac:(apply in_seq; lia)). rewrite T, T1 in H. apply negb_true_iff in H.
  enough (existsb (str_eqb name) (map lit ["name_assets"; "name_liabilities"; "name_equity"; "name_income"; "name_expenses"; "long_string_maxlines"]%string) = true) by congruence.
  apply existsb_exists. exists name. split; [exact Hin|]. apply str_eqb_refl.
Qed.
Fixpoint check_lines (ts : list token) : bool :=
  match ts with
  | [] => true
  | t :: r => match t, r with T_Eol, u :: _ => match u with T_Indent => true | _ => false end | _, _ => true end && check_lines r
  end.
Lemma check_lines_ok us : forall vs, check_lines (us ++ T_Eol :: vs) = true -> vs = [] \/ exists vs', vs = T_Indent :: vs'.
Proof.
  induction us as [|u us IH]; intros vs H; cbn in H; apply andb_true_iff in H; destruct H as [H H'].
  - destruct vs as [|v vs]; [left; reflexivity|right]. destruct v; try discriminate H. eauto.
  - apply IH. exact H'.
Qed.
Lemma check_entry_ok d ts : check_lines (T_Date d :: ts ++ [T_Eol]) = true -> entry (T_Date d :: ts ++ [T_Eol]).
Proof.
  intro H. constructor; [eauto|exists (T_Date d :: ts); reflexivity|]. intros us vs Q. rewrite Q in H. eapply check_lines_ok. exact H.
Qed.
Lemma check_entry_tokens ts d us : ts = T_Date d :: us ++ [T_Eol] -> check_lines ts = true -> entry ts.
Proof. intros -> H. apply check_entry_ok. exact H. Qed.
Definition ex_before : str := lit "option ""title"" ""x""" ++ [10%N] ++ lit "pushtag #trip" ++ [10%N] ++ lit "2024-01-03 close Assets:Cash" ++ [10%N].
Definition ex_entry : str := lit "2024-01-01 * ""a""" ++ [10%N] ++ lit "  Assets:Cash 1 USD" ++ [10%N] ++ lit "  Income:Cash" ++ [10%N].
Definition ex_after : str := lit "2024-01-01 open Assets:Cash" ++ [10%N] ++ lit "poptag #trip" ++ [10%N] ++ lit "option ""name_assets"" ""Actifs""" ++ [10%N].
Definition ex_with : str := ex_before ++ ex_entry ++ ex_after.
Definition ex_without : str := ex_before ++ ex_after.
Example C73_ex : exists ds opts ps ws ds' opts' ps' ws' dsE optsE psE wsE,
  let words c := map fst (ex_lexed c) in
  lex P_Lexer.ex_env ex_with = Fine (Some (ex_lexed ex_with)) /\ lex P_Lexer.ex_env ex_without = Fine (Some (ex_lexed ex_without)) /\ lex P_Lexer.ex_env ex_entry = Fine (Some (ex_lexed ex_entry)) /\
  words ex_with = words ex_before ++ words ex_entry ++ words ex_after /\ words ex_without = words ex_before ++ words ex_after /\
  ended (words ex_before) /\ entry (words ex_entry) /\ afresh_next (words ex_after) /\
  fine_content P_Lexer.ex_env P_Grammar.ex_env 0 ex_with /\ fine_content P_Lexer.ex_env P_Grammar.ex_env 0 ex_without /\ fine_content P_Lexer.ex_env P_Grammar.ex_env 0 ex_entry /\
  without K_Include (words ex_with) /\ (forall x, x < List.length (words ex_before) -> ~ sets_rule_at (input_of 0 ex_without (ex_lexed ex_without)) x) /\
  ledger_is P_Lexer.ex_env P_Grammar.ex_env (fun p => Some p) None ex_with (Success ds opts ps ws) /\
  ledger_is P_Lexer.ex_env P_Grammar.ex_env (fun p => Some p) None ex_without (Success ds' opts' ps' ws') /\
  ledger_is P_Lexer.ex_env P_Grammar.ex_env (fun p => Some p) None ex_entry (Success dsE optsE psE wsE) /\
  List.length ds = 3 /\ List.length ds' = 2.
Proof.
  destruct (ex_ledger_success ex_with ltac:(vm_compute; exact Logic.I)) as (ds & opts & ps & ws & HA & QA).
  destruct (ex_ledger_success ex_without ltac:(vm_compute; exact Logic.I)) as (ds' & opts' & ps' & ws' & HB & QB).
  destruct (ex_ledger_success ex_entry ltac:(vm_compute; exact Logic.I)) as (dsE & optsE & psE & wsE & HE & _).
  exists ds, opts, ps, ws, ds', opts', ps', ws', dsE, optsE, psE, wsE. cbn zeta.
  do 3 (split; [apply ex_lexes; vm_compute; reflexivity|]). split; [vm_compute; reflexivity|]. split; [vm_compute; reflexivity|].
  split; [right; exists (removelast (map fst (ex_lexed ex_before))); vm_compute; reflexivity|].
  split; [apply (check_entry_tokens _ (mk_date 2024 1 1) (removelast (tl (map fst (ex_lexed ex_entry))))); vm_compute; reflexivity|].
  split; [intros vs; vm_compute; discriminate|].
  do 3 (split; [apply check_content_ok; vm_compute; reflexivity|]). split; [apply check_without_include; vm_compute; reflexivity|]. split; [apply check_rules_before_ok; vm_compute; reflexivity|].
  split; [exact HA|]. split; [exact HB|]. split; [exact HE|]. clear HA HB HE. vm_compute in QA, QB. injection QA as <- _ _ _. injection QB as <- _ _ _. split; reflexivity.
Qed.

(** ** What is necessary: that no rules are set *)
Theorem C73_rules_refuted : exists L E c' e ds' opts' ps' ws' dsE optsE psE wsE es ws,
  unicode_ok (le_unicode L) /\ environment_ok E /\
  ledger_is L E (fun p => Some p) None c' (Success ds' opts' ps' ws') /\ ledger_is L E (fun p => Some p) None e (Success dsE optsE psE wsE) /\ List.length dsE = 1 /\
  ledger_is L E (fun p => Some p) None (c' ++ e) (Failure es ws).
Proof.
  destruct (ex_ledger_success (lit "option ""name_assets"" ""Actifs""" ++ [10%N]) ltac:(vm_compute; exact Logic.I)) as (dsA & optsA & psA & wsA & HA & _).
  destruct (ex_ledger_success (lit "2024-01-02 open Assets:Cash" ++ [10%N]) ltac:(vm_compute; exact Logic.I)) as (dsB & optsB & psB & wsB & HB & QB).
  assert (HC : exists es ws, ledger_is P_Lexer.ex_env P_Grammar.ex_env (fun p => Some p) None ((lit "option ""name_assets"" ""Actifs""" ++ [10%N]) ++ lit "2024-01-02 open Assets:Cash" ++ [10%N]) (Failure es ws)).
  { destruct (ex_ledger ((lit "option ""name_assets"" ""Actifs""" ++ [10%N]) ++ lit "2024-01-02 open Assets:Cash" ++ [10%N])) as [[[|es ws]|]|] eqn:X; try (vm_compute in X; discriminate X).
    exists es, ws. apply ex_ledger_is. exact X. }
  destruct HC as (es & ws & HC).
  exists P_Lexer.ex_env, P_Grammar.ex_env, (lit "option ""name_assets"" ""Actifs""" ++ [10%N]), (lit "2024-01-02 open Assets:Cash" ++ [10%N]), dsA, optsA, psA, wsA, dsB, optsB, psB, wsB, es, ws.
  split; [exact P_Lexer.arabic_ok|]. split; [exact P_File.ex_environment|]. split; [exact HA|]. split; [exact HB|]. split; [|exact HC].
  clear - QB. vm_compute in QB. injection QB as <- _ _ _. reflexivity.
Qed.

Print Assumptions C73_delete.
Print Assumptions C73_insert.
Print Assumptions C73_rules_refuted.
