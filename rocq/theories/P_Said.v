(** * C77: an option or a plugin has no effect but what it says *)
From Coq Require Import String Ascii.
From Coq Require Import List NArith ZArith Arith Bool Lia Permutation.
From Verif Require Import Base BaseFacts Text Path PathFacts Sources Types SpecTypes TypesFacts P_Types SortM SpecSort P_Sort Options SpecOptions OptionsFacts P_Options
  Pragma SpecPragma PragmaRun P_Pragma Read SpecRead ReadFacts P_Read
  Token Lexer SpecLexer P_Lexer Peg PegFacts Grammar SpecExpr SpecGrammar SpecDirective SpecDisplay SpecLedger SpecAlike P_Grammar
  Parse SpecParse SpecWhole ParseFacts ParseOnce ParseFile P_File P_Includes P_Parse IncludeTokens P_Order P_Complete AlikeRead AlikeFile AlikeWalk AlikeOptions SortFacts SimCopy SpecPaste Paste P_Paste
  SpecAppend Append AppendText P_Append SpecLocal Local Parts P_Local P_Block SpecSaid SaidFacts.
Import SpecPragma Read.
Import ListNotations.
Local Open Scope nat_scope.
Local Notation tok := SpecGrammar.tok.
Local Notation ended := SpecAppend.ended.
Local Notation reads := SpecOptions.reads.

(** ** Options which are given once *)
Lemma same_setting_sym a b : same_setting a b = same_setting b a.
Proof.
  assert (B : forall x y : bool, (x = true <-> y = true) -> x = y) by (intros [] []; intuition congruence).
  destruct a, b; cbn; try reflexivity; apply B.
  - rewrite !subaccount_eqb_eq. intuition congruence.
  - rewrite !currency_or_any_eqb_eq. intuition congruence.
  - rewrite !path_eqb_eq. intuition congruence.
  - rewrite !str_eqb_eq. intuition congruence.
Qed.
Lemma rivals_sym u v : rivals u v -> rivals v u.
Proof. intros (s & s' & A & B & Q). exists s', s. rewrite same_setting_sym. auto. Qed.
Lemma due_none seen o : due_report seen o = None <-> forall o', In o' seen -> ~ rivals (opt_variant o') (opt_variant o).
Proof.
  unfold due_report. destruct (setting_of (opt_variant o)) as [s|] eqn:Q.
  - assert (F : find (sets s) seen = None <-> forall o', In o' seen -> ~ rivals (opt_variant o') (opt_variant o)).
    { split.
      - intros N o' Ho R. apply rivals_sym in R. destruct R as (s1 & s2 & A & B & C). rewrite Q in A. injection A as <-. pose proof (find_none _ _ N _ Ho) as Z. unfold sets in Z. rewrite B in Z. congruence.
      - intro N. destruct (find (sets s) seen) as [o'|] eqn:Fi; [|reflexivity]. apply find_some in Fi. destruct Fi as [Ho Z]. exfalso. apply (N _ Ho). apply rivals_sym. unfold sets in Z. destruct (setting_of (opt_variant o')) as [s'|] eqn:Q'; [|discriminate].
        exists s, s'. auto. }
    rewrite <- F. destruct (find (sets s) seen); split; congruence.
  - split; [|reflexivity]. intros _ o' _ (s & s' & _ & B & _). congruence.
Qed.
Lemma due_report_nil seen o : (@nil report) = match due_report seen o with Some r => [r] | None => [] end <-> due_report seen o = None.
Proof. destruct (due_report seen o); split; congruence. Qed.

(** ** Declarations without a pragma among them *)
Definition neutral (x : pragma) : Prop := match x with P_Option _ | P_Plugin _ => True | _ => False end.
Definition option_in (x : pragma) : list beancount_option := match x with P_Option o => [o] | _ => [] end.
Definition plugin_in (x : pragma) : list plugin := match x with P_Plugin p => [p] | _ => [] end.
Definition stacked (s s' : list event) : Prop := (forall t, tag_stack t s = tag_stack t s') /\ (forall k, meta_stack k s = meta_stack k s').
Lemma stacked_snoc s s' es : stacked s s' -> stacked (s ++ es) (s' ++ es).
Proof. intros [A B]. unfold stacked, tag_stack, meta_stack in *. split; intro; rewrite !fold_left_app; [rewrite A|rewrite B]; reflexivity. Qed.
Lemma stacked_sym s s' : stacked s s' -> stacked s' s.
Proof. intros [A B]. split; auto. Qed.
Lemma stacked_neutral s f x sp : neutral x -> stacked s (s ++ [Declared f (mk_spanned (D_Pragma x) sp)]).
Proof. intro N. unfold stacked, tag_stack, meta_stack. split; intro; rewrite fold_left_app; destruct x; cbn in *; tauto || reflexivity. Qed.
Lemma options_of_app a b : options_of (a ++ b) = options_of a ++ options_of b.
Proof. apply flat_map_app. Qed.
Lemma options_of_one f x sp : options_of [Declared f (mk_spanned (D_Pragma x) sp)] = option_in x.
Proof. unfold options_of. cbn. rewrite app_nil_r. destruct x; reflexivity. Qed.

Section Events.
  Context (canonicalize : path -> option path) (root : option path).
  Local Notation no_includes := (Forall (fun d : spanned declaration => is_include (item d) = false)).
  Local Notation no_dues s ds := (dues canonicalize [] [] s (map (here root) ds) []).
  (** All depends on what is pushed and which options have been given. *)
  Lemma dues_options extra ds : no_includes ds -> forall s s', stacked s s' ->
    (forall o', In o' (options_of s') -> In o' (options_of s) \/ In o' extra) ->
    (forall o o', In o (options_of (map (here root) ds)) -> In o' extra -> ~ rivals (opt_variant o') (opt_variant o)) ->
    no_dues s ds -> no_dues s' ds.
  Proof.
    intro F. induction F as [|d ds Ni F IH]; intros s s' St In' R D; [constructor|]. remember (@nil report) as none eqn:Qn in D. inversion D as [|? ? ? rs1 rs2 De Dr Q1 Q2]; subst.
    match goal with Q : _ ++ _ = [] |- _ => apply app_eq_nil in Q; destruct Q as [-> ->] end. cbn [map] in *.
    change (here root d :: map (here root) ds) with ([here root d] ++ map (here root) ds) in R. rewrite options_of_app in R.
    change (@nil report) with (@nil report ++ []). constructor.
    - destruct St as (T & M). cbn in De |- *. destruct (item d) as [x|[]] eqn:It; auto; try discriminate.
      + rewrite <- T. exact De.
      + rewrite <- M. exact De.
      + rewrite due_report_nil in *. rewrite due_none in *. intros o' Ho'. destruct (In' _ Ho') as [X|X]; [exact (De _ X)|]. apply R; [|exact X]. apply in_app_iff. left. cbn. rewrite It. left. reflexivity.
    - apply IH with (s := s ++ [here root d]); [apply stacked_snoc; exact St| | |exact Dr].
      + intro o'. rewrite !options_of_app, !in_app_iff. intros [X|X]; [apply In' in X|]; tauto.
      + intros o o' Ho. apply R. apply in_app_iff. right. exact Ho.
  Qed.
  Lemma dues_reports ds : forall s, no_dues s ds -> Forall (fun r => r = None) (due_reports (options_of s) (options_of (map (here root) ds))).
  Proof.
    induction ds as [|d ds IH]; intros s D; [constructor|]. remember (@nil report) as none eqn:Qn in D. inversion D as [|? ? ? rs1 rs2 De Dr Q1 Q2]; subst.
    match goal with Q : _ ++ _ = [] |- _ => apply app_eq_nil in Q; destruct Q as [-> ->] end. cbn [map].
    change (here root d :: map (here root) ds) with ([here root d] ++ map (here root) ds). rewrite options_of_app. specialize (IH _ Dr). rewrite options_of_app in IH.
    unfold options_of in IH at 2. unfold options_of at 2. cbn [flat_map] in *. cbn in IH, De |- *. destruct (item d) as [x|[]] eqn:It; cbn [app due_reports]; rewrite ?app_nil_r in IH; try exact IH.
    constructor; [|exact IH]. apply due_report_nil. exact De.
  Qed.

  (** The option or plugin [x] among others. *)
  Context (x : pragma) (Nx : neutral x) (sp : span).
  Local Notation dx := (mk_spanned (D_Pragma x) sp).
  Lemma stacked_between d1 d3 : stacked (map (here root) (d1 ++ d3)) (map (here root) (d1 ++ dx :: d3)).
  Proof. rewrite !map_app. cbn [map]. change (here root dx :: map (here root) d3) with ([here root dx] ++ map (here root) d3). rewrite app_assoc. apply stacked_snoc. apply stacked_neutral. exact Nx. Qed.
  Lemma options_between d1 d3 : options_of (map (here root) (d1 ++ dx :: d3)) = options_of (map (here root) d1) ++ option_in x ++ options_of (map (here root) d3).
  Proof. rewrite map_app, options_of_app. cbn [map]. change (here root dx :: map (here root) d3) with ([here root dx] ++ map (here root) d3). rewrite options_of_app. f_equal. f_equal. apply options_of_one. Qed.
  Lemma plugins_among d1 d3 : plugins_of (map (here root) (d1 ++ dx :: d3)) = plugins_of (map (here root) d1) ++ plugin_in x ++ plugins_of (map (here root) d3).
  Proof. unfold plugins_of. rewrite map_app, flat_map_app. cbn. destruct x; reflexivity. Qed.
  Lemma stacked_leftover a b : stacked a b -> (leftover a [] <-> leftover b []).
  Proof. intros (T & M). rewrite !leftover_none. split; intros [X Y]; split; intro z; [rewrite <- T|rewrite <- M|rewrite T|rewrite M]; auto. Qed.
  Lemma dues_without d1 d3 : no_includes d3 -> no_dues [] (d1 ++ dx :: d3) -> no_dues [] (d1 ++ d3).
  Proof.
    intros F D. rewrite map_app in *. cbn [map] in D. apply dues_split in D. destruct D as [A D]. change (@nil report) with (@nil report ++ []). apply dues_app; [exact A|]. cbn [app] in *.
    change (here root dx :: map (here root) d3) with ([here root dx] ++ map (here root) d3) in D. apply dues_split in D. destruct D as [_ D]. eapply (dues_options []); [exact F| | | |exact D].
    - apply stacked_sym, stacked_neutral. exact Nx.
    - intros o' Ho. left. rewrite options_of_app. apply in_app_iff. left. exact Ho.
    - intros o o' _ [].
  Qed.
  Lemma dues_with d1 d3 : no_includes d3 -> (forall o o', In o (option_in x) -> In o' (options_of (map (here root) (d1 ++ d3))) -> ~ rivals (opt_variant o') (opt_variant o)) ->
    no_dues [] (d1 ++ d3) -> no_dues [] (d1 ++ dx :: d3).
  Proof.
    intros F R D. rewrite map_app, options_of_app in R. rewrite map_app in *. cbn [map]. apply dues_split in D. destruct D as [A D]. change (@nil report) with (@nil report ++ []). apply dues_app; [exact A|]. cbn [app] in *.
    change (@nil report) with (@nil report ++ []). constructor.
    - cbn. destruct x; cbn in Nx; try tauto; try reflexivity. apply due_report_nil, due_none. intros o' Ho. apply R; [left; reflexivity|apply in_app_iff; left; exact Ho].
    - eapply (dues_options (option_in x)); [exact F| | | |exact D].
      + apply stacked_neutral. exact Nx.
      + intro o'. rewrite options_of_app, in_app_iff. unfold here at 2. rewrite options_of_one. tauto.
      + intros o o' Ho Ho' X. apply (R o' o Ho'); [apply in_app_iff; right; exact Ho|]. apply rivals_sym. exact X.
  Qed.
  Lemma yields_without d1 d3 ys : yields [] (map (here root) (d1 ++ dx :: d3)) ys -> yields [] (map (here root) (d1 ++ d3)) ys.
  Proof.
    rewrite !map_app. cbn [map]. intro Y. apply yields_split in Y. destruct Y as (y1 & y2 & -> & Y1 & Y2). inversion Y2 as [|? ? ? d d' ds As Au Sp Y3|? ? ? ? As Y3]; subst; [discriminate As|].
    apply yields_app; [exact Y1|]. destruct (stacked_sym _ _ (stacked_neutral ([] ++ map (here root) d1) root x sp Nx)) as [T M]. exact (stack_yields _ _ _ Y3 _ T M).
  Qed.
End Events.

Section Said.
  Context (L : lexer_env) (E : grammar_env) (En : environment_ok E) (U : unicode_ok (le_unicode L)).
  Context (canonicalize : path -> option path) (root : option path).
  Context (Cano : forall p q c d, same_path p q -> canonicalize p = Some c -> canonicalize q = Some d -> same_path c d).
  Context (Root : forall p, root = Some p -> canonicalize p <> None).

  Lemma rules_same po po2 rA r2 os os2 : obeys E po rA -> obeys E po2 r2 -> kin E rA r2 ->
    same_rules (fst (assimilate_all (options_new po) os)) (fst (assimilate_all (options_new po2) os2)).
  Proof using L.
    clear - L. intros Ob Ob2 Ki.
    assert (Po : forall p os, os_parser_options (fst (assimilate_all (options_new p) os)) = p).
    { intros p os0. pose proof (C12_first_wins p os0) as X. cbn zeta in X. tauto. }
    split.
    + intro t. unfold options_account_type_name. rewrite !Po. rewrite (proj1 (ob_named _ _ _ Ob)), (proj1 (ob_named _ _ _ Ob2)). f_equal.
      destruct Ki as (p1 & p2 & O1 & O2 & [Qn _]). pose proof (proj1 (ob_named _ _ _ O1) t) as M1. pose proof (proj1 (ob_named _ _ _ O2) t) as M2. rewrite Qn in M1. congruence.
    + unfold options_long_string_maxlines. rewrite !Po. pose proof (kin_limit _ _ _ Ki) as X. rewrite <- (ob_limit _ _ _ Ob), <- (ob_limit _ _ _ Ob2) in X. unfold line_limit in X.
      destruct (po_maxlines po), (po_maxlines po2); cbn in *; try discriminate; auto.
  Qed.

  Section Line.
    Context (c c' : str) (tc tc' : list rtoken) (ta td tb : list token).
    Context (Lx : lex L c = Fine (Some tc)) (Lx' : lex L c' = Fine (Some tc')) (Tc : map fst tc = ta ++ td ++ tb) (Tc' : map fst tc' = ta ++ tb).
    Context (Ea : ended ta) (Ed : exists u, td = u ++ [T_Eol]) (Fd : forall more, afresh_next (td ++ more)) (Fb : afresh_next tb).
    Context (Fc : fine_content L E 0 c) (Ni : without K_Include (map fst tc)).
    Local Notation I := (input_of 0 c tc).
    Local Notation p := (List.length ta).
    Local Notation q := (List.length ta + List.length td).

    (** The line is read as one option or plugin: this can be taken out. *)
    Lemma line_delete (P : pragma -> Prop) ds opts ps ws :
      (forall r dm wm r', (exists po, obeys E po r) -> runs E I root r p dm wm q r' ->
         exists x, dm = [mk_spanned (D_Pragma x) (text I p q)] /\ neutral x /\ P x /\ r' = r /\ wm = long_strings (rl_limit r) I p q) ->
      ledger_is L E canonicalize root c (Success ds opts ps ws) ->
      exists x ds' opts' ps' ws' limit po po' o1 o3 os' p1 p3,
        P x /\ neutral x /\ ledger_is L E canonicalize root c' (Success ds' opts' ps' ws') /\
        Forall2 (fun x y => alike (item x) (item y)) ds ds' /\ same_rules opts opts' /\
        opts = fst (assimilate_all (options_new po) (o1 ++ option_in x ++ o3)) /\ opts' = fst (assimilate_all (options_new po') os') /\ map opt_variant (o1 ++ o3) = map opt_variant os' /\
        Forall (fun r => r = None) (due_reports [] (o1 ++ option_in x ++ o3)) /\ Forall (fun r => r = None) (due_reports [] os') /\
        ps = p1 ++ plugin_in x ++ p3 /\ Forall2 alike_plugin (p1 ++ p3) ps' /\
        Permutation (map rp_problem ws) (map rp_problem (ws' ++ long_strings limit I p q)).
    Proof.
      intros Hm H.
      assert (Fc' : fine_content L E 0 c').
      { apply (content_tokens L E 0 c tc Lx) in Fc. apply (content_tokens L E 0 c' tc' Lx'). rewrite Tc in Fc. rewrite Tc'. apply (fine_app E ta _ Ea) in Fc. destruct Fc as [Fa Ft].
        apply (fine_app E td _ (or_intror Ed)) in Ft. apply (fine_app E ta _ Ea). split; [exact Fa|apply Ft]. }
      destruct Fc as (t & X & Ci & Oi). rewrite Lx in X. injection X as <-. destruct Fc' as (t & X & Cj & Oj). rewrite Lx' in X. injection X as <-.
      destruct (alone_success L E En U canonicalize root Cano Root c tc Lx Ci Oi Ni _ _ _ _ H) as (decls & rE & po & ys & T & Np & Du & Le & Y & So & Ob & Qopts & Qps).
      set (I0 := input_of 0 c tc) in *. set (J := input_of 0 c' tc') in *. set (p0 := List.length ta) in *. set (q0 := p0 + List.length td) in *.
      assert (Li : List.length (in_tokens I0) = q0 + List.length tb) by (rewrite <- (map_length fst); change (in_tokens I0) with tc; rewrite Tc, !app_length; unfold p0, q0; lia).
      assert (Lj : List.length (in_tokens J) = p0 + List.length tb) by (rewrite <- (map_length fst); change (in_tokens J) with tc'; rewrite Tc', !app_length; unfold p0; lia).
      pose proof (start_after ta Ea I0 _ Tc (Fd tb)) as Sp. fold p0 in Sp.
      assert (Eq : ended (ta ++ td)) by (destruct Ed as (u & Qu); right; exists (ta ++ u); rewrite Qu; apply app_assoc).
      assert (Sq : line_start I0 q0).
      { pose proof (start_after (ta ++ td) Eq I0 tb) as Z. rewrite app_length in Z. apply Z; [rewrite <- app_assoc; exact Tc|exact Fb]. }
      pose proof (start_after ta Ea J _ Tc' Fb) as Sj. fold p0 in Sj.
      destruct (tiles_at E En I0 root _ _ _ _ _ _ p0 Ci Oi (obeyed E En) T eq_refl ltac:(unfold q0 in *; lia) Sp) as (d1 & d2 & w1 & w2 & r1 & -> & -> & R1 & T2 & Ob1).
      destruct (tiles_at E En I0 root _ _ _ _ _ _ q0 Ci Oi Ob1 T2 eq_refl ltac:(unfold q0 in *; lia) Sq) as (dm & d3 & wm & w3 & r2 & -> & -> & Rm & T3 & Ob2).
      destruct (Hm _ _ _ _ Ob1 Rm) as (x & -> & Nx & Px & -> & ->).
      pose proof (tiles_runs E En I0 root _ _ _ _ _ _ T3 eq_refl ltac:(lia) Ci Oi Ob2) as R3.
      assert (Same : forall k t, k < p0 -> tok I0 k t -> tok J k t).
      { intros k t Hk Hi. apply (tokens_at I0 _ _ _ Tc) in Hi. apply (tokens_at J _ _ _ Tc'). rewrite nth_error_app1 in * by exact Hk. exact Hi. }
      assert (Same3 : forall k t, tok I0 (q0 + k) t -> tok J (p0 + k) t).
      { intros k t Hi. apply (tokens_at I0 _ _ _ Tc) in Hi. apply (tokens_at J _ _ _ Tc'). rewrite app_assoc, nth_error_app2 in Hi by (rewrite app_length; unfold q0, p0; lia).
        rewrite nth_error_app2 by (unfold p0; lia). rewrite app_length in Hi. replace (q0 + k - (List.length ta + List.length td)) with k in Hi by (unfold q0, p0; lia). replace (p0 + k - List.length ta) with k by (unfold p0; lia). exact Hi. }
      destruct (runs_copied E En I0 J root _ _ _ _ _ _ Ci Oi Cj Oj R1 initial_rules 0 (kin_initial E En) ltac:(lia)) as (d1' & w1' & r1' & R1' & A1 & W1 & K1).
      { intros k t Hk. apply Same. lia. }
      { apply Sp. }
      { replace (0 + (p0 - 0)) with p0 by lia. apply Sj. }
      { destruct (proj1 Sp) as [Z|Z]; [left; exact Z|right; left; exact Z]. }
      replace (0 + (p0 - 0)) with p0 in R1' by lia.
      destruct (runs_copied E En I0 J root _ _ _ _ _ _ Ci Oi Cj Oj R3 r1' p0 K1 ltac:(lia)) as (d3' & w3' & r3' & R3' & A3 & W3 & K3).
      { intros k t _. apply Same3. }
      { intros [z Z]. assert (nth_error (in_tokens I0) (List.length (in_tokens I0)) <> None) as V by congruence. apply nth_error_Some in V. lia. }
      { intros [z Z]. assert (nth_error (in_tokens J) (p0 + (List.length (in_tokens I0) - q0)) <> None) as V by congruence. apply nth_error_Some in V. lia. }
      { right. right. split; apply nth_error_None; lia. }
      assert (Fj : finished J (p0 + (List.length (in_tokens I0) - q0))) by (apply nth_error_None; lia).
      pose proof (runs_tiles _ _ _ _ _ _ _ _ _ (runs_app _ _ _ _ _ _ _ _ _ _ _ _ _ R1' R3') Fj) as TJ. pose proof (Forall2_app A1 A3) as Al.
      cbn [app] in *.
      assert (Np' : Forall (fun d => is_include (item d) = false) (d1 ++ d3)).
      { apply Forall_app in Np. destruct Np as [Na Nb]. inversion Nb; subst. apply Forall_app. auto. }
      pose proof (alike_no_include _ _ Al Np') as NpJ.
      assert (Ni' : without K_Include (map fst tc')).
      { unfold without in *. rewrite Tc'. rewrite Tc in Ni. rewrite !in_app_iff in *. tauto. }
      pose proof (dues_without canonicalize root x Nx (text I0 p0 q0) d1 d3 (proj2 (proj1 (Forall_app _ _ _) Np')) Du) as Du1.
      pose proof (proj2 (stacked_leftover _ _ (stacked_between root x Nx (text I0 p0 q0) d1 d3)) Le) as Le1.
      pose proof (yields_without root x Nx _ _ _ _ Y) as Y1.
      pose proof (alike_here root _ _ Al) as Ae.
      assert (DuJ : dues canonicalize [] [] [] (map (here root) (d1' ++ d3')) []).
      { eapply (strip_dues root canonicalize [] [] [] [] [] _ Du1 [] (d1' ++ d3') (Forall2_nil _)). rewrite plain_here by exact Np'. exact Al. }
      pose proof (alike_leftover any _ _ Ae Le1) as LeJ.
      destruct (alone_parses L E En U canonicalize root Cano Root c' tc' Lx' Cj Oj Ni' _ _ _ TJ NpJ DuJ LeJ) as (poJ & yJ & sorted & YJ & SoJ & ObJ & G).
      pose proof (dues_reports canonicalize root _ _ Du) as Dr. pose proof (dues_reports canonicalize root _ _ DuJ) as DrJ. rewrite options_between in Dr, Qopts. rewrite plugins_among in Qps.
      exists x, sorted, (fst (assimilate_all (options_new poJ) (options_of (map (here root) (d1' ++ d3'))))), (plugins_of (map (here root) (d1' ++ d3'))), (w1' ++ w3'), (rl_limit r1), po, poJ.
      exists (options_of (map (here root) d1)), (options_of (map (here root) d3)), (options_of (map (here root) (d1' ++ d3'))), (plugins_of (map (here root) d1)), (plugins_of (map (here root) d3)).
      split; [exact Px|]. split; [exact Nx|]. split; [exact G|]. split; [eapply alike_sorted; [|exact So|exact SoJ]; eapply alike_yields; [exact Y1|apply Forall2_nil|exact Ae|exact YJ]|].
      split; [rewrite Qopts; eapply rules_same; [exact Ob|exact ObJ|exact K3]|]. split; [exact Qopts|]. split; [reflexivity|].
      split; [pose proof (alike_options_of any _ _ Ae) as Z; rewrite map_app, options_of_app in Z at 1; exact Z|]. split; [exact Dr|]. split; [exact DrJ|]. split; [exact Qps|].
      split; [pose proof (alike_plugins_of any _ _ Ae) as Z; unfold plugins_of in *; rewrite map_app, flat_map_app in Z at 1; exact Z|].
      rewrite !map_app, W1, W3. rewrite <- app_assoc. apply Permutation_app_head. apply Permutation_app_comm.
    Unshelve. all: exact Nx.
    Qed.

    (** And it can be put in. *)
    Lemma line_insert x ds' opts' ps' ws' : neutral x ->
      (forall r, (exists po, obeys E po r) -> runs E I root r p [mk_spanned (D_Pragma x) (text I p q)] (long_strings (rl_limit r) I p q) q r) ->
      (forall o u, In o (option_in x) -> In u (said opts') -> ~ rivals u (opt_variant o)) ->
      ledger_is L E canonicalize root c' (Success ds' opts' ps' ws') ->
      exists ds opts ps ws, ledger_is L E canonicalize root c (Success ds opts ps ws).
    Proof.
      intros Nx Hr R H'.
      assert (Fc' : fine_content L E 0 c').
      { apply (content_tokens L E 0 c tc Lx) in Fc. apply (content_tokens L E 0 c' tc' Lx'). rewrite Tc in Fc. rewrite Tc'. apply (fine_app E ta _ Ea) in Fc. destruct Fc as [Fa Ft].
        apply (fine_app E td _ (or_intror Ed)) in Ft. apply (fine_app E ta _ Ea). split; [exact Fa|apply Ft]. }
      destruct Fc as (t & X & Ci & Oi). rewrite Lx in X. injection X as <-. destruct Fc' as (t & X & Cj & Oj). rewrite Lx' in X. injection X as <-.
      assert (Ni' : without K_Include (map fst tc')).
      { unfold without in *. rewrite Tc'. rewrite Tc in Ni. rewrite !in_app_iff in *. tauto. }
      destruct (alone_success L E En U canonicalize root Cano Root c' tc' Lx' Cj Oj Ni' _ _ _ _ H') as (decls & rJ & po & ys & T & Np & Du & Le & _ & _ & Ob & Qopts & _).
      clear H'. set (I0 := input_of 0 c tc) in *. set (J := input_of 0 c' tc') in *. set (p0 := List.length ta) in *. set (q0 := p0 + List.length td) in *.
      assert (Li : List.length (in_tokens I0) = q0 + List.length tb) by (rewrite <- (map_length fst); change (in_tokens I0) with tc; rewrite Tc, !app_length; unfold p0, q0; lia).
      assert (Lj : List.length (in_tokens J) = p0 + List.length tb) by (rewrite <- (map_length fst); change (in_tokens J) with tc'; rewrite Tc', !app_length; unfold p0; lia).
      pose proof (start_after ta Ea I0 _ Tc (Fd tb)) as Sp. fold p0 in Sp.
      assert (Eq : ended (ta ++ td)) by (destruct Ed as (u & Qu); right; exists (ta ++ u); rewrite Qu; apply app_assoc).
      assert (Sq : line_start I0 q0).
      { pose proof (start_after (ta ++ td) Eq I0 tb) as Z. rewrite app_length in Z. apply Z; [rewrite <- app_assoc; exact Tc|exact Fb]. }
      pose proof (start_after ta Ea J _ Tc' Fb) as Sj. fold p0 in Sj.
      destruct (tiles_at E En J root _ _ _ _ _ _ p0 Cj Oj (obeyed E En) T eq_refl ltac:(lia) Sj) as (d1 & d3 & w1 & w3 & r1 & -> & -> & R1 & T3 & Ob1).
      pose proof (tiles_runs E En J root _ _ _ _ _ _ T3 eq_refl ltac:(lia) Cj Oj Ob1) as R3.
      assert (Same : forall k t, k < p0 -> tok J k t -> tok I0 k t).
      { intros k t Hk Hi. apply (tokens_at J _ _ _ Tc') in Hi. apply (tokens_at I0 _ _ _ Tc). rewrite nth_error_app1 in * by exact Hk. exact Hi. }
      assert (Same3 : forall k t, tok J (p0 + k) t -> tok I0 (q0 + k) t).
      { intros k t Hi. apply (tokens_at J _ _ _ Tc') in Hi. apply (tokens_at I0 _ _ _ Tc). rewrite app_assoc, nth_error_app2 by (rewrite app_length; unfold q0, p0; lia).
        rewrite nth_error_app2 in Hi by (unfold p0; lia). rewrite app_length. replace (q0 + k - (List.length ta + List.length td)) with k by (unfold q0, p0; lia). replace (p0 + k - List.length ta) with k in Hi by (unfold p0; lia). exact Hi. }
      assert (Past : forall A0, ~ tok A0 (List.length (in_tokens A0)) T_Indent).
      { intros A0 [z Z]. assert (nth_error (in_tokens A0) (List.length (in_tokens A0)) <> None) as V by congruence. apply nth_error_Some in V. lia. }
      destruct (runs_copied E En J I0 root _ _ _ _ _ _ Cj Oj Ci Oi R1 initial_rules 0 (kin_initial E En) ltac:(lia)) as (d1' & w1' & r1' & R1' & A1 & W1 & K1).
      { intros k t Hk. apply Same. lia. }
      { apply Sj. }
      { replace (0 + (p0 - 0)) with p0 by lia. apply Sp. }
      { destruct (proj1 Sj) as [Z|Z]; [left; exact Z|right; left; exact Z]. }
      replace (0 + (p0 - 0)) with p0 in R1' by lia.
      assert (Rm : runs E I0 root r1' p0 [mk_spanned (D_Pragma x) (text I0 p0 q0)] (long_strings (rl_limit r1') I0 p0 q0) q0 r1').
      { apply Hr. destruct K1 as (pa & pb & _ & X & _). eauto. }
      destruct (runs_copied E En J I0 root _ _ _ _ _ _ Cj Oj Ci Oi R3 r1' q0 K1 ltac:(lia)) as (d3' & w3' & r3' & R3' & A3 & W3 & K3).
      { intros k t _. apply Same3. }
      { apply Past. }
      { replace (q0 + (List.length (in_tokens J) - p0)) with (List.length (in_tokens I0)) by lia. apply Past. }
      { right. right. split; apply nth_error_None; lia. }
      assert (Fi : finished I0 (q0 + (List.length (in_tokens J) - p0))) by (apply nth_error_None; lia).
      pose proof (runs_tiles _ _ _ _ _ _ _ _ _ (runs_app _ _ _ _ _ _ _ _ _ _ _ _ _ R1' (runs_app _ _ _ _ _ _ _ _ _ _ _ _ _ Rm R3')) Fi) as TI. cbn [app] in TI.
      pose proof (Forall2_app A1 A3) as Al. pose proof (alike_no_include _ _ Al Np) as Np'. pose proof (alike_here root _ _ Al) as Ae.
      assert (DuI : dues canonicalize [] [] [] (map (here root) (d1' ++ d3')) []).
      { eapply (strip_dues root canonicalize [] [] [] [] [] _ Du [] (d1' ++ d3') (Forall2_nil _)). rewrite plain_here by exact Np. exact Al. }
      pose proof (alike_leftover any _ _ Ae Le) as LeI.
      assert (Nd : forall o o', In o (option_in x) -> In o' (options_of (map (here root) (d1' ++ d3'))) -> ~ rivals (opt_variant o') (opt_variant o)).
      { intros o o' Ho Ho' X. apply (R o (opt_variant o') Ho); [|exact X]. rewrite Qopts. rewrite said_all by exact (dues_reports canonicalize root _ _ Du). apply arranged_in.
        - rewrite (alike_options_of any _ _ Ae). apply in_map. exact Ho'.
        - destruct X as (s & s' & Z & _). rewrite <- setting_kind. congruence. }
      apply Forall_app in Np'. destruct Np' as [Np1 Np3].
      pose proof (dues_with canonicalize root x Nx (text I0 p0 q0) d1' d3' Np3 Nd DuI) as Du2.
      pose proof (proj1 (stacked_leftover _ _ (stacked_between root x Nx (text I0 p0 q0) d1' d3')) LeI) as Le2.
      assert (Np2 : Forall (fun d => is_include (item d) = false) (d1' ++ mk_spanned (D_Pragma x) (text I0 p0 q0) :: d3')).
      { apply Forall_app. split; [exact Np1|]. constructor; [|exact Np3]. destruct x; cbn in Nx; tauto || reflexivity. }
      destruct (alone_parses L E En U canonicalize root Cano Root c tc Lx Ci Oi Ni _ _ _ TI Np2 Du2 Le2) as (poI & yI & sorted & YI & SoI & ObI & G).
      eauto.
    Qed.
  End Line.

  (** ** The line of an option *)
  Lemma not_date I names i j d es : whole_at E I names i j d es -> exists dt, tok I i (T_Date dt).
  Proof using L.
    clear - L. intros [W _]. inversion W; subst; match goal with H : written I (date_at I) i _ _ |- _ => destruct H as [H _]; inversion H; subst; eauto end.
  Qed.
  Lemma runs_alone I r i ds ws r' : computable E I -> fine_options I -> (exists po, obeys E po r) -> runs E I root r i ds ws i r' -> ds = [] /\ ws = [] /\ r' = r.
  Proof.
    intros Ci Fi Ob R. inversion R as [|? ? ? ? ? ? ? ? ? D R']; subst; [auto|]. exfalso. destruct (obeys_after E En _ _ _ _ _ _ _ Ci Fi Ob D) as [Ob2 B]. pose proof (runs_le E En _ _ _ _ _ _ _ _ Ci Fi Ob2 R'). lia.
  Qed.
  Lemma tok_same I i t t' : tok I i t -> tok I i t' -> t = t'.
  Proof using L. clear - L. intros [x X] [y Y]. congruence. Qed.
  Lemma reads_kind U0 dp sp n w x : reads U0 dp sp n w x -> ~ In n rule_names -> kind_of x <> None.
  Proof using L. clear - L. intros [] N; cbn; try discriminate; exfalso; apply N; [destruct t|]; cbn; tauto. Qed.
  Section OptionLine.
    Context (I : input) (Ci : computable E I) (Oi : fine_options I) (i : nat) (name value : str).
    Context (T0 : tok I i (T_Keyword K_Option)) (T1 : tok I (S i) (T_String name)) (T2 : tok I (S (S i)) (T_String value)) (T3 : tok I (S (S (S i))) T_Eol).
    Local Notation source := (mk_source (text I (S i) (S (S i))) (text I (S (S i)) (S (S (S i))))).
    Lemma option_runs r ds ws r' : ~ In name rule_names -> (exists po, obeys E po r) -> runs E I root r i ds ws (i + 4) r' ->
      exists v, ds = [mk_spanned (D_Pragma (P_Option (mk_option source v))) (text I i (i + 4))] /\ reads (g_unicode E) (g_decimal E) root name value v /\ kind_of v <> None /\ r' = r /\ ws = long_strings (rl_limit r) I i (i + 4).
    Proof.
      intros Nr Ob R. replace (i + 4) with (S (S (S (S i)))) in * by lia. inversion R as [r0 i0|? ? j d r1 ds0 ws0 k0 r2 D R2]; subst; [lia|]. rename R2 into R0.
      destruct (obeys_after E En _ _ _ _ _ _ _ Ci Oi Ob D) as [Ob1 Bj]. inversion D as [x es W|k x P Le|k o es r3 P Le]; subst.
      - exfalso. destruct (not_date _ _ _ _ _ _ W) as [dt X]. pose proof (tok_same _ _ _ _ T0 X). discriminate.
      - exfalso. destruct P; match goal with T : tok I i (T_Keyword ?k) |- _ => match k with K_Option => fail 1 | _ => pose proof (tok_same _ _ _ _ T0 T); discriminate end end.
      - inversion P as [a b nm vl o' es' r'' Tk W1 W2 Ef]; subst. destruct W1 as [S1 Q1]. inversion S1 as [n1 Tn1]; subst. destruct W2 as [S2 Q2]. inversion S2 as [n2 Tn2]; subst.
        pose proof (tok_same _ _ _ _ T1 Tn1) as Z1. injection Z1 as ->. pose proof (tok_same _ _ _ _ T2 Tn2) as Z2. injection Z2 as ->.
        inversion Le as [y Ty|y Fy]; subst.
        2: { exfalso. destruct T3 as [z Z]. unfold finished in Fy. congruence. }
        destruct (runs_alone _ _ _ _ _ _ Ci Oi Ob1 R0) as (-> & -> & ->).
        inversion Ef as [t s Rd _|t t' s Rd _ _|m Rd|v Rd Nv|_|e _]; subst.
        + exfalso. exact (reads_kind _ _ _ _ _ _ Rd Nr eq_refl).
        + exfalso. exact (reads_kind _ _ _ _ _ _ Rd Nr eq_refl).
        + exists v. destruct nm as [nm ?], vl as [vl ?]. cbn in *. subst. rewrite app_nil_r. split; [reflexivity|]. split; [exact Rd|]. split; [exact (reads_kind _ _ _ _ _ _ Rd Nr)|split; reflexivity].
    Qed.
    Lemma option_runs_back v r : ~ In name rule_names -> reads (g_unicode E) (g_decimal E) root name value v ->
      runs E I root r i [mk_spanned (D_Pragma (P_Option (mk_option source v))) (text I i (i + 4))] (long_strings (rl_limit r) I i (i + 4)) (i + 4) r.
    Proof.
      intros Nr Rd. replace (i + 4) with (S (S (S (S i)))) by lia. rewrite <- (app_nil_r (long_strings _ _ _ _)). eapply runs_next; [|constructor].
      eapply declares_option; [|apply line_end_eol; exact T3].
      apply option_ with (a := S (S i)) (name := mk_spanned name (text I (S i) (S (S i)))) (value := mk_spanned value (text I (S (S i)) (S (S (S i))))); [exact T0|split; [constructor; exact T1|reflexivity]|split; [constructor; exact T2|reflexivity]|].
      apply effect_none with (v := v); [exact Rd|].
      pose proof (reads_kind _ _ _ _ _ _ Rd Nr) as Kv. destruct v; auto; apply Kv; reflexivity.
    Qed.
  End OptionLine.
  Section PluginLine.
    Context (I : input) (Ci : computable E I) (Oi : fine_options I) (i : nat) (module : str) (config : option str).
    Context (Tk : forall x, x < List.length (plugin_line module config) -> forall t, nth_error (plugin_line module config) x = Some t -> tok I (i + x) t).
    Local Notation k := (i + List.length (plugin_line module config)).
    Let the_plugin := mk_plugin (mk_spanned module (text I (S i) (S (S i)))) (option_map (fun s => mk_spanned s (text I (S (S i)) (S (S (S i))))) config).
    Lemma plugin_toks : tok I i (T_Keyword K_Plugin) /\ tok I (S i) (T_String module) /\ match config with Some s => tok I (S (S i)) (T_String s) /\ tok I (S (S (S i))) T_Eol | None => tok I (S (S i)) T_Eol end.
    Proof using Tk.
      clear - Tk. unfold plugin_line in Tk. destruct config as [s|]; cbn in Tk.
      - pose proof (Tk 0 ltac:(repeat constructor) _ eq_refl) as A. pose proof (Tk 1 ltac:(repeat constructor) _ eq_refl) as B. pose proof (Tk 2 ltac:(repeat constructor) _ eq_refl) as C. pose proof (Tk 3 ltac:(repeat constructor) _ eq_refl) as D.
        rewrite !Nat.add_succ_r, Nat.add_0_r in *. auto.
      - pose proof (Tk 0 ltac:(repeat constructor) _ eq_refl) as A. pose proof (Tk 1 ltac:(repeat constructor) _ eq_refl) as B. pose proof (Tk 2 ltac:(repeat constructor) _ eq_refl) as C.
        rewrite !Nat.add_succ_r, Nat.add_0_r in *. auto.
    Qed.
    Lemma plugin_runs_back r : runs E I root r i [mk_spanned (D_Pragma (P_Plugin the_plugin)) (text I i k)] (long_strings (rl_limit r) I i k) k r.
    Proof using Tk.
      clear - Tk. destruct plugin_toks as (T0 & T1 & T2). rewrite <- (app_nil_r (long_strings _ _ _ _)). eapply runs_next; [|constructor]. unfold the_plugin. unfold plugin_line. destruct config as [s|]; cbn [List.length option_map].
      - replace (i + 4) with (S (S (S (S i)))) by lia. eapply declares_pragma; [|apply line_end_eol; apply T2]. eapply pragma_plugin; [exact T0|split; [constructor; exact T1|reflexivity]|]. apply maybe_so. split; [constructor; apply T2|reflexivity].
      - replace (i + 3) with (S (S (S i))) by lia. eapply declares_pragma; [|apply line_end_eol; apply T2]. eapply pragma_plugin; [exact T0|split; [constructor; exact T1|reflexivity]|]. apply maybe_not.
    Qed.
    Lemma plugin_runs r ds ws r' : (exists po, obeys E po r) -> runs E I root r i ds ws k r' ->
      ds = [mk_spanned (D_Pragma (P_Plugin the_plugin)) (text I i k)] /\ r' = r /\ ws = long_strings (rl_limit r) I i k.
    Proof.
      intros Ob R. destruct plugin_toks as (T0 & T1 & T2). assert (Lk : k = match config with Some _ => S (S (S (S i))) | None => S (S (S i)) end) by (unfold plugin_line; destruct config; cbn; lia).
      inversion R as [r0 i0|? ? j d r1 ds0 ws0 k0 r2 D R2]; subst; [destruct config; cbn in *; lia|].
      destruct (obeys_after E En _ _ _ _ _ _ _ Ci Oi Ob D) as [Ob1 Bj].
      assert (j = k /\ d = mk_spanned (D_Pragma (P_Plugin the_plugin)) (text I i k) /\ r1 = r) as (-> & -> & ->).
      { inversion D as [x es W|y x P Le|y o es r3 P Le]; subst.
        - exfalso. destruct (not_date _ _ _ _ _ _ W) as [dt X]. pose proof (tok_same _ _ _ _ T0 X). discriminate.
        - inversion P as [y' t Tq A|y' t Tq A|y' kv Tq A|y' t Tq A B|y' s Tq A|y' k' m c Tq A B]; subst; pose proof (tok_same _ _ _ _ T0 Tq) as Z; try discriminate Z. clear Z.
          destruct A as [A1 A2]. inversion A1 as [m1 Tm]; subst. pose proof (tok_same _ _ _ _ T1 Tm) as Z. injection Z as ->. destruct m as [m ms]. cbn in *. subst ms.
          assert (Fin : forall n t, tok I n t -> ~ finished I n) by (intros n t [z Z1] F; unfold finished in F; congruence).
          inversion B as [|? c0 [B1 B2]]; subst.
          + inversion Le as [n Tn|n Fn]; subst; [|exfalso; destruct config; [exact (Fin _ _ (proj1 T2) Fn)|exact (Fin _ _ T2 Fn)]].
            destruct config as [s|]; [destruct T2 as [T2 _]; pose proof (tok_same _ _ _ _ T2 Tn) as Z; discriminate Z|]. rewrite Lk. split; [reflexivity|]. split; reflexivity.
          + inversion B1 as [c1 Tc]; subst. destruct config as [s|]; [|pose proof (tok_same _ _ _ _ T2 Tc) as Z; discriminate Z]. destruct T2 as [T2 T3]. pose proof (tok_same _ _ _ _ T2 Tc) as Z. injection Z as ->. destruct c0 as [c0 cs]. cbn in *. subst cs.
            inversion Le as [n Tn|n Fn]; subst; [|exact (False_ind _ (Fin _ _ T3 Fn))]. rewrite Lk. split; [reflexivity|]. split; reflexivity.
        - inversion P; subst. exfalso. match goal with T : tok I i (T_Keyword K_Option) |- _ => pose proof (tok_same _ _ _ _ T0 T); discriminate end. }
      destruct (runs_alone _ _ _ _ _ _ Ci Oi Ob1 R2) as (-> & -> & ->). rewrite app_nil_r. auto.
    Qed.
  End PluginLine.

  (** ** The theorems *)
  Lemma at_place (c : str) (tc : list rtoken) ta td tb : map fst tc = ta ++ td ++ tb -> forall x t, nth_error td x = Some t -> tok (input_of 0 c tc) (List.length ta + x) t.
  Proof using L.
    clear - L. intros Tc x t H. apply (tokens_at (input_of 0 c tc) _ _ _ Tc). rewrite nth_error_app2 by lia. replace (List.length ta + x - List.length ta) with x by lia. rewrite nth_error_app1; [exact H|]. apply nth_error_Some. congruence.
  Qed.
  Definition ascii_dec (x : N) : {ascii x} + {~ ascii x}.
  Proof using. unfold ascii, N.lt. destruct (x ?= 128)%N; [right|left|right]; congruence. Defined.
  Lemma option_line_fine name value v : reads (g_unicode E) (g_decimal E) root name value v -> fine_tokens E (option_line name value).
  Proof.
    intro Rd. apply (C49_option_value _ _ _ _ _ _ (env_unicode _ En)) in Rd.
    assert (At : forall i t, tok (placed (option_line name value)) i t <-> nth_error (option_line name value) i = Some t) by (intros i t; apply tokens_at, placed_tokens).
    split; [split|].
    - intros i s T. exfalso. apply At in T. do 4 (destruct i; [discriminate T|]). destruct i; discriminate T.
    - intros i j e _ [S0 _]. exfalso.
      assert (No : forall k d, ~ tok (placed (option_line name value)) k (T_Number d)) by (intros k d T; apply At in T; do 4 (destruct k; [discriminate T|]); destruct k; discriminate T).
      eapply (proj1 (no_number (placed (option_line name value)) No)). exact S0.
    - intros i nm vl c T0 T1 T2 Hc. apply At in T0, T1, T2. destruct i as [|i]; [|do 3 (destruct i; [discriminate T0|]); destruct i; discriminate T0]. injection T1 as ->. injection T2 as ->.
      destruct (Forall_Exists_dec ascii ascii_dec c) as [X|X]; [exact X|]. exfalso.
      assert (option_value (g_unicode E) (g_decimal E) nm vl root = Panic) as Z by (apply C49_option_panics; exists c; split; [exact X|exact Hc]). congruence.
  Qed.
  Lemma due_reports_app a : forall e b, due_reports e (a ++ b) = due_reports e a ++ due_reports (e ++ a) b.
  Proof using L. clear - L. induction a as [|o a IH]; intros e b; [rewrite app_nil_r; reflexivity|]. cbn. rewrite IH, <- app_assoc. reflexivity. Qed.
  Lemma no_rivals a o b : Forall (fun r => r = None) (due_reports [] (a ++ o :: b)) -> forall o', In o' (a ++ b) -> ~ rivals (opt_variant o') (opt_variant o).
  Proof using L.
    clear - L. intros F o' Ho. rewrite due_reports_app in F. apply Forall_app in F. destruct F as [_ F]. cbn in F. inversion F as [|? ? F1 F2]; subst. apply in_app_iff in Ho. destruct Ho as [Ho|Ho].
    - exact (proj1 (due_none _ _) F1 _ Ho).
    - apply in_split in Ho. destruct Ho as (b1 & b2 & ->). rewrite due_reports_app in F2. apply Forall_app in F2. destruct F2 as [_ F2]. cbn in F2. inversion F2 as [|? ? F3 _]; subst. intro X. apply rivals_sym in X. revert X. apply (proj1 (due_none _ _) F3). rewrite !in_app_iff. left. right. left. reflexivity.
  Qed.
  Lemma arranged_from u vs : In u (arranged vs) -> In u vs.
  Proof using L. clear - L. intro H. apply in_flat_map in H. destruct H as (k & _ & H). apply filter_In in H. apply H. Qed.

  (** Take the line of an option which is not for the parser itself out of a text
      which is parsed successfully, and it is parsed successfully, with the same
      directives and plugins; and its options say the same but for just this. *)
  Theorem C77_option_delete : forall c c' tc tc' ta name value tb ds opts ps ws,
    lex L c = Fine (Some tc) -> lex L c' = Fine (Some tc') -> map fst tc = ta ++ option_line name value ++ tb -> map fst tc' = ta ++ tb ->
    ended ta -> afresh_next tb -> ~ In name rule_names ->
    fine_content L E 0 c -> without K_Include (map fst tc) ->
    ledger_is L E canonicalize root c (Success ds opts ps ws) ->
    exists v ds' opts' ps' ws' limit,
      reads (g_unicode E) (g_decimal E) root name value v /\ says_besides v opts opts' /\ (forall u, In u (said opts') -> ~ rivals u v) /\
      ledger_is L E canonicalize root c' (Success ds' opts' ps' ws') /\
      Forall2 (fun x y => alike (item x) (item y)) ds ds' /\ Forall2 alike_plugin ps ps' /\
      Permutation (map rp_problem ws) (map rp_problem (ws' ++ long_strings limit (input_of 0 c tc) (List.length ta) (List.length ta + 4))).
  Proof.
    intros c c' tc tc' ta name value tb ds opts ps ws Lx Lx' Tc Tc' Ea Fb Nr Fc Ni H.
    pose proof (at_place c tc _ _ _ Tc) as At.
    pose proof Fc as (t & X & Ci & Oi). rewrite Lx in X. injection X as <-.
    assert (T0 := At 0 _ eq_refl). assert (T1 := At 1 _ eq_refl). assert (T2 := At 2 _ eq_refl). assert (T3 := At 3 _ eq_refl). rewrite Nat.add_0_r in T0. rewrite !Nat.add_succ_r, Nat.add_0_r in T1. rewrite !Nat.add_succ_r, Nat.add_0_r in T2. rewrite !Nat.add_succ_r, Nat.add_0_r in T3.
    destruct (line_delete c c' tc tc' ta (option_line name value) tb Lx Lx' Tc Tc' Ea (ex_intro _ [T_Keyword K_Option; T_String name; T_String value] eq_refl) (fun more vs Z => ltac:(discriminate Z)) Fb Fc Ni
      (fun x => exists s v, x = P_Option (mk_option s v) /\ reads (g_unicode E) (g_decimal E) root name value v /\ kind_of v <> None) ds opts ps ws) as (x & ds' & opts' & ps' & ws' & limit & po & po' & o1 & o3 & os' & p1 & p3 & (s & v & -> & Rd & Kv) & _ & G & Al & Ru & Qo & Qo' & Qs & D & D' & Qp & Ap & W).
    { intros r dm wm r' Ob R. destruct (option_runs _ Ci Oi _ _ _ T0 T1 T2 T3 _ _ _ _ Nr Ob R) as (v & -> & Rd & Kv & -> & ->). eexists. split; [reflexivity|]. split; [exact Logic.I|]. eauto 8. }
    { exact H. }
    cbn [option_in plugin_in app] in *. exists v, ds', opts', ps', ws', limit. split; [exact Rd|].
    assert (So : said opts = arranged (map opt_variant o1 ++ v :: map opt_variant o3)) by (rewrite Qo, said_all by exact D; rewrite map_app; reflexivity).
    assert (So' : said opts' = arranged (map opt_variant o1 ++ map opt_variant o3)) by (rewrite Qo', said_all by exact D'; rewrite <- Qs, map_app; reflexivity).
    split; [|split; [|split; [exact G|split; [exact Al|split; [rewrite Qp; exact Ap|exact W]]]]].
    - split; [|exact Ru]. destruct (kind_of v) as [k|] eqn:Qk; [|congruence]. destruct (arranged_one v k (map opt_variant o1) (map opt_variant o3) Qk) as (a & b & Q1 & Q2). exists a, b. rewrite So, So'. auto.
    - intros u Hu. rewrite So' in Hu. apply arranged_from in Hu. rewrite <- map_app in Hu. apply in_map_iff in Hu. destruct Hu as (o' & <- & Ho). exact (no_rivals _ _ _ D _ Ho).
  Qed.

  (** Put it in, and the whole is parsed successfully, provided the value is one
      the option can have and no other option of the text sets the same. *)
  Theorem C77_option_insert : forall c c' tc tc' ta name value v tb ds' opts' ps' ws',
    lex L c = Fine (Some tc) -> lex L c' = Fine (Some tc') -> map fst tc = ta ++ option_line name value ++ tb -> map fst tc' = ta ++ tb ->
    ended ta -> afresh_next tb -> ~ In name rule_names ->
    fine_content L E 0 c' -> without K_Include (map fst tc') ->
    reads (g_unicode E) (g_decimal E) root name value v -> (forall u, In u (said opts') -> ~ rivals u v) ->
    ledger_is L E canonicalize root c' (Success ds' opts' ps' ws') ->
    exists ds opts ps ws limit,
      ledger_is L E canonicalize root c (Success ds opts ps ws) /\
      says_besides v opts opts' /\ Forall2 (fun x y => alike (item x) (item y)) ds ds' /\ Forall2 alike_plugin ps ps' /\
      Permutation (map rp_problem ws) (map rp_problem (ws' ++ long_strings limit (input_of 0 c tc) (List.length ta) (List.length ta + 4))).
  Proof.
    intros c c' tc tc' ta name value v tb ds' opts' ps' ws' Lx Lx' Tc Tc' Ea Fb Nr Fc' Ni' Rd Nv H'.
    pose proof (at_place c tc _ _ _ Tc) as At.
    assert (Fc : fine_content L E 0 c).
    { apply (content_tokens L E 0 c' tc' Lx') in Fc'. apply (content_tokens L E 0 c tc Lx). rewrite Tc. rewrite Tc' in Fc'. apply (fine_app E ta _ Ea) in Fc'. destruct Fc' as [Fa Ft].
      apply (fine_app E ta _ Ea). split; [exact Fa|]. apply fine_app; [right; exists [T_Keyword K_Option; T_String name; T_String value]; reflexivity|]. split; [eapply option_line_fine; exact Rd|exact Ft]. }
    assert (Ni : without K_Include (map fst tc)).
    { unfold without in *. rewrite Tc. rewrite Tc' in Ni'. rewrite !in_app_iff in *. cbn. intuition discriminate. }
    pose proof Fc as (t & X & Ci & Oi). rewrite Lx in X. injection X as <-.
    assert (T0 := At 0 _ eq_refl). assert (T1 := At 1 _ eq_refl). assert (T2 := At 2 _ eq_refl). assert (T3 := At 3 _ eq_refl). rewrite Nat.add_0_r in T0. rewrite !Nat.add_succ_r, Nat.add_0_r in T1. rewrite !Nat.add_succ_r, Nat.add_0_r in T2. rewrite !Nat.add_succ_r, Nat.add_0_r in T3.
    set (I := input_of 0 c tc) in *. set (i := List.length ta) in *.
    destruct (line_insert c c' tc tc' ta (option_line name value) tb Lx Lx' Tc Tc' Ea (ex_intro _ [T_Keyword K_Option; T_String name; T_String value] eq_refl) (fun more vs Z => ltac:(discriminate Z)) Fb Fc Ni
      (P_Option (mk_option (mk_source (text I (S i) (S (S i))) (text I (S (S i)) (S (S (S i))))) v)) ds' opts' ps' ws' Logic.I) as (ds & opts & ps & ws & G).
    { intros r _. exact (option_runs_back I i name value T0 T1 T2 T3 v r Nr Rd). }
    { intros o u [<-|[]] Hu. exact (Nv u Hu). }
    { exact H'. }
    destruct (C77_option_delete c c' tc tc' ta name value tb ds opts ps ws Lx Lx' Tc Tc' Ea Fb Nr Fc Ni G) as (v2 & ds2 & opts2 & ps2 & ws2 & limit & Rd2 & Sb & _ & G2 & Al & Ap & W).
    assert (v2 = v) as ->.
    { apply (C49_option_value _ _ _ _ _ _ (env_unicode _ En)) in Rd, Rd2. congruence. }
    pose proof (ledger_unique L E canonicalize root _ _ _ _ Lx' Ni' H' G2) as Q. injection Q as <- <- <- <-. exists ds, opts, ps, ws, limit. auto 8.
  Qed.

  (** The same for the line of a plugin. *)
  Theorem C77_plugin_delete : forall c c' tc tc' ta module config tb ds opts ps ws,
    lex L c = Fine (Some tc) -> lex L c' = Fine (Some tc') -> map fst tc = ta ++ plugin_line module config ++ tb -> map fst tc' = ta ++ tb ->
    ended ta -> afresh_next tb ->
    fine_content L E 0 c -> without K_Include (map fst tc) ->
    ledger_is L E canonicalize root c (Success ds opts ps ws) ->
    exists before x after ds' opts' ps' ws' limit,
      ps = before ++ x :: after /\ item (pl_module x) = module /\ option_map item (pl_config x) = config /\ Forall2 alike_plugin (before ++ after) ps' /\
      ledger_is L E canonicalize root c' (Success ds' opts' ps' ws') /\
      Forall2 (fun x y => alike (item x) (item y)) ds ds' /\ alike_options opts opts' /\
      Permutation (map rp_problem ws) (map rp_problem (ws' ++ long_strings limit (input_of 0 c tc) (List.length ta) (List.length ta + List.length (plugin_line module config)))).
  Proof.
    intros c c' tc tc' ta module config tb ds opts ps ws Lx Lx' Tc Tc' Ea Fb Fc Ni H.
    pose proof (at_place c tc _ _ _ Tc) as At.
    pose proof Fc as (t & X & Ci & Oi). rewrite Lx in X. injection X as <-.
    assert (Ed : exists u, plugin_line module config = u ++ [T_Eol]) by (unfold plugin_line; destruct config as [s|]; [exists [T_Keyword K_Plugin; T_String module; T_String s]|exists [T_Keyword K_Plugin; T_String module]]; reflexivity).
    destruct (line_delete c c' tc tc' ta (plugin_line module config) tb Lx Lx' Tc Tc' Ea Ed (fun more vs Z => ltac:(discriminate Z)) Fb Fc Ni
      (fun x => exists y, x = P_Plugin y /\ item (pl_module y) = module /\ option_map item (pl_config y) = config) ds opts ps ws) as (x & ds' & opts' & ps' & ws' & limit & po & po' & o1 & o3 & os' & p1 & p3 & (y & -> & Qm & Qc) & _ & G & Al & Ru & Qo & Qo' & Qs & D & D' & Qp & Ap & W).
    { intros r dm wm r' Ob R. destruct (plugin_runs _ Ci Oi _ module config (fun x _ t => At x t) _ _ _ _ Ob R) as (-> & -> & ->). eexists. split; [reflexivity|]. split; [exact Logic.I|]. split; [|auto]. eexists. split; [reflexivity|]. split; [reflexivity|]. destruct config; reflexivity. }
    { exact H. }
    cbn [option_in plugin_in app] in *. exists p1, y, p3, ds', opts', ps', ws', limit. split; [exact Qp|]. split; [exact Qm|]. split; [exact Qc|]. split; [exact Ap|]. split; [exact G|]. split; [exact Al|]. split; [|exact W].
    apply said_alike. split; [|exact Ru]. rewrite Qo, Qo', !said_all by assumption. rewrite Qs. reflexivity.
  Qed.
  Theorem C77_plugin_insert : forall c c' tc tc' ta module config tb ds' opts' ps' ws',
    lex L c = Fine (Some tc) -> lex L c' = Fine (Some tc') -> map fst tc = ta ++ plugin_line module config ++ tb -> map fst tc' = ta ++ tb ->
    ended ta -> afresh_next tb ->
    fine_content L E 0 c' -> without K_Include (map fst tc') ->
    ledger_is L E canonicalize root c' (Success ds' opts' ps' ws') ->
    exists before x after ds opts ws limit,
      ledger_is L E canonicalize root c (Success ds opts (before ++ x :: after) ws) /\
      item (pl_module x) = module /\ option_map item (pl_config x) = config /\ Forall2 alike_plugin (before ++ after) ps' /\
      Forall2 (fun x y => alike (item x) (item y)) ds ds' /\ alike_options opts opts' /\
      Permutation (map rp_problem ws) (map rp_problem (ws' ++ long_strings limit (input_of 0 c tc) (List.length ta) (List.length ta + List.length (plugin_line module config)))).
  Proof.
    intros c c' tc tc' ta module config tb ds' opts' ps' ws' Lx Lx' Tc Tc' Ea Fb Fc' Ni' H'.
    pose proof (at_place c tc _ _ _ Tc) as At.
    assert (Ed : exists u, plugin_line module config = u ++ [T_Eol]) by (unfold plugin_line; destruct config as [s|]; [exists [T_Keyword K_Plugin; T_String module; T_String s]|exists [T_Keyword K_Plugin; T_String module]]; reflexivity).
    assert (Fc : fine_content L E 0 c).
    { apply (content_tokens L E 0 c' tc' Lx') in Fc'. apply (content_tokens L E 0 c tc Lx). rewrite Tc. rewrite Tc' in Fc'. apply (fine_app E ta _ Ea) in Fc'. destruct Fc' as [Fa Ft].
      apply (fine_app E ta _ Ea). split; [exact Fa|]. apply fine_app; [right; exact Ed|]. split; [|exact Ft]. unfold plugin_line. destruct config; apply fine_plain; unfold without; cbn; intuition discriminate. }
    assert (Ni : without K_Include (map fst tc)).
    { unfold without in *. rewrite Tc. rewrite Tc' in Ni'. rewrite !in_app_iff in *. unfold plugin_line. destruct config; cbn; intuition discriminate. }
    set (I := input_of 0 c tc) in *. set (i := List.length ta) in *.
    destruct (line_insert c c' tc tc' ta (plugin_line module config) tb Lx Lx' Tc Tc' Ea Ed (fun more vs Z => ltac:(discriminate Z)) Fb Fc Ni
      (P_Plugin (mk_plugin (mk_spanned module (text I (S i) (S (S i)))) (option_map (fun s => mk_spanned s (text I (S (S i)) (S (S (S i))))) config))) ds' opts' ps' ws' Logic.I) as (ds & opts & ps & ws & G).
    { intros r _. exact (plugin_runs_back I i module config (fun x _ t => At x t) r). }
    { intros o u []. }
    { exact H'. }
    destruct (C77_plugin_delete c c' tc tc' ta module config tb ds opts ps ws Lx Lx' Tc Tc' Ea Fb Fc Ni G) as (before & x & after & ds2 & opts2 & ps2 & ws2 & limit & -> & Qm & Qc & Ap & G2 & Al & Ao & W).
    pose proof (ledger_unique L E canonicalize root _ _ _ _ Lx' Ni' H' G2) as Q. injection Q as <- <- <- <-. exists before, x, after, ds, opts, ws, limit. auto 8.
  Qed.
End Said.
