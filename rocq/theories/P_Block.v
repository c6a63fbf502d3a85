(** * C76: several directives stand for themselves *)
From Coq Require Import String Ascii.
From Coq Require Import List NArith ZArith Arith Bool Lia Permutation Sorted.
From Verif Require Import Base BaseFacts Text Path PathFacts Sources Types SpecTypes TypesFacts P_Types SortM SpecSort P_Sort Options SpecOptions OptionsFacts P_Options
  Pragma SpecPragma PragmaRun P_Pragma Read SpecRead ReadFacts P_Read
  Token Lexer SpecLexer P_Lexer Peg PegFacts Grammar SpecExpr SpecGrammar SpecDirective SpecDisplay SpecLedger SpecAlike P_Grammar
  Parse SpecParse SpecWhole ParseFacts ParseOnce ParseFile P_File P_Includes P_Parse IncludeTokens P_Order P_Complete AlikeRead AlikeFile AlikeWalk AlikeOptions SortFacts SimCopy SpecPaste Paste P_Paste
  SpecAppend Append P_Append SpecLocal Local Parts P_Local SpecSwap P_Swap SpecBlock.
Import SpecPragma Read.
Import ListNotations.
Local Open Scope nat_scope.
Local Notation tok := SpecGrammar.tok.
Local Notation ended := SpecAppend.ended.

(** ** Sorting, and taking out *)
Lemma shuffled_marks {A} (l : list (bool * A)) : shuffled (map snd (filter (fun x => fst x) l)) (map snd (filter (fun x => negb (fst x)) l)) (map snd l).
Proof. induction l as [|[[] x] l IH]; [constructor| |]; cbn; constructor; exact IH. Qed.
Lemma filter_filter {A} (f g : A -> bool) l : filter f (filter g l) = filter g (filter f l).
Proof. induction l as [|x l IH]; [reflexivity|]. cbn. destruct (g x) eqn:G, (f x) eqn:F; cbn; rewrite ?F, ?G, ?IH; reflexivity. Qed.
Lemma filter_map_snd {A} (f : A -> bool) (l : list (bool * A)) : filter f (map snd l) = map snd (filter (fun x => f (snd x)) l).
Proof. induction l as [|[b x] l IH]; [reflexivity|]. cbn. destruct (f x); cbn; rewrite IH; reflexivity. Qed.
Lemma strongly_filter {A} (R : A -> A -> Prop) f l : StronglySorted R l -> StronglySorted R (filter f l).
Proof.
  intro H. induction H as [|x l H IH F]; [constructor|]. cbn. destruct (f x); [|exact IH]. constructor; [exact IH|].
  rewrite Forall_forall in *. intros y Hy. apply filter_In in Hy. apply F. apply Hy.
Qed.
Lemma strongly_map {A B} (R : B -> B -> Prop) (g : A -> B) l : StronglySorted (fun x y => R (g x) (g y)) l -> StronglySorted R (map g l).
Proof. intro H. induction H as [|x l H IH F]; [constructor|]. cbn. constructor; [exact IH|]. apply Forall_map. exact F. Qed.
Lemma sorted_shuffled a b c ds : sorted_from (a ++ b ++ c) ds -> exists kept taken, shuffled kept taken ds /\ sorted_from (a ++ c) kept /\ sorted_from b taken.
Proof.
  intro So. set (yes := fun x : spanned directive => (true, x)). set (no := fun x : spanned directive => (false, x)).
  set (l := map yes a ++ map no b ++ map yes c).
  destruct (sort_list_spec key_compare (fun x : bool * spanned directive => directive_key (snd x)) key_compare_laws l) as (o & _ & Ss & Fk & _).
  assert (Sy : forall m : list (spanned directive), map snd (map yes m) = m) by (intro m; rewrite map_map; apply map_id).
  assert (Sn : forall m : list (spanned directive), map snd (map no m) = m) by (intro m; rewrite map_map; apply map_id).
  assert (Ly : filter (fun x => fst x) l = map yes (a ++ c)).
  { assert (Z : forall m, filter (fun x : bool * spanned directive => fst x) (map yes m) = map yes m) by (induction m as [|x m IH]; [reflexivity|cbn; f_equal; exact IH]).
    assert (Z' : filter (fun x : bool * spanned directive => fst x) (map no b) = []) by (clear; induction b as [|x m IH]; [reflexivity|exact IH]).
    unfold l. rewrite !filter_app, map_app, !Z, Z'. reflexivity. }
  assert (Ln : filter (fun x => negb (fst x)) l = map no b).
  { unfold l. rewrite !filter_app.
    assert (Z : forall m, filter (fun x : bool * spanned directive => negb (fst x)) (map yes m) = []) by (induction m as [|x m IH]; [reflexivity|exact IH]).
    rewrite !Z. cbn. rewrite app_nil_r. clear. induction b as [|x m IH]; [reflexivity|cbn; f_equal; exact IH]. }
  assert (By : forall (f : bool * spanned directive -> bool) m, filter f l = m -> sorted_from (map snd m) (map snd (filter f o))).
  { intros f m Q. destruct (sorted_exists (map snd m)) as (m' & Sm). replace (map snd (filter f o)) with m'; [exact Sm|]. apply sorted_keyed in Sm. destruct Sm as [Sm Km].
    apply keyed_unique; [exact Sm|apply strongly_map, strongly_filter; exact Ss|]. intro k. rewrite Km, <- Q, !filter_map_snd. f_equal.
    rewrite (filter_filter _ f l), (filter_filter _ f o). f_equal. symmetry. apply Fk. }
  assert (Q : ds = map snd o).
  { pose proof (By (fun _ => true) l) as Z. assert (T : forall m : list (bool * spanned directive), filter (fun _ => true) m = m) by (induction m as [|x m IH]; [reflexivity|cbn; f_equal; exact IH]).
    rewrite !T in Z. specialize (Z eq_refl). unfold l in Z. rewrite !map_app, !Sy, Sn in Z. exact (sorted_from_unique _ _ _ So Z). }
  exists (map snd (filter (fun x => fst x) o)), (map snd (filter (fun x => negb (fst x)) o)). rewrite Q. split; [apply shuffled_marks|].
  split; [pose proof (By _ _ Ly) as Z; rewrite Sy in Z; exact Z|pose proof (By _ _ Ln) as Z; rewrite Sn in Z; exact Z].
Qed.
Lemma sorted_in l out x : sorted_from l out -> In x out -> In x l.
Proof.
  intros So Hx. apply sort_sorted in So. unfold sort_directives in So. destruct (sort_list_spec key_compare directive_key key_compare_laws l) as (o & Q & _ & _ & P). rewrite Q in So. injection So as <-.
  eapply Permutation_in; eassumption.
Qed.

(** ** A block among other declarations *)
Lemma calm_no_dues canonicalize root ds : Forall calm_declaration ds -> forall seen, dues canonicalize [] [] seen (map (here root) ds) [].
Proof.
  intro F. induction F as [|d ds C F IH]; intro seen; cbn [map]; [constructor|]. change (@nil report) with (@nil report ++ []). constructor; [|apply IH].
  cbn. destruct C as [[x ->]|[x ->]]; reflexivity.
Qed.
Lemma calm_between root d1 d2 d3 : Forall calm_declaration d2 -> level (map (here root) (d1 ++ d3)) (map (here root) (d1 ++ d2 ++ d3)).
Proof. intro F. rewrite !map_app, app_assoc. apply level_snoc. apply calm_level. exact F. Qed.
Lemma calm_dues_between canonicalize root d1 d2 d3 : Forall calm_declaration d2 -> Forall (fun d => is_include (item d) = false) d3 ->
  (dues canonicalize [] [] [] (map (here root) (d1 ++ d2 ++ d3)) [] <-> dues canonicalize [] [] [] (map (here root) (d1 ++ d3)) []).
Proof.
  intros F N3. rewrite !map_app. split; intro D.
  - apply dues_split in D. destruct D as [A D]. apply dues_split in D. destruct D as [_ D]. change (@nil report) with (@nil report ++ []). apply dues_app; [exact A|].
    eapply level_dues; [exact N3|apply level_sym, calm_level; exact F|exact D].
  - apply dues_split in D. destruct D as [A D]. change (@nil report) with (@nil report ++ []). apply dues_app; [exact A|]. change (@nil report) with (@nil report ++ []).
    apply dues_app; [apply calm_no_dues; exact F|]. eapply level_dues; [exact N3|apply calm_level; exact F|exact D].
Qed.
Lemma calm_yields_between root d1 d2 d3 ys : Forall calm_declaration d2 -> yields [] (map (here root) (d1 ++ d2 ++ d3)) ys ->
  exists y1 y2 y3, ys = y1 ++ y2 ++ y3 /\ yields [] (map (here root) d1) y1 /\ yields (map (here root) d1) (map (here root) d2) y2 /\
    yields (map (here root) (d1 ++ d2)) (map (here root) d3) y3 /\ yields [] (map (here root) (d1 ++ d3)) (y1 ++ y3).
Proof.
  intros F Y. rewrite !map_app in Y. apply yields_split in Y. destruct Y as (y1 & yr & -> & Y1 & Y). cbn [app] in Y. apply yields_split in Y. destruct Y as (y2 & y3 & -> & Y2 & Y3).
  exists y1, y2, y3. rewrite !map_app. split; [reflexivity|]. do 3 (split; [assumption|]). apply yields_app; [exact Y1|]. eapply level_yields; [exact Y3|]. apply level_sym, calm_level. exact F.
Qed.
Lemma calm_leftover root ds : Forall calm_declaration ds -> leftover (map (here root) ds) [].
Proof. intro F. apply leftover_none. destruct (calm_level root ds F []) as (A & B & _). cbn [app] in A, B. split; intro z; [rewrite <- A|rewrite <- B]; reflexivity. Qed.
Lemma long_strings_app limit I i j k : i <= j <= k -> long_strings limit I i k = long_strings limit I i j ++ long_strings limit I j k.
Proof. intro H. unfold long_strings. rewrite <- flat_map_app. f_equal. replace (k - i) with ((j - i) + (k - j)) by lia. rewrite seq_app. f_equal. f_equal. lia. Qed.

Section Block.
  Context (L : lexer_env) (E : grammar_env) (En : environment_ok E) (U : unicode_ok (le_unicode L)).
  Context (canonicalize : path -> option path) (root : option path).
  Context (Cano : forall p q c d, same_path p q -> canonicalize p = Some c -> canonicalize q = Some d -> same_path c d).
  Context (Root : forall p, root = Some p -> canonicalize p <> None).

  Lemma runs_within I f r i ds ws k r' : computable E I -> fine_options I -> (exists po, obeys E po r) -> runs E I f r i ds ws k r' -> Forall (within I i k) ds.
  Proof.
    intros Ci Oi Ob R. induction R as [r i|r i j d r1 ds ws k r2 D R IH]; [constructor|].
    destruct (obeys_after E En _ _ _ _ _ _ _ Ci Oi Ob D) as [Ob1 B]. pose proof (runs_le E En _ _ _ _ _ _ _ _ Ci Oi Ob1 R) as Le. constructor.
    - exists i, j. repeat split; try lia. inversion D; reflexivity.
    - eapply Forall_impl; [|exact (IH Ob1)]. cbn. intros x (a & b & Ha & Hb & Hc & Hs). exists a, b. repeat split; try lia. exact Hs.
  Qed.
  Lemma quiet_warnings I f r i ds ws k r' ts : computable E I -> fine_options I -> (exists po, obeys E po r) -> runs E I f r i ds ws k r' ->
    (forall x t, i <= x < k -> tok I x t -> In t ts) -> quiet ts -> without K_Include ts -> ws = long_strings (rl_limit r) I i k.
  Proof.
    intros Ci Oi Ob R. induction R as [r i|r i j d r1 ds ws k r2 D R IH]; intros Ts Q Ni; [unfold long_strings; rewrite Nat.sub_diag; reflexivity|].
    destruct (obeys_after E En _ _ _ _ _ _ _ Ci Oi Ob D) as [Ob1 B]. pose proof (runs_le E En _ _ _ _ _ _ _ _ Ci Oi Ob1 R) as Le.
    assert (r1 = r) as ->.
    { inversion D as [x es W|y p P Le'|y o es r0 P Le']; subst; try reflexivity. exfalso. inversion P; subst. destruct Q as (Q1 & _). apply Q1. apply (Ts i); [lia|eassumption]. }
    rewrite (IH Ob1) by (auto; intros x t Hx; apply Ts; lia). symmetry. apply long_strings_app. lia.
  Qed.
  Lemma no_plugins I f r i ds ws k r' ts : computable E I -> fine_options I -> (exists po, obeys E po r) -> runs E I f r i ds ws k r' ->
    (forall x t, i <= x < k -> tok I x t -> In t ts) -> without K_Plugin ts -> plugins_of (map (here root) ds) = [].
  Proof.
    intros Ci Oi Ob R. induction R as [r i|r i j d r1 ds ws k r3 D R IH]; intros Ts Np; [reflexivity|].
    destruct (obeys_after E En _ _ _ _ _ _ _ Ci Oi Ob D) as [Ob1 B]. pose proof (runs_le E En _ _ _ _ _ _ _ _ Ci Oi Ob1 R) as Le.
    unfold plugins_of in *. cbn [map flat_map]. rewrite (IH Ob1); auto; [|intros x t Hx; apply Ts; lia]. rewrite app_nil_r. cbn.
    inversion D as [z es W|y z P Le'|y o es r0 P Le']; subst; cbn; try reflexivity. inversion P; subst; try reflexivity. exfalso. apply Np. apply (Ts i); [lia|]. assumption.
  Qed.
  Lemma stack_yields s es ds : yields s es ds -> forall s', (forall t, tag_stack t s = tag_stack t s') -> (forall k, meta_stack k s = meta_stack k s') -> yields s' es ds.
  Proof.
    intro Y. induction Y as [seen|seen e es d d' ds As Au Sp Y IH|seen e es ds As Y IH]; intros s' T M; [constructor| |].
    - assert (T' : forall t, tag_stack t (seen ++ [e]) = tag_stack t (s' ++ [e])) by (intro t; unfold tag_stack in *; rewrite !fold_left_app, T; reflexivity).
      assert (M' : forall k, meta_stack k (seen ++ [e]) = meta_stack k (s' ++ [e])) by (intro k; unfold meta_stack in *; rewrite !fold_left_app, M; reflexivity).
      econstructor; [exact As| |exact Sp|apply IH; assumption]. destruct Au as [a b c d0 F G H K]. constructor; auto.
      + intro t. rewrite <- T. apply F.
      + intros k v. rewrite <- M. apply G.
    - apply yields_other; auto. apply IH; intros; unfold tag_stack, meta_stack in *; rewrite !fold_left_app; [rewrite T|rewrite M]; reflexivity.
  Qed.
  Lemma nothing_pushed I f r i ds ws k r' ts : computable E I -> fine_options I -> (exists po, obeys E po r) -> runs E I f r i ds ws k r' ->
    (forall x t, i <= x < k -> tok I x t -> In t ts) -> without K_Pushtag ts -> without K_Pushmeta ts ->
    forall seen, (forall t, tag_stack t seen = []) -> (forall m, meta_stack m seen = []) ->
      (forall t, tag_stack t (seen ++ map (here root) ds) = []) /\ forall m, meta_stack m (seen ++ map (here root) ds) = [].
  Proof.
    intros Ci Oi Ob R. induction R as [r i|r i j d r1 ds ws k r3 D R IH]; intros Ts N1 N2 seen T M; [cbn; rewrite app_nil_r; auto|].
    destruct (obeys_after E En _ _ _ _ _ _ _ Ci Oi Ob D) as [Ob1 B]. pose proof (runs_le E En _ _ _ _ _ _ _ _ Ci Oi Ob1 R) as Le.
    cbn [map]. change (here root d :: map (here root) ds) with ([here root d] ++ map (here root) ds). rewrite app_assoc. apply (IH Ob1); auto; [intros x t Hx; apply Ts; lia| |].
    all: intro z; unfold tag_stack, meta_stack in *; rewrite fold_left_app; rewrite ?T, ?M; cbn; inversion D as [x0 es W|y p P Le'|y o es r0 P Le']; subst; cbn; try reflexivity.
    all: inversion P; subst; cbn; try reflexivity; try (exfalso; (apply N1 + apply N2); apply (Ts i); [lia|]; assumption); match goal with |- context [if ?x then _ else _] => destruct x end; reflexivity.
  Qed.
  Lemma taken_out : forall c c' tc tc' t1 tB t3 ds opts ps ws,
    lex L c = Fine (Some tc) -> lex L c' = Fine (Some tc') -> map fst tc = t1 ++ tB ++ t3 -> map fst tc' = t1 ++ t3 ->
    ended t1 -> ended tB -> afresh_next tB -> afresh_next t3 -> quiet tB ->
    fine_content L E 0 c -> without K_Include (map fst tc) ->
    ledger_is L E canonicalize root c (Success ds opts ps ws) ->
    let I := input_of 0 c tc in let p := List.length t1 in let q := p + List.length tB in
    exists kept taken ds' opts' ps' ws' p1 pB p3 limit,
      ledger_is L E canonicalize root c' (Success ds' opts' ps' ws') /\
      shuffled kept taken ds /\ Forall (within I p q) taken /\ Forall (fun d => within I 0 p d \/ within I q (List.length tc) d) kept /\
      Forall2 (fun x y => alike (item x) (item y)) kept ds' /\ alike_options opts opts' /\
      ps = p1 ++ pB ++ p3 /\ Forall2 alike_plugin (p1 ++ p3) ps' /\ (without K_Plugin tB -> pB = []) /\
      Permutation (map rp_problem ws) (map rp_problem (ws' ++ long_strings limit I p q)) /\
      (forall e te, lex L e = Fine (Some te) -> map fst te = tB -> (forall x, x < p -> ~ sets_rule_at I x) ->
        exists dsE optsE psE wsE, ledger_is L E canonicalize root e (Success dsE optsE psE wsE) /\
          Forall2 alike_plugin pB psE /\ map rp_problem (long_strings limit I p q) = map rp_problem wsE /\
          (without K_Pushtag t1 -> without K_Pushmeta t1 -> Forall2 (fun x y => alike (item x) (item y)) taken dsE)).
  Proof.
    intros c c' tc tc' t1 tB t3 ds opts ps ws Lx Lx' Tc Tc' E1 EB NB N3 QB Fc Ni H. cbv zeta.
    pose proof Fc as Fct. apply (content_tokens L E 0 c tc Lx) in Fct. rewrite Tc in Fct. apply (fine_app E t1 _ E1) in Fct. destruct Fct as [F1 Fct]. apply (fine_app E tB _ EB) in Fct. destruct Fct as [FB F3].
    assert (Fc' : fine_content L E 0 c') by (apply (content_tokens L E 0 c' tc' Lx'); rewrite Tc'; apply (fine_app E t1 _ E1); auto).
    destruct Fc as (t & X & Ci & Oi). rewrite Lx in X. injection X as <-. destruct Fc' as (t & X & Cj & Oj). rewrite Lx' in X. injection X as <-.
    destruct (alone_success L E En U canonicalize root Cano Root c tc Lx Ci Oi Ni _ _ _ _ H) as (decls & rE & po & ys & T & Np & Du & Le & Y & So & Ob & -> & ->).
    set (I := input_of 0 c tc) in *. set (J := input_of 0 c' tc') in *. set (p := List.length t1). set (q := p + List.length tB).
    assert (Li : List.length (in_tokens I) = q + List.length t3) by (rewrite <- (map_length fst); change (in_tokens I) with tc; rewrite Tc, !app_length; unfold p, q; lia).
    assert (Lj : List.length (in_tokens J) = p + List.length t3) by (rewrite <- (map_length fst); change (in_tokens J) with tc'; rewrite Tc', !app_length; unfold p; lia).
    assert (Ap : ended (t1 ++ tB)) by (destruct EB as [->|(u & ->)]; [rewrite app_nil_r; exact E1|right; exists (t1 ++ u); apply app_assoc]).
    assert (Fr : afresh_next (tB ++ t3)) by (destruct tB as [|x l]; [exact N3|]; intros vs Q; cbn in Q; injection Q as -> _; eapply NB; reflexivity).
    assert (Sp : line_start I p) by (apply (start_after t1 E1 I _ Tc); exact Fr).
    assert (Sq : line_start I q) by (pose proof (start_after (t1 ++ tB) Ap I t3) as Z; rewrite app_length in Z; apply Z; [rewrite <- app_assoc; exact Tc|exact N3]).
    assert (Sj : line_start J p) by (apply (start_after t1 E1 J _ Tc'); exact N3).
    destruct (tiles_at E En I root _ _ _ _ _ _ p Ci Oi (obeyed E En) T eq_refl ltac:(unfold q in *; lia) Sp) as (d1 & d2 & w1 & w2 & r1 & -> & -> & R1 & T2 & Ob1).
    destruct (tiles_at E En I root _ _ _ _ _ _ q Ci Oi Ob1 T2 eq_refl ltac:(unfold q in *; lia) Sq) as (dB & d3 & wB & w3 & rB & -> & -> & RB & T3 & ObB).
    pose proof (tiles_runs E En I root _ _ _ _ _ _ T3 eq_refl ltac:(unfold q in *; lia) Ci Oi ObB) as R3.
    assert (In1 : forall x t, 0 <= x < p -> tok I x t -> In t t1).
    { intros x t Hx Hi. apply (tokens_at I _ _ _ Tc) in Hi. rewrite nth_error_app1 in Hi by (unfold p in *; lia). eapply nth_error_In. exact Hi. }
    assert (InB : forall x t, p <= x < q -> tok I x t -> In t tB).
    { intros x t Hx Hi. apply (tokens_at I _ _ _ Tc) in Hi. rewrite nth_error_app2 in Hi by (unfold p in *; lia). rewrite nth_error_app1 in Hi by (unfold q, p in *; lia). eapply nth_error_In. exact Hi. }
    assert (NiB : without K_Include tB) by (unfold without in *; rewrite Tc in Ni; rewrite !in_app_iff in Ni; tauto).
    assert (Ni' : without K_Include (map fst tc')) by (unfold without in *; rewrite Tc in Ni; rewrite Tc'; rewrite !in_app_iff in *; tauto).
    pose proof (quiet_warnings _ _ _ _ _ _ _ _ tB Ci Oi Ob1 RB InB QB NiB) as QW. subst wB.
    destruct (quiet_runs E En _ _ _ _ _ _ _ _ tB Ci Oi Ob1 RB InB QB NiB) as (-> & CB & WB).
    pose proof (runs_within _ _ _ _ _ _ _ _ Ci Oi (obeyed E En) R1) as W1. pose proof (runs_within _ _ _ _ _ _ _ _ Ci Oi Ob1 R3) as W3.
    assert (Same1 : forall k t, k < p -> tok I k t -> tok J k t).
    { intros k t Hk Hi. apply (tokens_at I _ _ _ Tc) in Hi. apply (tokens_at J _ _ _ Tc'). rewrite nth_error_app1 in * by exact Hk. exact Hi. }
    assert (Same3 : forall k t, tok I (q + k) t -> tok J (p + k) t).
    { intros k t Hi. apply (tokens_at I _ _ _ Tc) in Hi. apply (tokens_at J _ _ _ Tc'). rewrite app_assoc, nth_error_app2 in Hi by (rewrite app_length; unfold q, p; lia).
      rewrite nth_error_app2 by (unfold p; lia). rewrite app_length in Hi. replace (q + k - (List.length t1 + List.length tB)) with k in Hi by (unfold q, p; lia). replace (p + k - List.length t1) with k by (unfold p; lia). exact Hi. }
    assert (Past : forall A0, ~ tok A0 (List.length (in_tokens A0)) T_Indent).
    { intros A0 [z Z]. assert (nth_error (in_tokens A0) (List.length (in_tokens A0)) <> None) as V by congruence. apply nth_error_Some in V. lia. }
    destruct (runs_copied E En I J root _ _ _ _ _ _ Ci Oi Cj Oj R1 initial_rules 0 (kin_initial E En) ltac:(unfold q in *; lia)) as (d1' & w1' & r1' & R1' & A1 & V1 & K1).
    { intros k t Hk. apply Same1. lia. }
    { apply Sp. }
    { replace (0 + (p - 0)) with p by lia. apply Sj. }
    { destruct (proj1 Sp) as [Z|Z]; [left; exact Z|right; left; exact Z]. }
    replace (0 + (p - 0)) with p in R1' by lia.
    destruct (runs_copied E En I J root _ _ _ _ _ _ Ci Oi Cj Oj R3 r1' p K1 ltac:(lia)) as (d3' & w3' & r3' & R3' & A3 & V3 & K3).
    { intros k t _. apply Same3. }
    { apply Past. }
    { replace (p + (List.length (in_tokens I) - q)) with (List.length (in_tokens J)) by lia. apply Past. }
    { right. right. split; apply nth_error_None; lia. }
    assert (Fj : finished J (p + (List.length (in_tokens I) - q))) by (apply nth_error_None; lia).
    pose proof (runs_tiles _ _ _ _ _ _ _ _ _ (runs_app _ _ _ _ _ _ _ _ _ _ _ _ _ R1' R3') Fj) as TJ. pose proof (Forall2_app A1 A3) as Al.
    assert (Np1 : Forall (fun d => is_include (item d) = false) (d1 ++ d3)) by (rewrite !Forall_app in *; tauto).
    assert (Np3 : Forall (fun d => is_include (item d) = false) d3) by (rewrite !Forall_app in *; tauto).
    assert (NpB : Forall (fun d => is_include (item d) = false) dB) by (rewrite !Forall_app in *; tauto).
    pose proof (alike_no_include _ _ Al Np1) as NpJ. pose proof (alike_here root _ _ Al) as Ae.
    pose proof (proj1 (calm_dues_between canonicalize root d1 dB d3 CB Np3) Du) as Du1. pose proof (calm_between root d1 dB d3 CB) as Lv. pose proof (proj2 (level_leftover _ _ Lv) Le) as Le1.
    assert (DuJ : dues canonicalize [] [] [] (map (here root) (d1' ++ d3')) []).
    { eapply (strip_dues root canonicalize [] [] [] [] [] _ Du1 [] (d1' ++ d3') (Forall2_nil _)). rewrite plain_here by exact Np1. exact Al. }
    pose proof (alike_leftover any _ _ Ae Le1) as LeJ.
    destruct (alone_parses L E En U canonicalize root Cano Root c' tc' Lx' Cj Oj Ni' _ _ _ TJ NpJ DuJ LeJ) as (poJ & yJ & sorted & YJ & SoJ & ObJ & G).
    destruct (calm_yields_between root d1 dB d3 ys CB Y) as (y1 & yB & y3 & -> & Y1 & YB & Y3 & YI).
    destruct (sorted_shuffled _ _ _ _ So) as (kept & taken & Sh & Sk & St).
    exists kept, taken, sorted, (fst (assimilate_all (options_new poJ) (options_of (map (here root) (d1' ++ d3'))))), (plugins_of (map (here root) (d1' ++ d3'))), (w1' ++ w3').
    exists (plugins_of (map (here root) d1)), (plugins_of (map (here root) dB)), (plugins_of (map (here root) d3)), (rl_limit r1).
    split; [exact G|]. split; [exact Sh|]. split; [|split; [|split; [|split; [|split; [|split; [|split; [|split]]]]]]].
    - apply Forall_forall. intros x Hx. pose proof (sorted_in _ _ _ St Hx) as Hx'. pose proof (yields_within root I p q _ _ _ WB YB) as Z. rewrite Forall_forall in Z. auto.
    - apply Forall_forall. intros x Hx. pose proof (sorted_in _ _ _ Sk Hx) as Hx'. apply in_app_iff in Hx'.
      pose proof (yields_within root I 0 p _ _ _ W1 Y1) as Z1. pose proof (yields_within root I q (List.length (in_tokens I)) _ _ _ W3 Y3) as Z3. rewrite Forall_forall in Z1, Z3. destruct Hx'; auto.
    - eapply alike_sorted; [|exact Sk|exact SoJ]. eapply alike_yields; [exact YI|constructor|exact Ae|exact YJ].
    - eapply alike_opts; [exact Ob|exact ObJ|exact K3|]. rewrite <- (alike_options_of any _ _ Ae). destruct Lv as (_ & _ & Q). rewrite Q. reflexivity.
    - unfold plugins_of. rewrite !map_app, !flat_map_app. reflexivity.
    - pose proof (alike_plugins_of any _ _ Ae) as Z. unfold plugins_of in *. rewrite !map_app, !flat_map_app in Z. rewrite !map_app, !flat_map_app. exact Z.
    - intro Np0. eapply no_plugins; [exact Ci|exact Oi|exact Ob1|exact RB|exact InB|exact Np0].
    - rewrite !map_app, V1, V3. rewrite <- app_assoc. apply Permutation_app_head. apply Permutation_app_comm.
    - intros e te LxE Te Nr.
      assert (r1 = initial_rules) as -> by (eapply (runs_settled E En); [exact Ci|exact Oi|exact (obeyed E En)| |exact R1]; intros b Hb; apply Nr; lia).
      assert (Fe : fine_content L E 0 e) by (apply (content_tokens L E 0 e te LxE); rewrite Te; exact FB).
      destruct Fe as (t & X & Ce & Oe). rewrite LxE in X. injection X as <-. set (K0 := input_of 0 e te) in *.
      assert (Lk : List.length (in_tokens K0) = q - p) by (rewrite <- (map_length fst); change (in_tokens K0) with te; rewrite Te; unfold q; lia).
      destruct (runs_copied E En I K0 root _ _ _ _ _ _ Ci Oi Ce Oe RB initial_rules 0 (kin_initial E En) ltac:(lia)) as (dE & wE & rE' & RE & AE & VE & KE).
      { intros k t Hk Hi. apply (tokens_at I _ _ _ Tc) in Hi. apply (tokens_at K0 tB _ _ Te). rewrite nth_error_app2 in Hi by (unfold p; lia). replace (p + k - List.length t1) with k in Hi by (unfold p; lia). rewrite nth_error_app1 in Hi by (unfold q in Hk; lia). exact Hi. }
      { apply Sq. }
      { cbn [Nat.add]. rewrite <- Lk. apply Past. }
      { destruct EB as [->|(us & ->)]; [left; unfold q; cbn; lia|]. right. left. exists (p + List.length us). split; [unfold q; rewrite app_length; cbn; lia|].
        apply (tokens_at I _ _ _ Tc). rewrite nth_error_app2 by (unfold p; lia). replace (p + List.length us - List.length t1) with (List.length us) by (unfold p; lia).
        rewrite <- app_assoc, nth_error_app2, Nat.sub_diag by lia. reflexivity. }
      cbn [Nat.add] in RE. assert (Fk : finished K0 (q - p)) by (apply nth_error_None; lia).
      pose proof (runs_tiles _ _ _ _ _ _ _ _ _ RE Fk) as TE. pose proof (alike_no_include _ _ AE NpB) as NpE. pose proof (alike_here root _ _ AE) as AEe.
      assert (DuE : dues canonicalize [] [] [] (map (here root) dE) []).
      { eapply (strip_dues root canonicalize [] [] [] [] [] _ (calm_no_dues canonicalize root dB CB []) [] dE (Forall2_nil _)). rewrite plain_here by exact NpB. exact AE. }
      pose proof (alike_leftover any _ _ AEe (calm_leftover root dB CB)) as LeE.
      assert (NiE : without K_Include (map fst te)) by (rewrite Te; exact NiB).
      destruct (alone_parses L E En U canonicalize root Cano Root e te LxE Ce Oe NiE _ _ _ TE NpE DuE LeE) as (poE & yE & sE & YE & SoE & ObE & GE).
      exists sE. eexists. exists (plugins_of (map (here root) dE)), wE. split; [exact GE|]. split; [exact (alike_plugins_of any _ _ AEe)|]. split; [exact VE|]. intros P1 P2.
      destruct (nothing_pushed I root _ _ _ _ _ _ t1 Ci Oi (obeyed E En) R1 In1 P1 P2 []) as [Z1 Z2]; [reflexivity|reflexivity|]. cbn [app] in Z1, Z2.
      assert (YB0 : yields [] (map (here root) dB) yB) by (eapply stack_yields; [exact YB| |]; intro z; [rewrite Z1|rewrite Z2]; reflexivity).
      eapply alike_sorted; [|exact St|exact SoE]. eapply alike_yields; [exact YB0|constructor|exact AEe|exact YE].
  Qed.

  (** Take a block of lines with nothing but directives and plugins in them out of
      a text which is parsed successfully: it is again, with just the directives
      and plugins from elsewhere, each group in the order it had, with the same
      options, and with the same warnings but for those about strings in the
      block. *)
  Theorem C76_take : forall c c' tc tc' t1 tB t3 ds opts ps ws,
    lex L c = Fine (Some tc) -> lex L c' = Fine (Some tc') -> map fst tc = t1 ++ tB ++ t3 -> map fst tc' = t1 ++ t3 ->
    ended t1 -> ended tB -> afresh_next tB -> afresh_next t3 -> quiet tB ->
    fine_content L E 0 c -> without K_Include (map fst tc) ->
    ledger_is L E canonicalize root c (Success ds opts ps ws) ->
    let I := input_of 0 c tc in let p := List.length t1 in let q := p + List.length tB in
    exists kept taken ds' opts' ps' ws' p1 pB p3 limit,
      ledger_is L E canonicalize root c' (Success ds' opts' ps' ws') /\
      shuffled kept taken ds /\ Forall (within I p q) taken /\ Forall (fun d => within I 0 p d \/ within I q (List.length tc) d) kept /\
      Forall2 (fun x y => alike (item x) (item y)) kept ds' /\ alike_options opts opts' /\
      ps = p1 ++ pB ++ p3 /\ Forall2 alike_plugin (p1 ++ p3) ps' /\ (without K_Plugin tB -> pB = []) /\
      Permutation (map rp_problem ws) (map rp_problem (ws' ++ long_strings limit I p q)).
  Proof.
    intros c c' tc tc' t1 tB t3 ds opts ps ws Lx Lx' Tc Tc' E1 EB NB N3 QB Fc Ni H.
    destruct (taken_out _ _ _ _ _ _ _ _ _ _ _ Lx Lx' Tc Tc' E1 EB NB N3 QB Fc Ni H) as (kept & taken & ds' & opts' & ps' & ws' & p1 & pB & p3 & limit & A1 & A2 & A3 & A4 & A5 & A6 & A7 & A8 & A9 & A10 & _).
    exists kept, taken, ds', opts', ps', ws', p1, pB, p3, limit. repeat (split; [assumption|]). assumption.
  Qed.

  (** If before the block nothing is pushed and no rules are set, then the block on
      its own is parsed successfully too, with just the directives, plugins and
      warnings which were taken out. *)
  Theorem C76_split : forall c c' e tc tc' te t1 tB t3 ds opts ps ws,
    lex L c = Fine (Some tc) -> lex L c' = Fine (Some tc') -> lex L e = Fine (Some te) -> map fst tc = t1 ++ tB ++ t3 -> map fst tc' = t1 ++ t3 -> map fst te = tB ->
    ended t1 -> ended tB -> afresh_next tB -> afresh_next t3 -> quiet tB ->
    without K_Pushtag t1 -> without K_Pushmeta t1 -> (forall x, x < List.length t1 -> ~ sets_rule_at (input_of 0 c tc) x) ->
    fine_content L E 0 c -> without K_Include (map fst tc) ->
    ledger_is L E canonicalize root c (Success ds opts ps ws) ->
    exists kept taken ds' opts' ps' ws' dsE optsE psE wsE p1 pB p3,
      ledger_is L E canonicalize root c' (Success ds' opts' ps' ws') /\ ledger_is L E canonicalize root e (Success dsE optsE psE wsE) /\
      shuffled kept taken ds /\ Forall2 (fun x y => alike (item x) (item y)) kept ds' /\ Forall2 (fun x y => alike (item x) (item y)) taken dsE /\
      alike_options opts opts' /\ ps = p1 ++ pB ++ p3 /\ Forall2 alike_plugin (p1 ++ p3) ps' /\ Forall2 alike_plugin pB psE /\
      Permutation (map rp_problem ws) (map rp_problem ws' ++ map rp_problem wsE).
  Proof.
    intros c c' e tc tc' te t1 tB t3 ds opts ps ws Lx Lx' LxE Tc Tc' Te E1 EB NB N3 QB P1 P2 Nr Fc Ni H.
    destruct (taken_out _ _ _ _ _ _ _ _ _ _ _ Lx Lx' Tc Tc' E1 EB NB N3 QB Fc Ni H) as (kept & taken & ds' & opts' & ps' & ws' & p1 & pB & p3 & limit & A1 & A2 & _ & _ & A5 & A6 & A7 & A8 & _ & A10 & A11).
    destruct (A11 e te LxE Te Nr) as (dsE & optsE & psE & wsE & B1 & B3 & B4 & B2). specialize (B2 P1 P2).
    exists kept, taken, ds', opts', ps', ws', dsE, optsE, psE, wsE, p1, pB, p3. repeat (split; [assumption|]). rewrite map_app, B4 in A10. exact A10.
  Qed.

  (** Put a block of such lines, which on their own are parsed successfully, before
      a line of a text which is, and sets no rules before that line: the whole is
      parsed successfully, with the directives and plugins of both; those of the
      block are just as on their own if nothing is pushed before that line. *)
  Theorem C76_put : forall c c' e tc tc' te t1 t3 ds' opts' ps' ws' dsE optsE psE wsE,
    lex L c = Fine (Some tc) -> lex L c' = Fine (Some tc') -> lex L e = Fine (Some te) ->
    map fst tc = t1 ++ map fst te ++ t3 -> map fst tc' = t1 ++ t3 ->
    ended t1 -> ended (map fst te) -> afresh_next (map fst te) -> afresh_next t3 -> quiet (map fst te) ->
    fine_content L E 0 c' -> fine_content L E 0 e -> without K_Include (map fst tc) ->
    (forall x, x < List.length t1 -> ~ sets_rule_at (input_of 0 c' tc') x) ->
    ledger_is L E canonicalize root c' (Success ds' opts' ps' ws') -> ledger_is L E canonicalize root e (Success dsE optsE psE wsE) ->
    let I := input_of 0 c tc in let p := List.length t1 in let q := p + List.length te in
    exists ds opts ps ws kept taken p1 pB p3,
      ledger_is L E canonicalize root c (Success ds opts ps ws) /\
      shuffled kept taken ds /\ Forall (within I p q) taken /\ Forall (fun d => within I 0 p d \/ within I q (List.length tc) d) kept /\
      Forall2 (fun x y => alike (item x) (item y)) kept ds' /\ alike_options opts opts' /\
      ps = p1 ++ pB ++ p3 /\ Forall2 alike_plugin (p1 ++ p3) ps' /\ Forall2 alike_plugin pB psE /\
      Permutation (map rp_problem ws) (map rp_problem ws' ++ map rp_problem wsE) /\
      (without K_Pushtag t1 -> without K_Pushmeta t1 -> Forall2 (fun x y => alike (item x) (item y)) taken dsE).
  Proof.
    intros c c' e tc tc' te t1 t3 ds' opts' ps' ws' dsE optsE psE wsE Lx Lx' LxE Tc Tc' E1 EB NB N3 QB Fc' Fe Ni Nr H' HE. cbv zeta.
    assert (Fc : fine_content L E 0 c).
    { apply (content_tokens L E 0 c' tc' Lx') in Fc'. apply (content_tokens L E 0 e te LxE) in Fe. apply (content_tokens L E 0 c tc Lx). rewrite Tc. rewrite Tc' in Fc'. apply (fine_app E t1 _ E1) in Fc'. destruct Fc' as [Fa Ft].
      apply (fine_app E t1 _ E1). split; [exact Fa|]. apply (fine_app E (map fst te) _ EB). split; assumption. }
    assert (Ni' : without K_Include (map fst tc')) by (unfold without in *; rewrite Tc'; rewrite Tc in Ni; rewrite !in_app_iff in *; tauto).
    assert (NiE : without K_Include (map fst te)) by (unfold without in *; rewrite Tc in Ni; rewrite !in_app_iff in Ni; tauto).
    assert (NrI : forall x, x < List.length t1 -> ~ sets_rule_at (input_of 0 c tc) x).
    { intros x Hx (name & value & T0 & T1 & T2 & Hin). destruct E1 as [->|(vs & Eu)]; [cbn in Hx; lia|].
      assert (Lu : List.length t1 = S (List.length vs)) by (rewrite Eu, app_length; cbn; lia).
      assert (Last : forall t, tok (input_of 0 c tc) (List.length vs) t -> t = T_Eol).
      { intros t Hk. apply (tokens_at (input_of 0 c tc) _ _ _ Tc) in Hk. rewrite Eu, <- app_assoc, nth_error_app2, Nat.sub_diag in Hk by lia. injection Hk as <-. reflexivity. }
      assert (N0 : x <> List.length vs) by (intros ->; specialize (Last _ T0); discriminate).
      assert (N1 : S x <> List.length vs) by (intros Z; rewrite Z in T1; specialize (Last _ T1); discriminate).
      assert (At : forall k t, k < List.length t1 -> tok (input_of 0 c tc) k t -> tok (input_of 0 c' tc') k t).
      { intros k t Lk Hk. apply (tokens_at (input_of 0 c tc) _ _ _ Tc) in Hk. apply (tokens_at (input_of 0 c' tc') _ _ _ Tc'). rewrite nth_error_app1 in * by exact Lk. exact Hk. }
      apply (Nr x Hx). exists name, value. split; [apply At; auto|]. split; [apply At; auto; lia|]. split; [apply At; auto; lia|exact Hin]. }
    assert (G : exists ds opts ps ws, ledger_is L E canonicalize root c (Success ds opts ps ws)).
    2: { destruct G as (ds & opts & ps & ws & G).
      destruct (taken_out _ _ _ _ _ _ _ _ _ _ _ Lx Lx' Tc Tc' E1 EB NB N3 QB Fc Ni G) as (kept & taken & ds2 & opts2 & ps2 & ws2 & p1 & pB & p3 & limit & A1 & A2 & A3 & A4 & A5 & A6 & A7 & A8 & _ & A10 & A11).
      pose proof (ledger_unique L E canonicalize root _ _ _ _ Lx' Ni' H' A1) as Q. injection Q as <- <- <- <-.
      destruct (A11 e te LxE eq_refl NrI) as (dsE2 & optsE2 & psE2 & wsE2 & B1 & B2 & B3 & B4).
      pose proof (ledger_unique L E canonicalize root _ _ _ _ LxE NiE HE B1) as Q. injection Q as <- <- <- <-.
      rewrite map_length in A3, A4. exists ds, opts, ps, ws, kept, taken, p1, pB, p3. repeat (split; [assumption|]). split; [rewrite map_app, B3 in A10; exact A10|exact B4]. }
    clear NrI. destruct Fc as (t & X & Ci & Oi). rewrite Lx in X. injection X as <-. destruct Fc' as (t & X & Cj & Oj). rewrite Lx' in X. injection X as <-.
    destruct Fe as (t & X & Ce & Oe). rewrite LxE in X. injection X as <-.
    destruct (alone_success L E En U canonicalize root Cano Root c' tc' Lx' Cj Oj Ni' _ _ _ _ H') as (decls & rJ & po & ys & T & Np & Du & Le & _).
    destruct (alone_success L E En U canonicalize root Cano Root e te LxE Ce Oe NiE _ _ _ _ HE) as (dB & rE & _ & _ & TE & NpB & _).
    clear H' HE. set (I := input_of 0 c tc) in *. set (J := input_of 0 c' tc') in *. set (K0 := input_of 0 e te) in *. set (tB := map fst te) in *. set (p := List.length t1) in *. set (q := p + List.length tB).
    assert (Li : List.length (in_tokens I) = q + List.length t3) by (rewrite <- (map_length fst); change (in_tokens I) with tc; rewrite Tc, !app_length; unfold p, q; lia).
    assert (Lj : List.length (in_tokens J) = p + List.length t3) by (rewrite <- (map_length fst); change (in_tokens J) with tc'; rewrite Tc', !app_length; unfold p; lia).
    assert (Lk : List.length (in_tokens K0) = List.length tB) by (unfold tB; rewrite map_length; reflexivity).
    assert (Ap : ended (t1 ++ tB)) by (destruct EB as [Z|(u & Z)]; rewrite Z; [rewrite app_nil_r; exact E1|right; exists (t1 ++ u); apply app_assoc]).
    assert (Fr : afresh_next (tB ++ t3)) by (destruct tB as [|x l]; [exact N3|]; intros vs Q; cbn in Q; injection Q as -> _; eapply NB; reflexivity).
    assert (Sp : line_start I p) by (apply (start_after t1 E1 I _ Tc); exact Fr).
    assert (Sq : line_start I q) by (pose proof (start_after (t1 ++ tB) Ap I t3) as Z; rewrite app_length in Z; apply Z; [rewrite <- app_assoc; exact Tc|exact N3]).
    assert (Sj : line_start J p) by (apply (start_after t1 E1 J _ Tc'); exact N3).
    destruct (tiles_at E En J root _ _ _ _ _ _ p Cj Oj (obeyed E En) T eq_refl ltac:(lia) Sj) as (d1 & d3 & w1 & w3 & r1 & -> & -> & R1 & T3 & Ob1).
    assert (r1 = initial_rules) as -> by (eapply (runs_settled E En); [exact Cj|exact Oj|exact (obeyed E En)| |exact R1]; intros x Hx; apply Nr; lia).
    pose proof (tiles_runs E En J root _ _ _ _ _ _ T3 eq_refl ltac:(lia) Cj Oj Ob1) as R3.
    pose proof (tiles_runs E En K0 root _ _ _ _ _ _ TE eq_refl ltac:(lia) Ce Oe (obeyed E En)) as RE.
    assert (InB : forall x t, 0 <= x < List.length (in_tokens K0) -> tok K0 x t -> In t tB).
    { intros x t _ Hi. apply (tokens_at K0 tB _ _ eq_refl) in Hi. eapply nth_error_In. exact Hi. }
    destruct (quiet_runs E En _ _ _ _ _ _ _ _ tB Ce Oe (obeyed E En) RE InB QB NiE) as (-> & CB & _).
    assert (Same : forall k t, k < p -> tok J k t -> tok I k t).
    { intros k t Hk Hi. apply (tokens_at J _ _ _ Tc') in Hi. apply (tokens_at I _ _ _ Tc). rewrite nth_error_app1 in * by exact Hk. exact Hi. }
    assert (SameE : forall k t, tok K0 k t -> tok I (p + k) t).
    { intros k t Hi. apply (tokens_at K0 tB _ _ eq_refl) in Hi. apply (tokens_at I _ _ _ Tc). rewrite nth_error_app2 by (unfold p; lia). replace (p + k - List.length t1) with k by (unfold p; lia).
      rewrite nth_error_app1; [exact Hi|]. apply nth_error_Some. congruence. }
    assert (Same3 : forall k t, tok J (p + k) t -> tok I (q + k) t).
    { intros k t Hi. apply (tokens_at J _ _ _ Tc') in Hi. apply (tokens_at I _ _ _ Tc). rewrite app_assoc, nth_error_app2 by (rewrite app_length; unfold q, p; lia).
      rewrite nth_error_app2 in Hi by (unfold p; lia). rewrite app_length. replace (q + k - (List.length t1 + List.length tB)) with k by (unfold q, p; lia). replace (p + k - List.length t1) with k in Hi by (unfold p; lia). exact Hi. }
    assert (Past : forall A0, ~ tok A0 (List.length (in_tokens A0)) T_Indent).
    { intros A0 [z Z]. assert (nth_error (in_tokens A0) (List.length (in_tokens A0)) <> None) as V by congruence. apply nth_error_Some in V. lia. }
    destruct (runs_copied E En J I root _ _ _ _ _ _ Cj Oj Ci Oi R1 initial_rules 0 (kin_initial E En) ltac:(lia)) as (d1' & w1' & r1' & R1' & A1 & W1 & K1).
    { intros k t Hk. apply Same. lia. }
    { apply Sj. }
    { replace (0 + (p - 0)) with p by lia. apply Sp. }
    { destruct (proj1 Sj) as [Z|Z]; [left; exact Z|right; left; exact Z]. }
    replace (0 + (p - 0)) with p in R1' by lia.
    destruct (runs_copied E En K0 I root _ _ _ _ _ _ Ce Oe Ci Oi RE r1' p K1 ltac:(lia)) as (dB' & wB' & r2' & Rm & Am & Wm & K2).
    { intros k t _. apply SameE. }
    { apply Past. }
    { rewrite Nat.sub_0_r, Lk. apply Sq. }
    { destruct EB as [Z|(us & Qu)]; [left; rewrite Lk, Z; reflexivity|]. right. left. exists (List.length us). rewrite Lk. split; [rewrite Qu, app_length; cbn; lia|].
      apply (tokens_at K0 tB _ _ eq_refl). rewrite Qu, nth_error_app2, Nat.sub_diag by lia. reflexivity. }
    rewrite Nat.sub_0_r, Lk in Rm. fold q in Rm.
    destruct (runs_copied E En J I root _ _ _ _ _ _ Cj Oj Ci Oi R3 r2' q K2 ltac:(lia)) as (d3' & w3' & r3' & R3' & A3 & W3 & K3).
    { intros k t _. apply Same3. }
    { apply Past. }
    { replace (q + (List.length (in_tokens J) - p)) with (List.length (in_tokens I)) by lia. apply Past. }
    { right. right. split; apply nth_error_None; lia. }
    assert (Fi : finished I (q + (List.length (in_tokens J) - p))) by (apply nth_error_None; lia).
    pose proof (runs_tiles _ _ _ _ _ _ _ _ _ (runs_app _ _ _ _ _ _ _ _ _ _ _ _ _ R1' (runs_app _ _ _ _ _ _ _ _ _ _ _ _ _ Rm R3')) Fi) as TI.
    pose proof (Forall2_app A1 (Forall2_app Am A3)) as Al.
    assert (NpI : Forall (fun d => is_include (item d) = false) (d1 ++ dB ++ d3)) by (rewrite !Forall_app in *; tauto).
    assert (Np3 : Forall (fun d => is_include (item d) = false) d3) by (rewrite !Forall_app in *; tauto).
    pose proof (alike_no_include _ _ Al NpI) as NpI'.
    pose proof (proj2 (calm_dues_between canonicalize root d1 dB d3 CB Np3) Du) as Du1. pose proof (proj1 (level_leftover _ _ (calm_between root d1 dB d3 CB)) Le) as Le1.
    pose proof (alike_here root _ _ Al) as Ae.
    assert (DuI : dues canonicalize [] [] [] (map (here root) (d1' ++ dB' ++ d3')) []).
    { eapply (strip_dues root canonicalize [] [] [] [] [] _ Du1 [] (d1' ++ dB' ++ d3') (Forall2_nil _)). rewrite plain_here by exact NpI. exact Al. }
    pose proof (alike_leftover any _ _ Ae Le1) as LeI.
    destruct (alone_parses L E En U canonicalize root Cano Root c tc Lx Ci Oi Ni _ _ _ TI NpI' DuI LeI) as (poI & yI & sorted & YI & SoI & ObI & G).
    eauto.
  Qed.
End Block.

(** ** A case: a block with a plugin and a tie with the rest *)
Definition ex_start : str := lit "option ""title"" ""x""" ++ [10%N] ++ lit "2024-01-03 close Assets:Cash" ++ [10%N].
Definition ex_mid : str := lit "2024-01-01 * ""a""" ++ [10%N] ++ lit "  Assets:Cash 1 USD" ++ [10%N] ++ lit "  Income:Cash" ++ [10%N] ++ lit "plugin ""p""" ++ [10%N] ++ lit "2024-01-04 note Assets:Cash ""n""" ++ [10%N].
Definition ex_end : str := lit "2024-01-01 note Assets:Cash ""m""" ++ [10%N] ++ lit "option ""name_assets"" ""Actifs""" ++ [10%N].
Definition ex_all : str := ex_start ++ ex_mid ++ ex_end.
Definition ex_less : str := ex_start ++ ex_end.
Example C76_ex : exists ds opts ps ws ds' opts' ps' ws' dsE optsE psE wsE,
  let words c := map fst (ex_lexed c) in
  lex P_Lexer.ex_env ex_all = Fine (Some (ex_lexed ex_all)) /\ lex P_Lexer.ex_env ex_less = Fine (Some (ex_lexed ex_less)) /\ lex P_Lexer.ex_env ex_mid = Fine (Some (ex_lexed ex_mid)) /\
  words ex_all = words ex_start ++ words ex_mid ++ words ex_end /\ words ex_less = words ex_start ++ words ex_end /\
  ended (words ex_start) /\ ended (words ex_mid) /\ afresh_next (words ex_mid) /\ afresh_next (words ex_end) /\ quiet (words ex_mid) /\
  without K_Pushtag (words ex_start) /\ without K_Pushmeta (words ex_start) /\
  (forall x, x < List.length (words ex_start) -> ~ sets_rule_at (input_of 0 ex_all (ex_lexed ex_all)) x) /\
  (forall x, x < List.length (words ex_start) -> ~ sets_rule_at (input_of 0 ex_less (ex_lexed ex_less)) x) /\
  fine_content P_Lexer.ex_env P_Grammar.ex_env 0 ex_all /\ fine_content P_Lexer.ex_env P_Grammar.ex_env 0 ex_less /\ fine_content P_Lexer.ex_env P_Grammar.ex_env 0 ex_mid /\ without K_Include (words ex_all) /\
  ledger_is P_Lexer.ex_env P_Grammar.ex_env (fun p => Some p) None ex_all (Success ds opts ps ws) /\ List.length ds = 4 /\ List.length ps = 1 /\
  ledger_is P_Lexer.ex_env P_Grammar.ex_env (fun p => Some p) None ex_less (Success ds' opts' ps' ws') /\ List.length ds' = 2 /\ ps' = [] /\
  ledger_is P_Lexer.ex_env P_Grammar.ex_env (fun p => Some p) None ex_mid (Success dsE optsE psE wsE) /\ List.length dsE = 2 /\ List.length psE = 1.
Proof.
  destruct (ex_ledger_success ex_all ltac:(vm_compute; exact Logic.I)) as (ds & opts & ps & ws & HA & QA).
  destruct (ex_ledger_success ex_less ltac:(vm_compute; exact Logic.I)) as (ds' & opts' & ps' & ws' & HB & QB).
  destruct (ex_ledger_success ex_mid ltac:(vm_compute; exact Logic.I)) as (dsE & optsE & psE & wsE & HE & QE).
  exists ds, opts, ps, ws, ds', opts', ps', ws', dsE, optsE, psE, wsE. cbn zeta. do 3 (split; [apply ex_lexes; vm_compute; reflexivity|]). do 2 (split; [vm_compute; reflexivity|]).
  split; [right; exists (removelast (map fst (ex_lexed ex_start))); vm_compute; reflexivity|].
  split; [right; exists (removelast (map fst (ex_lexed ex_mid))); vm_compute; reflexivity|].
  do 2 (split; [intros vs; vm_compute; discriminate|]). split; [apply quiet_check; vm_compute; reflexivity|].
  do 2 (split; [intro X; vm_compute in X; repeat (destruct X as [X|X]; [discriminate X|]); destruct X|]).
  do 2 (split; [apply check_rules_before_ok; vm_compute; reflexivity|]).
  do 3 (split; [apply check_content_ok; vm_compute; reflexivity|]). split; [apply check_without_include; vm_compute; reflexivity|].
  split; [exact HA|]. split; [clear - QA; vm_compute in QA; injection QA as <- _ _ _; reflexivity|]. split; [clear - QA; vm_compute in QA; injection QA as _ _ <- _; reflexivity|].
  split; [exact HB|]. split; [clear - QB; vm_compute in QB; injection QB as <- _ _ _; reflexivity|]. split; [clear - QB; vm_compute in QB; injection QB as _ _ <- _; reflexivity|].
  split; [exact HE|]. split; [clear - QE; vm_compute in QE; injection QE as <- _ _ _; reflexivity|]. clear - QE; vm_compute in QE; injection QE as _ _ <- _; reflexivity.
Qed.

(** ** What is necessary: that nothing is pushed in the block *)
Theorem C76_push_refuted : exists L E a b rest ds opts ps ws es ws',
  unicode_ok (le_unicode L) /\ environment_ok E /\
  ledger_is L E (fun p => Some p) None (a ++ b ++ rest) (Success ds opts ps ws) /\ ledger_is L E (fun p => Some p) None (a ++ rest) (Failure es ws') /\ List.length ds = 2.
Proof.
  set (a := lit "2024-01-01 open Assets:Cash" ++ [10%N]). set (b := lit "pushtag #trip" ++ [10%N] ++ lit "2024-01-02 close Assets:Cash" ++ [10%N]). set (rest := lit "poptag #trip" ++ [10%N]).
  destruct (ex_ledger_success (a ++ b ++ rest) ltac:(vm_compute; exact Logic.I)) as (ds & opts & ps & ws & HA & QA).
  assert (HC : exists es ws, ledger_is P_Lexer.ex_env P_Grammar.ex_env (fun p => Some p) None (a ++ rest) (Failure es ws)).
  { destruct (ex_ledger (a ++ rest)) as [[[|es ws']|]|] eqn:X; try (vm_compute in X; discriminate X). exists es, ws'. apply ex_ledger_is. exact X. }
  destruct HC as (es & ws' & HC). exists P_Lexer.ex_env, P_Grammar.ex_env, a, b, rest, ds, opts, ps, ws, es, ws'.
  split; [exact P_Lexer.arabic_ok|]. split; [exact P_File.ex_environment|]. split; [exact HA|]. split; [exact HC|]. clear - QA. vm_compute in QA. injection QA as <- _ _ _. reflexivity.
Qed.

Print Assumptions C76_take.
Print Assumptions C76_split.
Print Assumptions C76_put.
Print Assumptions C76_push_refuted.
