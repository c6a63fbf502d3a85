(** * Facts for C78: what is read as one text is read as several files *)
From Coq Require Import String Ascii.
From Coq Require Import List NArith ZArith Arith Bool Lia Permutation.
From Verif Require Import Base BaseFacts Path Sources Types SpecTypes Options SpecOptions Pragma SpecPragma Read Token Peg Grammar SpecGrammar SpecDirective SpecDisplay SpecLedger
  Parse SpecParse SpecWhole ParseFacts ParseOnce ParseFile P_File P_Display PragmaRun ExprFacts P_Order IncludeTokens AlikeWalk AlikeRead AlikeFile SimCopy SpecPaste Paste Parts PasteFine P_Paste
  SpecAppend SpecLocal Local SpecSplit.
Import SpecPragma Read.
Import ListNotations.
Local Open Scope nat_scope.
Local Notation ended := SpecAppend.ended.
Local Notation tok := SpecGrammar.tok.

Scheme spread_mind := Minimality for spread Sort Prop with spread_files_mind := Minimality for spread_files Sort Prop.

(** ** Tokens *)
Lemma afresh_calm ts : afresh_next ts -> calm ts.
Proof. intros H X. destruct ts as [|t ts]; [discriminate|]. cbn in X. injection X as ->. exact (H ts eq_refl). Qed.
Lemma ended_lined ts : ended ts -> lined ts.
Proof. exact (fun H => H). Qed.
Lemma spread_calm glob_with :
  (forall t f ts us t', spread glob_with t f ts us t' -> calm us /\ calm ts) /\
  (forall t fs us t', spread_files glob_with t fs us t' -> calm us /\ lined us).
Proof.
  assert (H : forall P : Prop, P -> P /\ P) by tauto.
  split; [apply (spread_mind glob_with (fun _ _ ts us _ => calm us /\ calm ts) (fun _ _ us _ => calm us /\ lined us))|
          apply (spread_files_mind glob_with (fun _ _ ts us _ => calm us /\ calm ts) (fun _ _ us _ => calm us /\ lined us))].
  1,5: intros t f ts _ A; apply H; apply afresh_calm; exact A.
  1,4: intros t f a text eol ts items fs t1 us1 t2 us2 t3 _ A _ _ _ _ _ _ [B _] _ [C _]; apply afresh_calm in A; split; [apply calm_app; [exact A|apply calm_app; assumption]|];
       destruct a; [discriminate|exact A].
  1,3: intros t; split; [discriminate|left; reflexivity].
  1,2: intros t f ts fs us vs t1 ws t2 _ [A _] Fu _ [B C]; split; [apply calm_app; [eapply full_calm; eassumption|exact B]|apply lined_app; [eapply full_lined; exact Fu|exact C]].
Qed.
Lemma all_found_found t ps fs t' : all_found fst t ps fs t' -> found t ps fs t'.
Proof. intro H. induction H as [|a p k [n ts] b ps fs t Q Sp H IH]; [constructor|]. cbn in Q. subst n. constructor; assumption. Qed.
(** What is spread can be pasted. *)
Lemma spread_pasted glob_with t f ts us t' : spread glob_with t f ts us t' -> pasted glob_with t f ts us t'.
Proof.
  apply (spread_mind glob_with (fun t f ts us t' => pasted glob_with t f ts us t') (fun t fs us t' => pasted_files glob_with t fs us t')).
  - clear. intros t f ts W _. pose proof (pasted_prepend glob_with t f ts [] [] t W) as H. rewrite !app_nil_r in H. apply H. constructor.
  - clear. intros t f a text eol ts items fs t1 us1 t2 us2 t3 W _ _ He G _ F _ A _ B. apply pasted_prepend; [exact W|]. econstructor; eauto. apply all_found_found. exact F.
  - intros. constructor.
  - intros. econstructor; eassumption.
Qed.

(** ** Runs *)
Section Runs.
  Context (E : grammar_env) (En : environment_ok E).
  Lemma runs_file I f f' r i ds ws k r' : f = f' \/ ~ sets_documents I -> runs E I f r i ds ws k r' -> runs E I f' r i ds ws k r'.
  Proof.
    intros Do R. induction R as [|r i j d r1 ds ws k r' D R IH]; [constructor|]. econstructor; [|exact IH].
    eapply declares_file; [exact D|]. destruct Do as [<-|Do]; [left; reflexivity|right]. intro X. apply Do. eapply documents_set; eassumption.
  Qed.
  Lemma split_at J f r i ds ws r' a l : computable E J -> fine_options J -> (exists po, obeys E po r) -> tiles E J f r i ds [] ws r' ->
    rest_at J i (a ++ l) -> lined a -> calm l ->
    exists d1 d2 w1 w2 r1, ds = d1 ++ d2 /\ ws = w1 ++ w2 /\ runs E J f r i d1 w1 (i + List.length a) r1 /\ tiles E J f r1 (i + List.length a) d2 [] w2 r' /\ exists po, obeys E po r1.
  Proof.
    intros Cj Fj Ob T R Li Ca. destruct Li as [->|(u & ->)].
    - rewrite Nat.add_0_r. exists [], ds, [], ws, r. repeat split; auto. constructor.
    - pose proof (rest_advance _ _ _ _ R) as Ra. eapply tiles_at; eauto; [split; [lia|apply Ra]|]. split.
      + right. rewrite app_length. cbn [List.length]. exists (i + List.length u). split; [lia|]. apply (tok_rest _ _ _ _ _ R). rewrite <- app_assoc, nth_error_app2, Nat.sub_diag by lia. reflexivity.
      + intro Ti. rewrite <- (Nat.add_0_r (i + _)) in Ti. apply (tok_rest _ _ _ 0 _ Ra) in Ti. apply Ca. destruct l; [discriminate|]. exact Ti.
  Qed.
  Lemma runs_snoc I f r i ds ws k r' : runs E I f r i ds ws k r' -> ds = [] /\ ws = [] /\ i = k /\ r = r' \/
    exists d0 d w0 j r1, ds = d0 ++ [d] /\ ws = w0 ++ long_strings (rl_limit r1) I j k /\ runs E I f r i d0 w0 j r1 /\ declares E I f r1 j k d [] r'.
  Proof.
    intro R. induction R as [|r i j d r1 ds ws k r' D R IH]; [left; auto|]. right. destruct IH as [(-> & -> & -> & ->)|(d0 & d1 & w0 & m & r2 & -> & -> & R0 & D1)].
    - exists [], d, [], i, r. split; [reflexivity|]. split; [apply app_nil_r|]. split; [constructor|exact D].
    - exists (d :: d0), d1, (long_strings (rl_limit r) I i j ++ w0), m, r2. split; [reflexivity|]. split; [apply app_assoc|]. split; [econstructor; eassumption|exact D1].
  Qed.

  Lemma runs_obeys I f r i ds ws k r' : computable E I -> fine_options I -> (exists po, obeys E po r) -> runs E I f r i ds ws k r' -> exists po, obeys E po r'.
  Proof. intros Ci Fi Ob R. induction R as [|r i j d r1 ds ws k r' D R IH]; [exact Ob|]. apply IH. eapply obeys_after; eassumption. Qed.

  Lemma declares_include I f r i j d es r1 : declares E I f r i j d es r1 -> is_include (item d) = true -> tok I i (T_Keyword K_Include).
  Proof.
    intros D It. destruct D as [x e [Wx _]|m q H0 L|m o e r2 O' L]; cbn in It; try discriminate. destruct q; try discriminate. inversion H0; subst. assumption.
  Qed.
  Lemma runs_no_include I f r i ds ws k r' : computable E I -> fine_options I -> (exists po, obeys E po r) -> runs E I f r i ds ws k r' ->
    (forall x, i <= x < k -> ~ tok I x (T_Keyword K_Include)) -> Forall (fun d => is_include (item d) = false) ds.
  Proof.
    intros Ci Fi Ob R. induction R as [|r i j d r1 ds ws k r' D R IH]; intro N; [constructor|]. destruct (obeys_after E En _ _ _ _ _ _ _ Ci Fi Ob D) as [Ob1 B]. pose proof (runs_le E En _ _ _ _ _ _ _ _ Ci Fi Ob1 R) as Le.
    constructor; [|apply IH; [exact Ob1|intros; apply N; lia]]. destruct (is_include (item d)) eqn:X; [|reflexivity]. exfalso. apply (N i); [lia|]. eapply declares_include; eassumption.
  Qed.
  Lemma copied_no_include d d' : alike_declaration any d d' -> is_include (item d) = is_include (item d').
  Proof. apply alike_include. Qed.
  Lemma walk_run globs t f ds : Forall (fun d => is_include (item d) = false) ds -> forall ds2 es t', walk globs t f ds2 es t' -> walk globs t f (ds ++ ds2) (map (here f) ds ++ es) t'.
  Proof. intros N ds2 es t' W. induction N; [exact W|]. cbn [map app]. apply walk_plain; assumption. Qed.
  Lemma plain_run f ds : Forall (fun d => is_include (item d) = false) ds -> plain (map (here f) ds) = ds.
  Proof. intro N. induction N as [|d ds Nd N IH]; [reflexivity|]. cbn [map plain flat_map here]. rewrite Nd. cbn. f_equal. exact IH. Qed.

  (** The tokens of a piece are read alike in a file of which they are the rest. *)
  Lemma piece_copied I J f root r r' i ds' ws' rF p ts post rest : computable E I -> fine_options I -> computable E J -> fine_options J -> (root = f \/ ~ sets_documents I) ->
    kin E r' r -> tiles E J root r' i ds' [] ws' rF -> rest_at J i (ts ++ post) -> closes ts post rest -> calm rest -> rest_at I p ts ->
    exists k' da db wa wb r1' ds ws r1, ds' = da ++ db /\ ws' = wa ++ wb /\ rest_at J k' rest /\ kin E r1' r1 /\ tiles E J root r1' k' db [] wb rF /\
      tiles E I f r p ds [] ws r1 /\ Forall2 (alike_declaration any) da ds /\ map rp_problem wa = map rp_problem ws.
  Proof.
    intros Ci Fi Cj Fj Do Ki T Rj Cl Cr Ri. assert (Ob : exists po, obeys E po r') by (destruct Ki as (po & _ & Ob & _); eauto).
    pose proof (rest_advance I p ts []) as Re. rewrite app_nil_r in Re. specialize (Re Ri). apply rest_finished in Re.
    assert (Fe : finished I (p + List.length ts)) by (unfold finished; apply nth_error_None; lia).
    destruct Cl as [post|u post|u t Ne|u t post Ne].
    - exists i, [], ds', [], ws', r', [], [], r. cbn [List.length] in Fe. rewrite Nat.add_0_r in Fe. repeat split; auto; try apply Rj; constructor; exact Fe.
    - set (ts := u ++ [T_Eol]) in *. destruct (split_at J root r' i ds' ws' rF ts post Cj Fj Ob T Rj ltac:(right; exists u; reflexivity) Cr) as (d1 & d2 & w1 & w2 & r1' & -> & -> & R1 & T2 & O2).
      pose proof (rest_advance _ _ _ _ Rj) as Rk.
      destruct (runs_copied E En J I root r' i d1 w1 (i + List.length ts) r1' Cj Fj Ci Fi R1 r p Ki) as (ds & ws & r1 & R & Al & W & K1).
      + apply Rk.
      + intros x t0 Hx Tx. apply (tok_rest _ _ _ x _ Rj) in Tx. apply (tok_rest _ _ _ x _ Ri). rewrite nth_error_app1 in Tx by lia. exact Tx.
      + intro Ti. rewrite <- (Nat.add_0_r (i + _)) in Ti. apply (tok_rest _ _ _ 0 _ Rk) in Ti. apply Cr. destruct post; [discriminate|]. exact Ti.
      + replace (p + (i + List.length ts - i)) with (p + List.length ts) by lia. intros [x X]. unfold finished in Fe. congruence.
      + right. left. exists (i + List.length u). subst ts. rewrite app_length. cbn [List.length]. split; [lia|]. apply (tok_rest _ _ _ _ _ Rj). rewrite <- app_assoc, nth_error_app2, Nat.sub_diag by lia. reflexivity.
      + replace (p + (i + List.length ts - i)) with (p + List.length ts) in R by lia.
        exists (i + List.length ts), d1, d2, w1, w2, r1', ds, ws, r1. repeat (split; [first [reflexivity|assumption]|]). split; [|auto]. eapply runs_tiles; [eapply runs_file; [exact Do|exact R]|exact Fe].
    - set (ts := u ++ [t]) in *. pose proof (rest_advance _ _ _ _ Rj) as Rk. pose proof (proj1 (rest_finished _ _) Rk) as Ln. assert (Fj' : finished J (i + List.length ts)) by (unfold finished; apply nth_error_None; lia).
      pose proof (tiles_runs E En _ _ _ _ _ _ _ _ T eq_refl (proj1 Rj) Cj Fj Ob) as R1. rewrite <- Ln in R1.
      destruct (runs_copied E En J I root r' i ds' ws' (i + List.length ts) rF Cj Fj Ci Fi R1 r p Ki) as (ds & ws & r1 & R & Al & W & K1).
      + lia.
      + intros x t0 Hx Tx. apply (tok_rest _ _ _ x _ Rj) in Tx. apply (tok_rest _ _ _ x _ Ri). rewrite nth_error_app1 in Tx by lia. exact Tx.
      + intros [x X]. unfold finished in Fj'. congruence.
      + replace (p + (i + List.length ts - i)) with (p + List.length ts) by lia. intros [x X]. unfold finished in Fe. congruence.
      + right. right. replace (p + (i + List.length ts - i)) with (p + List.length ts) by lia. auto.
      + replace (p + (i + List.length ts - i)) with (p + List.length ts) in R by lia.
        exists (i + List.length ts), ds', [], ws', [], rF, ds, ws, r1. rewrite !app_nil_r. repeat (split; [first [reflexivity|assumption]|]). split; [constructor; exact Fj'|]. split; [|auto]. eapply runs_tiles; [eapply runs_file; [exact Do|exact R]|exact Fe].
    - set (ts := u ++ [t]) in *. replace (ts ++ T_Eol :: post) with ((ts ++ [T_Eol]) ++ post) in Rj by (rewrite <- app_assoc; reflexivity).
      destruct (split_at J root r' i ds' ws' rF (ts ++ [T_Eol]) post Cj Fj Ob T Rj ltac:(right; exists ts; reflexivity) Cr) as (d1 & d2 & w1 & w2 & r1' & -> & -> & R1 & T2 & O2).
      pose proof (rest_advance _ _ _ _ Rj) as Rk. rewrite app_length in *. cbn [List.length] in *. replace (i + (List.length ts + 1)) with (S (i + List.length ts)) in * by lia.
      assert (Te : tok J (i + List.length ts) T_Eol) by (apply (tok_rest _ _ _ _ _ Rj); rewrite <- app_assoc, nth_error_app2, Nat.sub_diag by lia; reflexivity).
      assert (Tk : forall x t0, x < List.length ts -> tok J (i + x) t0 -> tok I (p + x) t0).
      { intros x t0 Hx Tx. apply (tok_rest _ _ _ x _ Rj) in Tx. apply (tok_rest _ _ _ x _ Ri). rewrite <- app_assoc, nth_error_app1 in Tx by lia. exact Tx. }
      assert (Nk : ~ tok J (S (i + List.length ts)) T_Indent).
      { intro Ti. rewrite <- (Nat.add_0_r (S _)) in Ti. apply (tok_rest _ _ _ 0 _ Rk) in Ti. apply Cr. destruct post; [discriminate|]. exact Ti. }
      destruct (runs_snoc _ _ _ _ _ _ _ _ R1) as [(-> & -> & Q & ->)|(d0 & d & w0 & j & r2 & -> & -> & R0 & D)]; [lia|].
      pose proof (runs_le E En _ _ _ _ _ _ _ _ Cj Fj Ob R0) as Le0.
      pose proof (runs_obeys _ _ _ _ _ _ _ _ Cj Fj Ob R0) as Ob2. destruct (obeys_after E En _ _ _ _ _ _ _ Cj Fj Ob2 D) as [_ Bj].
      assert (Nj : ~ tok J j T_Indent) by (eapply not_indented; left; eauto).
      destruct (runs_copied E En J I root r' i d0 w0 j r2 Cj Fj Ci Fi R0 r p Ki) as (ds0 & ws0 & r3 & R3 & Al & W & K1).
      + lia.
      + intros x t0 Hx Tx. apply Tk; [lia|exact Tx].
      + exact Nj.
      + intro Ti. destruct (nth_error (in_tokens J) j) as [[t0 y]|] eqn:Y; [|apply nth_error_None in Y; lia].
        destruct (Nat.eq_dec j (i + List.length ts)) as [->|Nq].
        * replace (p + (i + List.length ts - i)) with (p + List.length ts) in Ti by lia. destruct Ti as [z Z]. unfold finished in Fe. congruence.
        * apply Nj. assert (tok I (p + (j - i)) t0) as Tz by (apply Tk; [lia|]; replace (i + (j - i)) with j by lia; exists y; exact Y). rewrite (ExprFacts.tok_fun _ _ _ _ Ti Tz). exists y. exact Y.
      + destruct (runs_snoc _ _ _ _ _ _ _ _ R0) as [(_ & _ & -> & _)|(d00 & d1 & w00 & j0 & r00 & _ & _ & _ & D1)]; [left; reflexivity|]. right. left.
        destruct (ended_declares _ _ _ _ _ _ _ _ _ D1) as [X|F]; [exact X|]. unfold finished in F. apply nth_error_None in F. lia.
      + assert (Te' : p + (j - i) + (i + List.length ts - j) = p + List.length ts) by lia.
        destruct (declares_unended E En J I root r2 r3 j (i + List.length ts) (p + (j - i)) d r1' Cj Fj Ci Fi K1 D Te) as (d' & r4 & D' & Ad & K4).
        * intros x t0 Hx Tx. replace (p + (j - i) + x) with (p + (j - i + x)) by lia. apply Tk; [lia|]. replace (i + (j - i + x)) with (j + x) by lia. exact Tx.
        * rewrite Te'. exact Fe.
        * rewrite Te'. lia.
        * exact Nk.
        * rewrite Te' in D'. exists (S (i + List.length ts)), (d0 ++ [d]), d2, (w0 ++ long_strings (rl_limit r2) J j (S (i + List.length ts))), w2, r1', (ds0 ++ [d']),
            (ws0 ++ (long_strings (rl_limit r3) I (p + (j - i)) (p + List.length ts) ++ [])), r4.
          repeat (split; [first [reflexivity|assumption]|]). split; [|split].
          -- eapply runs_tiles; [|exact Fe]. eapply runs_file; [exact Do|]. eapply runs_app; [exact R3|]. econstructor; [exact D'|constructor].
          -- apply Forall2_app; [exact Al|]. constructor; [exact Ad|constructor].
          -- rewrite app_nil_r, !map_app, W. f_equal. rewrite (long_strings_app _ J j (i + List.length ts)) by lia.
             rewrite (line_strings _ J (i + List.length ts)), app_nil_r.
             2: { intros k s Hk Ts. replace k with (i + List.length ts) in Ts by lia. pose proof (ExprFacts.tok_fun _ _ _ _ Te Ts). discriminate. }
             rewrite (copied_strings (rl_limit r2) (rl_limit r3) J I j (i + List.length ts) (p + (j - i)) (kin_limit _ _ _ K1)); [rewrite Te'; reflexivity|lia|].
             intros x t0 Hx Tx. replace (p + (j - i) + x) with (p + (j - i + x)) by lia. apply Tk; [lia|]. replace (i + (j - i + x)) with (j + x) by lia. exact Tx.
  Qed.
End Runs.

(** ** The files *)
Definition in_of (x : file_read) : option path * input := (sf_name x, sf_input x).
Definition tokened (x : option path * input) : option path * list token := (fst x, map fst (in_tokens (snd x))).
Lemma found_lift il ps fs t1 : all_found fst (map tokened il) ps fs t1 -> exists fi il1, fs = map tokened fi /\ t1 = map tokened il1 /\ all_found fst il ps fi il1 /\ Permutation il (fi ++ il1).
Proof.
  intro H. remember (map tokened il) as t eqn:Q. revert il Q. induction H as [t|a p k x b ps fs t Qk Sp H IH]; intros il Q.
  - exists [], il. repeat split; auto. constructor.
  - symmetry in Q. apply map_split in Q. destruct Q as (la & y & lb & -> & <- & <- & <-). destruct (IH (la ++ lb) ltac:(rewrite map_app; reflexivity)) as (fi & il1 & -> & -> & F & P).
    exists (y :: fi), il1. split; [reflexivity|]. split; [reflexivity|]. split; [econstructor; eassumption|]. cbn. rewrite <- P. symmetry. apply Permutation_middle.
Qed.

Lemma shuffle_include {A} (w ls s2 f1 wa1 f2 m1 wa2 f3 m2 : list A) : Permutation f1 (wa1 ++ f2 ++ m1) -> Permutation (s2 ++ f2) (wa2 ++ f3 ++ m2) ->
  Permutation (w ++ ls ++ s2 ++ f1) (w ++ wa1 ++ wa2 ++ f3 ++ ls ++ m1 ++ m2).
Proof.
  intros P1 P2. rewrite P1. apply Permutation_app_head. transitivity (wa1 ++ (s2 ++ f2) ++ ls ++ m1).
  - rewrite <- !app_assoc. transitivity (ls ++ wa1 ++ s2 ++ f2 ++ m1); [apply Permutation_app_head; apply Permutation_app_swap_app|].
    rewrite (Permutation_app_swap_app ls wa1). apply Permutation_app_head. rewrite (Permutation_app_swap_app ls s2). apply Permutation_app_head. apply Permutation_app_swap_app.
  - apply Permutation_app_head. rewrite P2, <- !app_assoc. do 2 apply Permutation_app_head. rewrite (Permutation_app_swap_app m2 ls). apply Permutation_app_head. apply Permutation_app_comm.
Qed.
Lemma shuffle_file {A} (x fx f wa1 f1 m1 wa2 f2 m2 : list A) : Permutation (x ++ f) (wa1 ++ f1 ++ m1) -> Permutation (fx ++ f1) (wa2 ++ f2 ++ m2) ->
  Permutation (x ++ fx ++ f) (wa1 ++ wa2 ++ f2 ++ m1 ++ m2).
Proof.
  intros P1 P2. rewrite (Permutation_app_swap_app x fx), P1. rewrite (Permutation_app_swap_app fx wa1). apply Permutation_app_head.
  rewrite (app_assoc fx f1), P2, <- !app_assoc. do 2 apply Permutation_app_head. apply Permutation_app_comm.
Qed.
Lemma runs_more E I f r i ds ws k r1 ds2 ws2 r' : runs E I f r i ds ws k r1 -> tiles E I f r1 k ds2 [] ws2 r' -> tiles E I f r i (ds ++ ds2) [] (ws ++ ws2) r'.
Proof. intros R T. induction R; [exact T|]. cbn [app]. rewrite <- app_assoc. change (@nil report) with (@nil report ++ []). econstructor; eauto. Qed.
Lemma include_long (Inc : str -> Prop) limit I i j s : tok I i (T_Keyword K_Include) -> tok I (S i) (T_String s) -> line_end I (S (S i)) j -> Inc s -> Forall (long_include Inc) (problems (long_strings limit I i j)).
Proof.
  intros T0 T1 L In_. apply Forall_forall. intros p Hp. unfold problems in Hp. apply in_map_iff in Hp. destruct Hp as (w & <- & Hw).
  unfold long_strings in Hw. apply in_flat_map in Hw. destruct Hw as (k & Hk & Hw). apply in_seq in Hk.
  destruct (nth_error (in_tokens I) k) as [[t [x y]]|] eqn:Qk; [|destruct Hw]. destruct t; try (destruct Hw; fail). destruct (_ <=? _)%N; [destruct Hw|]. destruct Hw as [<-|[]].
  assert (k = S i) as ->.
  { assert (Hk' : k = i \/ k = S i \/ k = S (S i) /\ tok I (S (S i)) T_Eol) by (inversion L; subst; [assert (k = i \/ k = S i \/ k = S (S i)) by lia; tauto|lia]).
    destruct Hk' as [->|[->|[-> [q Te]]]]; [destruct T0 as [q T0]; congruence|reflexivity|congruence]. }
  destruct T1 as [q T1']. rewrite Qk in T1'. injection T1' as -> _. eexists _, _, s. split; [exact In_|reflexivity].
Qed.

Section Core.
  Context (E : grammar_env) (En : environment_ok E) (root : option path) (globs : list (path * included_glob)) (rE : rules) (ObE : exists po, obeys E po rE).
  Context (glob_with : path -> result (list glob_item) str) (Met : option path -> str -> Prop).
  Context (Globs : forall f text items, Met f text -> glob_with (resolve_included_path f text) = Ok items ->
    exists ps, glob_of globs f text = Some (Expanded ps) /\ Forall2 same_path ps (map item_path items)).
  Context (J : input) (Cj : computable E J) (Fj : fine_options J) (Inc : str -> Prop).

  Definition meets (f : option path) (I : input) : Prop := forall k s, tok I k (T_Keyword K_Include) -> tok I (S k) (T_String s) -> Met f s /\ Inc s.
  Record fit (x : option path * input) : Prop := {
    ft_computable : computable E (snd x);
    ft_options : fine_options (snd x);
    ft_rules : ~ sets_rules (snd x);
    ft_documents : ~ sets_documents (snd x);
    ft_includes : meets (fst x) (snd x)
  }.
  (** Nothing is reported for it. *)
  Definition good (e : event) : Prop :=
    match e with
    | Offered _ _ None => False
    | Offered _ _ (Some _) => True
    | Declared f d => forall text, item d = D_Pragma (P_Include text) -> exists p ps, glob_of globs f (item text) = Some (Expanded (p :: ps))
    end.

  Lemma found_offers sp ps' il fi il1 : all_found fst il ps' fi il1 -> forall ps, Forall2 same_path ps ps' -> forall fx fl1, map in_of fx = fi -> map in_of fl1 = il1 ->
    exists fl off, map in_of fl = il /\ offers sp (map decls_of fl) ps off (map decls_of fx) (map decls_of fl1) /\ Permutation fl (fx ++ fl1) /\ Forall good off.
  Proof.
    intro H. induction H as [t|a p k x b ps' fs t Qk Sp H IH]; intros ps F fx fl1 Qx Ql.
    - inversion F; subst. apply map_eq_nil in Qx. subst fx. exists fl1, []. repeat split; auto. constructor.
    - inversion F as [|q ? ps0 ? Sq F0]; subst. destruct fx as [|y fx]; [discriminate|]. injection Qx as Qy Qx. destruct (IH _ F0 fx fl1 Qx eq_refl) as (fl & off & Qf & O & P & G).
      apply map_eq_app in Qf. destruct Qf as (la & lb & -> & <- & <-). exists (la ++ y :: lb), (Offered sp q (Some k) :: off).
      split; [rewrite map_app; cbn [map]; rewrite Qy; reflexivity|]. split; [|split].
      + cbn [map]. replace (decls_of y) with (Some k, sf_decls y) by (unfold decls_of; subst x; cbn in Qk; rewrite Qk; reflexivity).
        econstructor; [|exact O]. exists (map decls_of la), (map decls_of lb). rewrite !map_app. cbn [map]. split; [f_equal; f_equal; unfold decls_of; subst x; cbn in Qk; rewrite Qk; reflexivity|]. split; [reflexivity|]. unfold same_path in *. congruence.
      + cbn. rewrite <- P. symmetry. apply Permutation_middle.
      + constructor; [exact Logic.I|exact G].
  Qed.

  Local Notation well := (well E rE Inc).
  Local Notation long_include := (long_include Inc).
  Lemma unset_all I : ~ sets_rules I -> forall b, 0 <= b -> ~ sets_rule_at I b.
  Proof. intros N b _ (n & v & Sr). apply N. exists b, n, v. exact Sr. Qed.

  Lemma core :
    (forall tt f ts us tt1, spread glob_with tt f ts us tt1 -> forall il I p r' i post rest ds' ws' rF,
      tt = map tokened il -> Forall fit il -> rest_at I p ts -> computable E I -> fine_options I ->
      (forall b, p <= b -> ~ sets_rule_at I b) -> (root = f \/ ~ sets_documents I) -> meets f I ->
      kin E r' rE -> rest_at J i (us ++ post) -> closes us post rest -> calm rest -> tiles E J root r' i ds' [] ws' rF ->
      exists il1 k' da db wa wb r1', tt1 = map tokened il1 /\ Forall fit il1 /\ ds' = da ++ db /\ ws' = wa ++ wb /\ rest_at J k' rest /\ kin E r1' rE /\ tiles E J root r1' k' db [] wb rF /\
        forall fl1, map in_of fl1 = il1 -> Forall well fl1 -> exists fl ds ws es more, map in_of fl = il /\ Forall well fl /\ tiles E I f rE p ds [] ws rE /\
          walk globs (map decls_of fl) f ds es (map decls_of fl1) /\ Forall2 (alike_declaration any) da (plain es) /\ Forall good es /\ Forall long_include more /\
          Permutation (problems (ws ++ flat_map sf_warnings fl)) (problems (wa ++ flat_map sf_warnings fl1) ++ more)) /\
    (forall tt fs us tt1, spread_files glob_with tt fs us tt1 -> forall il fi r' i post ds' ws' rF,
      tt = map tokened il -> Forall fit il -> fs = map tokened fi -> Forall fit fi ->
      kin E r' rE -> rest_at J i (us ++ post) -> calm post -> tiles E J root r' i ds' [] ws' rF ->
      exists il1 k' da db wa wb r1', tt1 = map tokened il1 /\ Forall fit il1 /\ ds' = da ++ db /\ ws' = wa ++ wb /\ rest_at J k' post /\ kin E r1' rE /\ tiles E J root r1' k' db [] wb rF /\
        forall fl1, map in_of fl1 = il1 -> Forall well fl1 -> exists fl fx es more, map in_of fl = il /\ Forall well fl /\ map in_of fx = fi /\ Forall well fx /\
          walks globs (map decls_of fl) (map decls_of fx) es (map decls_of fl1) /\ Forall2 (alike_declaration any) da (plain es) /\ Forall good es /\ Forall long_include more /\
          Permutation (problems (flat_map sf_warnings fx ++ flat_map sf_warnings fl)) (problems (wa ++ flat_map sf_warnings fl1) ++ more)).
  Proof.
    assert (X : forall A B : Prop, (A /\ B) -> A /\ B) by tauto.
    set (P := fun (tt : token_table) (f : option path) (ts us : list token) (tt1 : token_table) => forall il I p r' i post rest ds' ws' rF,
      tt = map tokened il -> Forall fit il -> rest_at I p ts -> computable E I -> fine_options I ->
      (forall b, p <= b -> ~ sets_rule_at I b) -> (root = f \/ ~ sets_documents I) -> meets f I ->
      kin E r' rE -> rest_at J i (us ++ post) -> closes us post rest -> calm rest -> tiles E J root r' i ds' [] ws' rF ->
      exists il1 k' da db wa wb r1', tt1 = map tokened il1 /\ Forall fit il1 /\ ds' = da ++ db /\ ws' = wa ++ wb /\ rest_at J k' rest /\ kin E r1' rE /\ tiles E J root r1' k' db [] wb rF /\
        forall fl1, map in_of fl1 = il1 -> Forall well fl1 -> exists fl ds ws es more, map in_of fl = il /\ Forall well fl /\ tiles E I f rE p ds [] ws rE /\
          walk globs (map decls_of fl) f ds es (map decls_of fl1) /\ Forall2 (alike_declaration any) da (plain es) /\ Forall good es /\ Forall long_include more /\
          Permutation (problems (ws ++ flat_map sf_warnings fl)) (problems (wa ++ flat_map sf_warnings fl1) ++ more)).
    set (Q := fun (tt fs : token_table) (us : list token) (tt1 : token_table) => forall il fi r' i post ds' ws' rF,
      tt = map tokened il -> Forall fit il -> fs = map tokened fi -> Forall fit fi ->
      kin E r' rE -> rest_at J i (us ++ post) -> calm post -> tiles E J root r' i ds' [] ws' rF ->
      exists il1 k' da db wa wb r1', tt1 = map tokened il1 /\ Forall fit il1 /\ ds' = da ++ db /\ ws' = wa ++ wb /\ rest_at J k' post /\ kin E r1' rE /\ tiles E J root r1' k' db [] wb rF /\
        forall fl1, map in_of fl1 = il1 -> Forall well fl1 -> exists fl fx es more, map in_of fl = il /\ Forall well fl /\ map in_of fx = fi /\ Forall well fx /\
          walks globs (map decls_of fl) (map decls_of fx) es (map decls_of fl1) /\ Forall2 (alike_declaration any) da (plain es) /\ Forall good es /\ Forall long_include more /\
          Permutation (problems (flat_map sf_warnings fx ++ flat_map sf_warnings fl)) (problems (wa ++ flat_map sf_warnings fl1) ++ more)).
    assert (H1 : forall t f ts, without K_Include ts -> afresh_next ts -> P t f ts ts t).
    { intros t f ts Wo Af il I p r' i post rest ds' ws' rF -> Fl Ri Ci Fi Ru Do Me Ki Rj Cl Cr T.
      destruct (piece_copied E En I J f root rE r' i ds' ws' rF p ts post rest Ci Fi Cj Fj Do Ki T Rj Cl Cr Ri) as (k' & da & db & wa & wb & r1' & ds & ws & r1 & -> & -> & Rk & K1 & T2 & Ti & Al & W).
      assert (r1 = rE) as -> by (eapply (tiles_settled E En I f rE p); eauto).
      exists il, k', da, db, wa, wb, r1'. repeat (split; [first [reflexivity|assumption]|]). intros fl1 Qf Wl.
      assert (Ni : Forall (fun d => is_include (item d) = false) ds).
      { pose proof (tiles_runs E En _ _ _ _ _ _ _ _ Ti eq_refl (proj1 Ri) Ci Fi ObE) as R. apply (runs_no_include E En _ _ _ _ _ _ _ _ Ci Fi ObE R). intros x Hx Tx. apply Wo.
        replace x with (p + (x - p)) in Tx by lia. apply (tok_rest _ _ _ _ _ Ri) in Tx. apply nth_error_In in Tx. exact Tx. }
      exists fl1, ds, ws, (map (here f) ds ++ []), []. split; [exact Qf|]. split; [exact Wl|]. split; [exact Ti|]. split; [|split; [|split; [|split]]].
      - rewrite <- (app_nil_r ds) at 1. apply walk_run; [exact Ni|constructor].
      - rewrite app_nil_r, plain_run by exact Ni. exact Al.
      - rewrite app_nil_r. apply Forall_map. eapply Forall_impl; [|exact Ni]. intros d N text It. cbn beta in N. rewrite It in N. discriminate.
      - constructor.
      - rewrite app_nil_r. unfold problems. rewrite !map_app, W. reflexivity. }
    assert (H2 : forall t f a txt eol ts items fs t1 us1 t2 us2 t3,
      without K_Include a -> afresh_next a -> ended a -> eol = [T_Eol] \/ eol = [] /\ ts = [] ->
      glob_with (resolve_included_path f txt) = Ok items -> items <> [] -> all_found fst t (map item_path items) fs t1 ->
      spread_files glob_with t1 (rev fs) us1 t2 -> Q t1 (rev fs) us1 t2 -> spread glob_with t2 f ts us2 t3 -> P t2 f ts us2 t3 ->
      P t f (a ++ T_Keyword K_Include :: T_String txt :: eol ++ ts) (a ++ us1 ++ us2) t3).
    { intros t f a txt eol ts items fs t1 us1 t2 us2 t3 Wo Af Ea He G Ni Fo Sf IHs Sp IH il I p r' i post rest ds' ws' rF -> Fl Ri Ci Fi Ru Do Me Ki Rj Cl Cr T.
      assert (Ob : exists po, obeys E po r') by (destruct Ki as (po & _ & Ob & _); eauto).
      destruct (proj2 (spread_calm glob_with) _ _ _ _ Sf) as [Ca1 Li1]. destruct (proj1 (spread_calm glob_with) _ _ _ _ _ Sp) as [Ca2 Ct].
      apply ended_lined in Ea. pose proof (closes_after _ _ _ _ Ea Cl) as Cl1. pose proof (closes_after _ _ _ _ Li1 Cl1) as Cl2.
      rewrite <- !app_assoc in Rj. pose proof (closes_calm _ _ _ Cl2 Ca2 Cr) as Ca3. pose proof (calm_app _ _ Ca1 Ca3) as Ca.
      (* before the include *)
      destruct (split_at E En J root r' i ds' ws' rF a _ Cj Fj Ob T Rj Ea Ca) as (d1 & d2 & w1 & w2 & r1' & -> & -> & R1 & T2 & Ob1).
      pose proof (rest_advance _ _ _ _ Rj) as Rj1. pose proof (rest_advance _ _ _ _ Ri) as Ri1. set (m := p + List.length a) in *.
      assert (Tm : tok I m (T_Keyword K_Include)) by (rewrite <- (Nat.add_0_r m); apply (tok_rest _ _ _ 0 _ Ri1); reflexivity).
      assert (Tm1 : tok I (S m) (T_String txt)) by (replace (S m) with (m + 1) by lia; apply (tok_rest _ _ _ 1 _ Ri1); reflexivity).
      destruct (runs_copied E En J I root r' i d1 w1 (i + List.length a) r1' Cj Fj Ci Fi R1 rE p Ki) as (ds1 & ws1 & r1 & Rr & Al1 & W1 & K1).
      { apply Rj1. }
      { intros x t0 Hx Tx. apply (tok_rest _ _ _ x _ Rj) in Tx. apply (tok_rest _ _ _ x _ Ri). rewrite nth_error_app1 in * by lia. exact Tx. }
      { intro Ti. rewrite <- (Nat.add_0_r (i + _)) in Ti. apply (tok_rest _ _ _ 0 _ Rj1) in Ti. apply Ca. destruct (us1 ++ us2 ++ post); [discriminate|]. exact Ti. }
      { replace (p + (i + List.length a - i)) with m by lia. intro Ti. pose proof (ExprFacts.tok_fun _ _ _ _ Tm Ti). discriminate. }
      { destruct Ea as [->|(u & ->)]; [left; cbn; lia|right; left]. rewrite app_length. cbn [List.length]. exists (i + List.length u). split; [lia|].
        apply (tok_rest _ _ _ _ _ Rj). rewrite <- app_assoc, nth_error_app2, Nat.sub_diag by lia. reflexivity. }
      replace (p + (i + List.length a - i)) with m in Rr by lia. apply (runs_file E I root f) in Rr; [|exact Do].
      assert (r1 = rE) as -> by (eapply (runs_settled E En I f); [exact Ci|exact Fi|exact ObE| |exact Rr]; intros b Hb; apply Ru; lia).
      (* the files *)
      destruct (found_lift _ _ _ _ Fo) as (fi & il1 & -> & -> & Fo' & Pe). assert (Fx : Forall fit (fi ++ il1)) by (rewrite <- Pe; exact Fl). apply Forall_app in Fx. destruct Fx as [Fx Fl1].
      destruct (IHs il1 (rev fi) r1' (i + List.length a) (us2 ++ post) d2 w2 rF) as (il2 & k1 & da1 & db1 & wa1 & wb1 & r2' & -> & Fl2 & -> & -> & Rk1 & Ki2 & T3 & C1); auto.
      { symmetry. apply map_rev. }
      { apply Forall_rev. exact Fx. }
      (* after the include *)
      set (n := m + List.length (T_Keyword K_Include :: T_String txt :: eol)) in *.
      assert (Rn : rest_at I n ts) by (apply (rest_advance I m (T_Keyword K_Include :: T_String txt :: eol) ts); exact Ri1).
      destruct (IH il2 I n r2' k1 post rest db1 wb1 rF) as (il3 & k2 & da2 & db2 & wa2 & wb2 & r3' & -> & Fl3 & -> & -> & Rk2 & Ki3 & T4 & C2); auto.
      { intros b Hb. apply Ru. unfold n, m in Hb. lia. }
      exists il3, k2, (d1 ++ da1 ++ da2), db2, (w1 ++ wa1 ++ wa2), wb2, r3'. split; [reflexivity|]. split; [exact Fl3|]. rewrite <- !app_assoc. repeat (split; [first [reflexivity|assumption]|]).
      intros fl3 Q3 Wl3. destruct (C2 fl3 Q3 Wl3) as (fl2 & ds2 & ws2 & es2 & m2 & Q2 & Wl2 & Ti2 & Wk2 & Al2 & Go2 & Lo2 & Pm2).
      destruct (C1 fl2 Q2 Wl2) as (fl1 & fx & es1 & m1 & Q1 & Wl1 & Qx & Wx & Wk1 & Al3 & Go1 & Lo1 & Pm1).
      destruct (Me m txt Tm Tm1) as [Mt In_]. destruct (Globs f txt items Mt G) as (ps & Gl & Sm).
      destruct (found_offers (text I (S m) (S (S m))) _ _ _ _ Fo' ps Sm (rev fx) fl1) as (fl & off & Qf & Of & Pf & Gf); [rewrite map_rev, Qx; apply rev_involutive|exact Q1|].
      set (sx := mk_spanned txt (text I (S m) (S (S m)))). set (d := mk_spanned (D_Pragma (P_Include sx)) (text I m n)).
      assert (Ln : line_end I (S (S m)) n).
      { unfold n. destruct He as [->|[-> ->]]; cbn [List.length].
        - replace (m + 3) with (S (S (S m))) by lia. constructor. replace (S (S m)) with (m + 2) by lia. apply (tok_rest _ _ _ 2 _ Ri1). reflexivity.
        - replace (m + 2) with (S (S m)) by lia. constructor. apply rest_finished in Rn. unfold n in Rn. cbn [List.length] in Rn. unfold finished. apply nth_error_None. lia. }
      assert (D : declares E I f rE m n d [] rE).
      { unfold d. eapply declares_pragma; [|exact Ln]. eapply pragma_include; [exact Tm|]. split; [|reflexivity]. constructor. exact Tm1. }
      assert (Nd : Forall (fun d => is_include (item d) = false) ds1).
      { apply (runs_no_include E En _ _ _ _ _ _ _ _ Ci Fi ObE Rr). intros x Hx Tx. apply Wo. replace x with (p + (x - p)) in Tx by lia. apply (tok_rest _ _ _ _ _ Ri) in Tx.
        rewrite nth_error_app1 in Tx by (unfold m in Hx; lia). apply nth_error_In in Tx. exact Tx. }
      exists fl, (ds1 ++ d :: ds2), (ws1 ++ long_strings (rl_limit rE) I m n ++ ws2), (map (here f) ds1 ++ Declared f d :: off ++ es1 ++ es2), (problems (long_strings (rl_limit rE) I m n) ++ m1 ++ m2).
      assert (Wf : Forall well fl) by (rewrite Pf; apply Forall_app; split; [apply Forall_rev; exact Wx|exact Wl1]).
      split; [exact Qf|]. split; [exact Wf|]. split; [|split; [|split; [|split; [|split]]]].
      - eapply runs_more; [exact Rr|]. change (@nil report) with (@nil report ++ []). econstructor; [exact D|exact Ti2].
      - apply walk_run; [exact Nd|]. eapply walk_include; [reflexivity|exact Gl|exact Of| |exact Wk2]. rewrite <- map_rev, rev_involutive. exact Wk1.
      - change (Declared f d :: off ++ es1 ++ es2) with ([Declared f d] ++ off ++ es1 ++ es2). rewrite !plain_app, (plain_offers _ _ _ _ _ _ Of), plain_run by exact Nd. cbn [plain flat_map is_include item d app].
        apply Forall2_app; [exact Al1|]. apply Forall2_app; assumption.
      - apply Forall_app. split; [apply Forall_map; eapply Forall_impl; [|exact Nd]; intros x N tx It; cbn beta in N; rewrite It in N; discriminate|]. constructor.
        + intros tx It. cbn in It. injection It as <-. cbn [item sx]. destruct ps as [|q ps]; [|eauto]. exfalso. destruct items as [|q items]; [apply Ni; reflexivity|inversion Sm].
        + apply Forall_app. split; [exact Gf|]. apply Forall_app. split; assumption.
      - apply Forall_app. split; [eapply include_long; eassumption|apply Forall_app; split; assumption].
      - unfold problems in *. rewrite !map_app in *. rewrite <- W1. rewrite <- !app_assoc. rewrite <- !app_assoc in Pm1. rewrite <- !app_assoc in Pm2. eapply shuffle_include; [|exact Pm2].
        rewrite <- Pm1. rewrite <- !map_app, <- !flat_map_app. apply Permutation_map. apply Permutation_flat_map. rewrite Pf. apply Permutation_app_tail. symmetry. apply Permutation_rev. }
    assert (H3 : forall t, Q t [] [] t).
    { intros t il fi r' i post ds' ws' rF -> Fl Qi Fx Ki Rj Cp T. symmetry in Qi. apply map_eq_nil in Qi. subst fi.
      exists il, i, [], ds', [], ws', r'. repeat (split; [first [reflexivity|assumption]|]). intros fl1 Qf Wl. exists fl1, [], [], [].
      repeat (split; [first [reflexivity|assumption|constructor]|]). rewrite app_nil_r. reflexivity. }
    assert (H4 : forall t f ts fs us vs t1 ws t2, spread glob_with t f ts us t1 -> P t f ts us t1 -> full_lines us vs -> spread_files glob_with t1 fs ws t2 -> Q t1 fs ws t2 -> Q t ((f, ts) :: fs) (vs ++ ws) t2).
    { intros t f ts fs us vs t1 ws t2 Sp IH Fu Sf IHs il fi r' i post ds' ws' rF -> Fl Qi Fx Ki Rj Cp T. destruct fi as [|[f' I] fi]; [discriminate|]. injection Qi as <- -> ->.
      inversion Fx as [|? ? [Co Fo Ru Do Me] Fx']; subst. cbn [fst snd] in *. destruct (proj2 (spread_calm glob_with) _ _ _ _ Sf) as [Ca Li].
      rewrite <- app_assoc in Rj. destruct (full_closes _ _ (ws ++ post) Fu) as (more & Qm & Cl). rewrite Qm in Rj.
      destruct (IH il I 0 r' i more (ws ++ post) ds' ws' rF) as (il1 & k1 & da1 & db1 & wa1 & wb1 & r1' & -> & Fl1 & -> & -> & Rk1 & Ki1 & T1 & C1); auto.
      { split; [apply Nat.le_0_l|reflexivity]. }
      { apply unset_all. exact Ru. }
      { apply calm_app; assumption. }
      destruct (IHs il1 fi r1' k1 post db1 wb1 rF) as (il2 & k2 & da2 & db2 & wa2 & wb2 & r2' & -> & Fl2 & -> & -> & Rk2 & Ki2 & T2 & C2); auto.
      exists il2, k2, (da1 ++ da2), db2, (wa1 ++ wa2), wb2, r2'. split; [reflexivity|]. split; [exact Fl2|]. rewrite <- !app_assoc. repeat (split; [first [reflexivity|assumption]|]).
      intros fl2 Q2 Wl2. destruct (C2 fl2 Q2 Wl2) as (fl1 & fx & es2 & m2 & Q1 & Wl1 & Qx & Wx & Wk2 & Al2 & Go2 & Lo2 & Pm2).
      destruct (C1 fl1 Q1 Wl1) as (fl & ds & ws1 & es1 & m1 & Qf & Wl & Ti & Wk1 & Al1 & Go1 & Lo1 & Pm1).
      exists fl, (mk_file f I ds ws1 :: fx), (es1 ++ es2), (m1 ++ m2). split; [exact Qf|]. split; [exact Wl|]. split; [cbn; rewrite Qx; reflexivity|]. split; [|split; [|split; [|split; [|split]]]].
      - constructor; [|exact Wx]. constructor; cbn; auto. intros k s0 Tk1 Tk2. exact (proj2 (Me k s0 Tk1 Tk2)).
      - cbn [map]. econstructor; eassumption.
      - rewrite plain_app. apply Forall2_app; assumption.
      - apply Forall_app. split; assumption.
      - apply Forall_app. split; assumption.
      - cbn [flat_map sf_warnings]. unfold problems in *. rewrite !map_app in *. rewrite <- !app_assoc. rewrite <- !app_assoc in Pm1. rewrite <- !app_assoc in Pm2. eapply shuffle_file; [exact Pm1|exact Pm2]. }
    split; [exact (spread_mind glob_with P Q H1 H2 H3 H4)|exact (spread_files_mind glob_with P Q H1 H2 H3 H4)].
  Qed.
End Core.

(** ** The root *)
Section Root.
  Context (E : grammar_env) (En : environment_ok E) (root : option path) (globs : list (path * included_glob)).
  Context (glob_with : path -> result (list glob_item) str) (Met : option path -> str -> Prop).
  Context (Globs : forall f text items, Met f text -> glob_with (resolve_included_path f text) = Ok items ->
    exists ps, glob_of globs f text = Some (Expanded ps) /\ Forall2 same_path ps (map item_path items)).
  Context (I J : input) (Ci : computable E I) (Fi : fine_options I) (Cj : computable E J) (Fj : fine_options J) (Inc : str -> Prop) (Me : meets Met Inc root I).
  Context (Rules : forall a b, tok I a (T_Keyword K_Include) -> a < b -> ~ sets_rule_at I b).

  Lemma tiles_over f r i ds ws r' : tiles E J f r i ds [] ws r' -> rest_at J i [] -> ds = [] /\ ws = [] /\ r' = r.
  Proof.
    intros T R. apply rest_finished in R. inversion T as [|? ? j d es r1 ds0 es' ws0 ? D T']; subst; [auto|]. exfalso. destruct (declares_first E J f _ _ _ _ _ _ D) as (t0 & [x X] & _).
    assert (nth_error (in_tokens J) (List.length (in_tokens J)) <> None) as Y by congruence. apply nth_error_Some in Y. lia.
  Qed.
  Lemma closes_end us : closes us [] [].
  Proof. destruct (last_cases us) as [->|(u & t & ->)]; [constructor|]. destruct (token_eol_dec t) as [->|Ne]; constructor; exact Ne. Qed.

  Lemma root_core r0 tt ts us tt1 il ds' ws' rF : kin E r0 r0 -> spread glob_with tt root ts us tt1 -> tt = map tokened il -> Forall (fit E Met Inc) il ->
    rest_at I 0 ts -> rest_at J 0 us -> tiles E J root r0 0 ds' [] ws' rF ->
    exists il1 rE, tt1 = map tokened il1 /\ Forall (fit E Met Inc) il1 /\ kin E rF rE /\
      forall fl1, map in_of fl1 = il1 -> Forall (well E rE Inc) fl1 -> exists fl ds ws es more, map in_of fl = il /\ Forall (well E rE Inc) fl /\ tiles E I root r0 0 ds [] ws rE /\
          walk globs (map decls_of fl) root ds es (map decls_of fl1) /\ Forall2 (alike_declaration any) ds' (plain es) /\ Forall (good globs) es /\ Forall (long_include Inc) more /\
          Permutation (problems (ws ++ flat_map sf_warnings fl)) (problems (ws' ++ flat_map sf_warnings fl1) ++ more).
  Proof.
    intros Ki Sp -> Fl Ri Rj T. assert (Ob : exists po, obeys E po r0) by (destruct Ki as (po & _ & Ob & _); eauto). rewrite <- (app_nil_r us) in Rj.
    pose proof (closes_end us) as Cl. assert (Cn : calm []) by discriminate.
    remember (map tokened il) as tt eqn:Qt. remember root as f eqn:Qr. destruct Sp as [tt f ts Wo Af|tt f a txt eol ts items fs t1 us1 t2 us2 t3 Wo Af Ea He G Ni Fo Sf Sp]; subst f tt.
    - destruct (piece_copied E En I J root root r0 r0 0 ds' ws' rF 0 ts [] [] Ci Fi Cj Fj (or_introl eq_refl) Ki T Rj Cl Cn Ri) as (k' & da & db & wa & wb & r1' & ds & ws & r1 & -> & -> & Rk & K1 & T2 & Ti & Al & W).
      destruct (tiles_over _ _ _ _ _ _ T2 Rk) as (-> & -> & ->). rewrite !app_nil_r.
      exists il, r1. repeat (split; [first [reflexivity|assumption]|]). intros fl1 Qf Wl.
      assert (Nd : Forall (fun d => is_include (item d) = false) ds).
      { pose proof (tiles_runs E En _ _ _ _ _ _ _ _ Ti eq_refl (proj1 Ri) Ci Fi Ob) as R. apply (runs_no_include E En _ _ _ _ _ _ _ _ Ci Fi Ob R). intros x Hx Tx. apply Wo.
        change x with (0 + x) in Tx. apply (tok_rest _ _ _ _ _ Ri) in Tx. apply nth_error_In in Tx. exact Tx. }
      exists fl1, ds, ws, (map (here root) ds ++ []), []. split; [exact Qf|]. split; [exact Wl|]. split; [exact Ti|]. split; [|split; [|split; [|split]]].
      + rewrite <- (app_nil_r ds) at 1. apply walk_run; [exact Nd|constructor].
      + rewrite app_nil_r, plain_run by exact Nd. exact Al.
      + rewrite app_nil_r. apply Forall_map. eapply Forall_impl; [|exact Nd]. intros d N text It. cbn beta in N. rewrite It in N. discriminate.
      + constructor.
      + rewrite app_nil_r. unfold problems. rewrite !map_app, W. reflexivity.
    - apply ended_lined in Ea. rewrite <- !app_assoc in Rj. destruct (proj2 (spread_calm glob_with) _ _ _ _ Sf) as [Ca1 _]. destruct (proj1 (spread_calm glob_with) _ _ _ _ _ Sp) as [Ca2 _].
      assert (Ca : calm (us1 ++ us2 ++ [])) by (rewrite app_nil_r; apply calm_app; assumption).
      destruct (split_at E En J root r0 0 ds' ws' rF a _ Cj Fj Ob T Rj Ea Ca) as (d1 & d2 & w1 & w2 & r1' & -> & -> & R1 & T2 & Ob1).
      pose proof (rest_advance _ _ _ _ Rj) as Rj1. pose proof (rest_advance _ _ _ _ Ri) as Ri1. cbn [plus] in *. set (m := List.length a) in *.
      assert (Tm : tok I m (T_Keyword K_Include)) by (rewrite <- (Nat.add_0_r m); apply (tok_rest _ _ _ 0 _ Ri1); reflexivity).
      destruct (runs_copied E En J I root r0 0 d1 w1 m r1' Cj Fj Ci Fi R1 r0 0 Ki) as (ds1 & ws1 & rE & Rr & Al1 & W1 & K1).
      { apply Rj1. }
      { intros x t0 Hx Tx. apply (tok_rest _ _ _ x _ Rj) in Tx. apply (tok_rest _ _ _ x _ Ri). rewrite nth_error_app1 in * by (unfold m in Hx; lia). exact Tx. }
      { intro Ti. rewrite <- (Nat.add_0_r m) in Ti. apply (tok_rest _ _ _ 0 _ Rj1) in Ti. apply Ca. destruct (us1 ++ us2 ++ []); [discriminate|]. exact Ti. }
      { rewrite Nat.sub_0_r. intro Ti. pose proof (ExprFacts.tok_fun _ _ _ _ Tm Ti). discriminate. }
      { unfold m. destruct Ea as [->|(u & ->)]; [left; reflexivity|right; left]. rewrite app_length. cbn [List.length]. exists (List.length u). split; [lia|].
        apply (tok_rest _ _ _ (List.length u) _ Rj). rewrite <- app_assoc, nth_error_app2, Nat.sub_diag by lia. reflexivity. }
      rewrite Nat.sub_0_r in Rr. cbn [plus] in Rr.
      assert (ObE : exists po, obeys E po rE) by (destruct K1 as (_ & po & _ & O1 & _); eauto).
      assert (Sp0 : spread glob_with (map tokened il) root ([] ++ T_Keyword K_Include :: T_String txt :: eol ++ ts) ([] ++ us1 ++ us2) t3).
      { econstructor; eauto; [intros []|intros vs; discriminate|left; reflexivity]. }
      cbn [app] in Sp0.
      destruct (proj1 (core E En root globs rE ObE glob_with Met Globs J Cj Fj Inc) _ _ _ _ _ Sp0 il I m r1' m [] [] d2 w2 rF) as (il1 & k' & da & db & wa & wb & r2' & -> & Fl1 & -> & -> & Rk & K2 & T3 & C1); auto.
      { intros b Hb (n & v & Sr). destruct (Nat.eq_dec m b) as [<-|Ne]; [|apply (Rules m b Tm ltac:(lia)); exists n, v; exact Sr]. destruct Sr as [Tb _]. pose proof (ExprFacts.tok_fun _ _ _ _ Tm Tb). discriminate. }
      { rewrite <- app_assoc. exact Rj1. }
      { apply closes_end. }
      destruct (tiles_over _ _ _ _ _ _ T3 Rk) as (-> & -> & ->). rewrite !app_nil_r.
      exists il1, rE. repeat (split; [first [reflexivity|assumption]|]). intros fl1 Qf Wl. destruct (C1 fl1 Qf Wl) as (fl & ds & ws & es & more & Q & Wf & Ti & Wk & Al & Go & Lo & Pm).
      assert (Nd : Forall (fun d => is_include (item d) = false) ds1).
      { apply (runs_no_include E En _ _ _ _ _ _ _ _ Ci Fi Ob Rr). intros x Hx Tx. apply Wo. change x with (0 + x) in Tx. apply (tok_rest _ _ _ _ _ Ri) in Tx.
        rewrite nth_error_app1 in Tx by (unfold m in Hx; lia). apply nth_error_In in Tx. exact Tx. }
      exists fl, (ds1 ++ ds), (ws1 ++ ws), (map (here root) ds1 ++ es), more. split; [exact Q|]. split; [exact Wf|]. split; [|split; [|split; [|split; [|split]]]].
      + eapply runs_more; eassumption.
      + apply walk_run; assumption.
      + rewrite plain_app, plain_run by exact Nd. apply Forall2_app; assumption.
      + apply Forall_app. split; [|exact Go]. apply Forall_map. eapply Forall_impl; [|exact Nd]. intros d N text It. cbn beta in N. rewrite It in N. discriminate.
      + exact Lo.
      + unfold problems in *. rewrite !map_app in *. rewrite <- W1, <- !app_assoc. apply Permutation_app_head. rewrite app_assoc. rewrite <- app_assoc in Pm |- *. exact Pm.
  Qed.
End Root.

(** ** What can be computed *)
Lemma all_found_perm {A} (name : A -> option path) t ps fs t1 : all_found name t ps fs t1 -> Permutation t (fs ++ t1).
Proof. intro H. induction H as [|a p k x b ps fs t Q Sp H IH]; [reflexivity|]. cbn. rewrite <- IH. symmetry. apply Permutation_middle. Qed.
Lemma full_unfine E us vs : full_lines us vs -> fine_tokens E vs -> fine_tokens E us.
Proof. intros [|ts|ts t _] F; auto. apply fine_uneol. rewrite <- app_assoc. exact F. Qed.
Lemma spread_fine E glob_with t f ts us t' : spread glob_with t f ts us t' -> fine_tokens E us -> fine_tokens E ts /\ (Forall (fun x => fine_tokens E (snd x)) t' -> Forall (fun x => fine_tokens E (snd x)) t).
Proof.
  apply (spread_mind glob_with (fun t f ts us t' => fine_tokens E us -> fine_tokens E ts /\ (Forall (fun x => fine_tokens E (snd x)) t' -> Forall (fun x => fine_tokens E (snd x)) t))
    (fun t fs us t' => fine_tokens E us -> Forall (fun x => fine_tokens E (snd x)) fs /\ (Forall (fun x => fine_tokens E (snd x)) t' -> Forall (fun x => fine_tokens E (snd x)) t))); clear.
  - auto.
  - intros t f a text eol ts items fs t1 us1 t2 us2 t3 _ _ Ea He _ _ Fo Sf IH1 _ IH2 F. destruct (proj2 (spread_calm glob_with) _ _ _ _ Sf) as [_ Li].
    apply (fine_app E a _ Ea) in F. destruct F as [Fa F]. apply (fine_app E us1 _ Li) in F. destruct F as [F1 F2]. destruct (IH1 F1) as [A1 B1]. destruct (IH2 F2) as [A2 B2]. split.
    + apply (fine_app E a _ Ea). split; [exact Fa|]. assert (Fp : forall e, e = [T_Eol] \/ e = [] -> fine_tokens E (T_Keyword K_Include :: T_String text :: e)).
      { intros e Qe. apply fine_plain; unfold without; cbn; intros; destruct Qe as [->| ->]; cbn; intuition discriminate. }
      destruct He as [->|[-> ->]]; [|apply Fp; auto]. change (T_Keyword K_Include :: T_String text :: [T_Eol] ++ ts) with ([T_Keyword K_Include; T_String text; T_Eol] ++ ts).
      apply fine_app; [right; exists [T_Keyword K_Include; T_String text]; reflexivity|]. auto.
    + intro F3. rewrite (all_found_perm _ _ _ _ _ Fo). apply Forall_app. split; [rewrite <- (rev_involutive fs); apply Forall_rev; exact A1|auto].
  - auto.
  - intros t f ts fs us vs t1 ws t2 _ IH1 Fu Sf IH2 F. apply (fine_app E vs _ (full_ended_ _ _ Fu)) in F. destruct F as [Fv Fw]. destruct (IH1 (full_unfine E _ _ Fu Fv)) as [A1 B1]. destruct (IH2 Fw) as [A2 B2]. split; auto.
Qed.
