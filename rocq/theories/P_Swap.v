(** * C75: where a directive stands *)
From Coq Require Import String Ascii.
From Coq Require Import List NArith ZArith Arith Bool Lia Permutation.
From Verif Require Import Base BaseFacts Text Path PathFacts Sources Types SpecTypes TypesFacts P_Types SortM SpecSort P_Sort Options SpecOptions OptionsFacts P_Options
  Pragma SpecPragma PragmaRun P_Pragma Read SpecRead ReadFacts P_Read
  Token Lexer SpecLexer P_Lexer Peg PegFacts Grammar SpecExpr SpecGrammar SpecDirective SpecDisplay SpecLedger SpecAlike P_Grammar
  Parse SpecParse SpecWhole ParseFacts ParseOnce ParseFile P_File P_Includes P_Parse IncludeTokens P_Order P_Complete AlikeRead AlikeFile AlikeWalk AlikeOptions SortFacts SimCopy SpecPaste Paste P_Paste
  SpecAppend Append P_Append SpecLocal Local Parts P_Local SpecSwap.
Import SpecPragma Read.
Import ListNotations.
Local Open Scope nat_scope.
Local Notation tok := SpecGrammar.tok.
Local Notation ended := SpecAppend.ended.

(** A directive or a plugin. *)
Definition calm_declaration (d : spanned declaration) : Prop := (exists x, item d = D_Directive x) \/ exists p, item d = D_Pragma (P_Plugin p).
Lemma calm_level root ds : Forall calm_declaration ds -> forall s, level s (s ++ map (here root) ds).
Proof.
  intro F. induction F as [|d ds C F IH]; intro s; [cbn; rewrite app_nil_r; unfold level; auto|]. cbn [map]. change (here root d :: map (here root) ds) with ([here root d] ++ map (here root) ds). rewrite app_assoc.
  assert (L1 : level s (s ++ [here root d])).
  { unfold level, tag_stack, meta_stack, options_of. split; [|split]; intros; rewrite ?fold_left_app, ?flat_map_app; cbn; destruct C as [[x ->]|[x ->]]; cbn; rewrite ?app_nil_r; reflexivity. }
  destruct L1 as (A & B & C0), (IH (s ++ [here root d])) as (A' & B' & C'). split; [|split]; intros; [rewrite A; apply A'|rewrite B; apply B'|rewrite C0; exact C'].
Qed.
Lemma calm_yields root A B ys seen C : Forall calm_declaration A -> Forall calm_declaration B -> yields seen (map (here root) A ++ map (here root) B ++ C) ys ->
  exists yA yB yC, ys = yA ++ yB ++ yC /\ yields seen (map (here root) A) yA /\ yields seen (map (here root) B) yB /\ yields seen (map (here root) B ++ map (here root) A ++ C) (yB ++ yA ++ yC).
Proof.
  intros Fa Fb Y. apply yields_split in Y. destruct Y as (yA & y2 & -> & Ya & Y). apply yields_split in Y. destruct Y as (yB & yC & -> & Yb & Yc).
  exists yA, yB, yC. split; [reflexivity|]. split; [exact Ya|]. assert (Yb' : yields seen (map (here root) B) yB) by (eapply level_yields; [exact Yb|apply level_sym, calm_level; exact Fa]).
  split; [exact Yb'|]. apply yields_app; [exact Yb'|]. apply yields_app; [eapply level_yields; [exact Ya|apply calm_level; exact Fb]|].
  eapply level_yields; [exact Yc|]. apply level_sym. destruct (calm_level root A Fa seen) as (A1 & A2 & A3), (calm_level root B Fb (seen ++ map (here root) A)) as (B1 & B2 & B3),
    (calm_level root B Fb seen) as (C1 & C2 & C3), (calm_level root A Fa (seen ++ map (here root) B)) as (D1 & D2 & D3).
  split; [|split]; intros; [rewrite <- D1, <- C1, <- B1, <- A1|rewrite <- D2, <- C2, <- B2, <- A2|rewrite <- D3, <- C3, <- B3, <- A3]; reflexivity.
Qed.
Lemma calm_dues canonicalize root A B seen C : Forall calm_declaration A -> Forall calm_declaration B -> Forall (fun d => is_include (item d) = false) (A ++ B ++ C) ->
  dues canonicalize [] [] seen (map (here root) (A ++ B ++ C)) [] -> dues canonicalize [] [] seen (map (here root) (B ++ A ++ C)) [].
Proof.
  intros Fa Fb Ni D. apply Forall_app in Ni. destruct Ni as [Na Ni]. apply Forall_app in Ni. destruct Ni as [Nb Nc].
  rewrite !map_app in *. apply dues_split in D. destruct D as [Da D]. apply dues_split in D. destruct D as [Db Dc].
  change (@nil report) with (@nil report ++ []). apply dues_app; [eapply level_dues; [exact Nb|apply level_sym, calm_level; exact Fa|exact Db]|].
  change (@nil report) with (@nil report ++ []). apply dues_app; [eapply level_dues; [exact Na|apply calm_level; exact Fb|exact Da]|].
  eapply level_dues; [exact Nc| |exact Dc]. apply level_sym. destruct (calm_level root A Fa seen) as (A1 & A2 & A3), (calm_level root B Fb (seen ++ map (here root) A)) as (B1 & B2 & B3),
    (calm_level root B Fb seen) as (C1 & C2 & C3), (calm_level root A Fa (seen ++ map (here root) B)) as (D1 & D2 & D3).
  split; [|split]; intros; [rewrite <- D1, <- C1, <- B1, <- A1|rewrite <- D2, <- C2, <- B2, <- A2|rewrite <- D3, <- C3, <- B3, <- A3]; reflexivity.
Qed.

Section Swap.
  Context (L : lexer_env) (E : grammar_env) (En : environment_ok E) (U : unicode_ok (le_unicode L)).
  Context (canonicalize : path -> option path) (root : option path).
  Context (Cano : forall p q c d, same_path p q -> canonicalize p = Some c -> canonicalize q = Some d -> same_path c d).
  Context (Root : forall p, root = Some p -> canonicalize p <> None).

  Lemma quiet_runs I f r i ds ws k r' ts : computable E I -> fine_options I -> (exists po, obeys E po r) -> runs E I f r i ds ws k r' ->
    (forall x t, i <= x < k -> tok I x t -> In t ts) -> quiet ts -> without K_Include ts ->
    r' = r /\ Forall calm_declaration ds /\ Forall (within I i k) ds.
  Proof.
    intros Ci Oi Ob R. induction R as [r i|r i j d r1 ds ws k r2 D R IH]; intros Ts (Q1 & Q2 & Q3 & Q4 & Q5) Ni; [repeat split; constructor|].
    destruct (obeys_after E En _ _ _ _ _ _ _ Ci Oi Ob D) as [Ob1 B]. pose proof (runs_le E En _ _ _ _ _ _ _ _ Ci Oi Ob1 R) as Le.
    assert (Z : forall w, ~ In (T_Keyword w) ts -> ~ tok I i (T_Keyword w)) by (intros w Nw Hw; apply Nw; apply (Ts i); [lia|exact Hw]).
    assert (X : r1 = r /\ calm_declaration d).
    { inversion D as [x es W|y p P Le'|y o es r0 P Le']; subst.
      - split; [reflexivity|]. left. eexists. reflexivity.
      - split; [reflexivity|]. inversion P; subst; try (exfalso; eapply Z; [|eassumption]; assumption). right. eexists. reflexivity.
      - exfalso. inversion P; subst. eapply Z; [|eassumption]. assumption. }
    destruct X as [-> Cd]. destruct (IH Ob1) as (-> & Fc & Fw); [intros x t Hx; apply Ts; lia|repeat split; assumption|assumption|].
    split; [reflexivity|]. split; [constructor; assumption|]. constructor.
    - exists i, j. split; [lia|]. split; [lia|]. split; [lia|]. inversion D; reflexivity.
    - eapply Forall_impl; [|exact Fw]. cbn. intros x (a & b & Ha & Hb & Hc & Hs). exists a, b. repeat split; try lia. exact Hs.
  Qed.

  (** What is yielded is at the places of the declarations. *)
  Lemma yields_within I a b seen ds ys : Forall (within I a b) ds -> yields seen (map (here root) ds) ys -> Forall (within I a b) ys.
  Proof.
    intro F. revert seen ys. induction F as [|d ds W F IH]; intros seen ys Y; inversion Y as [|? ? ? x y yr As Au Sp Yr|? ? ? ? As Yr]; subst; [constructor| |eapply IH; exact Yr].
    constructor; [|eapply IH; exact Yr]. cbn in As. destruct W as (i & j & A & B & C & W). exists i, j. repeat split; auto. rewrite Sp, <- W. destruct (item d); [injection As as <-; reflexivity|discriminate].
  Qed.

  (** Two adjacent blocks of lines with nothing but directives and plugins in them
      change places in a text which is parsed successfully: it is again, with the
      same directives.  Their order is the one which sorting gives, so that only
      directives of the same date and rank of the two blocks change places. *)
  Theorem C75_swap : forall c c' tc tc' t1 tA tB t3 ds opts ps ws,
    lex L c = Fine (Some tc) -> lex L c' = Fine (Some tc') -> map fst tc = t1 ++ tA ++ tB ++ t3 -> map fst tc' = t1 ++ tB ++ tA ++ t3 ->
    ended t1 -> ended tA -> ended tB -> afresh_next tA -> afresh_next tB -> afresh_next t3 -> quiet tA -> quiet tB ->
    fine_content L E 0 c -> without K_Include (map fst tc) ->
    ledger_is L E canonicalize root c (Success ds opts ps ws) ->
    exists ds' opts' ps' ws' m y1 yA yB y3 p1 pA pB p3,
      ledger_is L E canonicalize root c' (Success ds' opts' ps' ws') /\
      sorted_from (y1 ++ yA ++ yB ++ y3) ds /\ sorted_from (y1 ++ yB ++ yA ++ y3) m /\ Forall2 (fun x y => alike (item x) (item y)) m ds' /\
      Forall (within (input_of 0 c tc) (List.length t1) (List.length t1 + List.length tA)) yA /\
      Forall (within (input_of 0 c tc) (List.length t1 + List.length tA) (List.length t1 + List.length tA + List.length tB)) yB /\
      ((forall x y, In x yA -> In y yB -> ~ tied (item x) (item y)) -> m = ds) /\
      alike_options opts opts' /\
      ps = p1 ++ pA ++ pB ++ p3 /\ Forall2 alike_plugin (p1 ++ pB ++ pA ++ p3) ps' /\ (without K_Plugin tA -> pA = []) /\ (without K_Plugin tB -> pB = []) /\
      Permutation (map rp_problem ws) (map rp_problem ws').
  Proof.
    intros c c' tc tc' t1 tA tB t3 ds opts ps ws Lx Lx' Tc Tc' E1 EA EB NA NB N3 QA QB Fc Ni H.
    assert (Fc' : fine_content L E 0 c').
    { apply (content_tokens L E 0 c tc Lx) in Fc. apply (content_tokens L E 0 c' tc' Lx'). rewrite Tc in Fc. rewrite Tc'. apply (fine_app E t1 _ E1) in Fc. destruct Fc as [F1 Fc]. apply (fine_app E tA _ EA) in Fc. destruct Fc as [FA Fc]. apply (fine_app E tB _ EB) in Fc.
      apply (fine_app E t1 _ E1). split; [exact F1|]. apply (fine_app E tB _ EB). split; [apply Fc|]. apply (fine_app E tA _ EA). split; [exact FA|apply Fc]. }
    destruct Fc as (t & X & Ci & Oi). rewrite Lx in X. injection X as <-. destruct Fc' as (t & X & Cj & Oj). rewrite Lx' in X. injection X as <-.
    destruct (alone_success L E En U canonicalize root Cano Root c tc Lx Ci Oi Ni _ _ _ _ H) as (decls & rE & po & ys & T & Np & Du & Le & Y & So & Ob & -> & ->).
    set (I := input_of 0 c tc) in *. set (J := input_of 0 c' tc') in *. set (p := List.length t1). set (q := p + List.length tA). set (r := q + List.length tB). set (q' := p + List.length tB). set (r' := q' + List.length tA).
    assert (Li : List.length (in_tokens I) = r + List.length t3) by (rewrite <- (map_length fst); change (in_tokens I) with tc; rewrite Tc, !app_length; unfold p, q, r; lia).
    assert (Lj : List.length (in_tokens J) = r' + List.length t3) by (rewrite <- (map_length fst); change (in_tokens J) with tc'; rewrite Tc', !app_length; unfold p, q', r'; lia).
    assert (Ap : forall a b, ended a -> ended b -> ended (a ++ b)).
    { intros a b Ea [->|(u & ->)]; [rewrite app_nil_r; exact Ea|right; exists (a ++ u); apply app_assoc]. }
    assert (Fr : forall a b, afresh_next a -> afresh_next b -> afresh_next (a ++ b)).
    { intros [|x a] b Ha Hb; [exact Hb|]. intros vs Q. cbn in Q. injection Q as -> _. eapply Ha. reflexivity. }
    assert (Sp : line_start I p) by (apply (start_after t1 E1 I _ Tc); auto).
    assert (Sq : line_start I q) by (pose proof (start_after (t1 ++ tA) (Ap _ _ E1 EA) I (tB ++ t3)) as Z; rewrite app_length in Z; apply Z; [rewrite <- app_assoc; exact Tc|auto]).
    assert (Sr : line_start I r) by (pose proof (start_after ((t1 ++ tA) ++ tB) (Ap _ _ (Ap _ _ E1 EA) EB) I t3) as Z; rewrite !app_length in Z; apply Z; [rewrite <- !app_assoc; exact Tc|auto]).
    assert (Sp' : line_start J p) by (apply (start_after t1 E1 J _ Tc'); auto).
    assert (Sq' : line_start J q') by (pose proof (start_after (t1 ++ tB) (Ap _ _ E1 EB) J (tA ++ t3)) as Z; rewrite app_length in Z; apply Z; [rewrite <- app_assoc; exact Tc'|auto]).
    assert (Sr' : line_start J r') by (pose proof (start_after ((t1 ++ tB) ++ tA) (Ap _ _ (Ap _ _ E1 EB) EA) J t3) as Z; rewrite !app_length in Z; apply Z; [rewrite <- !app_assoc; exact Tc'|auto]).
    destruct (tiles_at E En I root _ _ _ _ _ _ p Ci Oi (obeyed E En) T eq_refl ltac:(unfold r, q in *; lia) Sp) as (d1 & d2 & w1 & w2 & r1 & -> & -> & R1 & T2 & Ob1).
    destruct (tiles_at E En I root _ _ _ _ _ _ q Ci Oi Ob1 T2 eq_refl ltac:(unfold r, q in *; lia) Sq) as (dA & d4 & wA & w4 & rA & -> & -> & RA & T3 & ObA).
    destruct (tiles_at E En I root _ _ _ _ _ _ r Ci Oi ObA T3 eq_refl ltac:(unfold r, q in *; lia) Sr) as (dB & d3 & wB & w3 & rB & -> & -> & RB & T4 & ObB).
    pose proof (tiles_runs E En I root _ _ _ _ _ _ T4 eq_refl ltac:(unfold r, q in *; lia) Ci Oi ObB) as R3.
    assert (InA : forall x t, p <= x < q -> tok I x t -> In t tA).
    { intros x t Hx Hi. apply (tokens_at I _ _ _ Tc) in Hi. rewrite nth_error_app2 in Hi by (unfold p in *; lia). rewrite nth_error_app1 in Hi by (unfold q, p in *; lia). eapply nth_error_In. exact Hi. }
    assert (InB : forall x t, q <= x < r -> tok I x t -> In t tB).
    { intros x t Hx Hi. apply (tokens_at I _ _ _ Tc) in Hi. rewrite app_assoc, nth_error_app2 in Hi by (rewrite app_length; unfold q, p in *; lia). rewrite nth_error_app1 in Hi by (rewrite app_length; unfold r, q, p in *; lia). eapply nth_error_In. exact Hi. }
    assert (NiA : without K_Include tA) by (unfold without in *; rewrite Tc in Ni; rewrite !in_app_iff in Ni; tauto).
    assert (NiB : without K_Include tB) by (unfold without in *; rewrite Tc in Ni; rewrite !in_app_iff in Ni; tauto).
    assert (Ni' : without K_Include (map fst tc')) by (unfold without in *; rewrite Tc in Ni; rewrite Tc'; rewrite !in_app_iff in *; tauto).
    destruct (quiet_runs _ _ _ _ _ _ _ _ tA Ci Oi Ob1 RA InA QA NiA) as (-> & CA & WA).
    destruct (quiet_runs _ _ _ _ _ _ _ _ tB Ci Oi Ob1 RB InB QB NiB) as (-> & CB & WB).
    assert (Same1 : forall k t, k < p -> tok I k t -> tok J k t).
    { intros k t Hk Hi. apply (tokens_at I _ _ _ Tc) in Hi. apply (tokens_at J _ _ _ Tc'). rewrite nth_error_app1 in * by exact Hk. exact Hi. }
    assert (SameA : forall k t, k < q - p -> tok I (p + k) t -> tok J (q' + k) t).
    { intros k t Hk Hi. apply (tokens_at I _ _ _ Tc) in Hi. apply (tokens_at J _ _ _ Tc'). rewrite nth_error_app2 in Hi by (unfold p; lia). rewrite nth_error_app1 in Hi by (unfold q, p in *; lia).
      rewrite app_assoc, nth_error_app2 by (rewrite app_length; unfold q', p; lia). rewrite nth_error_app1 by (rewrite app_length; unfold q, q', p in *; lia).
      rewrite app_length. replace (q' + k - (List.length t1 + List.length tB)) with k by (unfold q', p; lia). replace (p + k - List.length t1) with k in Hi by (unfold p; lia). exact Hi. }
    assert (SameB : forall k t, k < r - q -> tok I (q + k) t -> tok J (p + k) t).
    { intros k t Hk Hi. apply (tokens_at I _ _ _ Tc) in Hi. apply (tokens_at J _ _ _ Tc'). rewrite app_assoc, nth_error_app2 in Hi by (rewrite app_length; unfold q, p; lia). rewrite nth_error_app1 in Hi by (rewrite app_length; unfold r, q, p in *; lia).
      rewrite nth_error_app2 by (unfold p; lia). rewrite nth_error_app1 by (unfold r, q, p in *; lia).
      rewrite app_length in Hi. replace (q + k - (List.length t1 + List.length tA)) with k in Hi by (unfold q, p; lia). replace (p + k - List.length t1) with k by (unfold p; lia). exact Hi. }
    assert (Same3 : forall k t, tok I (r + k) t -> tok J (r' + k) t).
    { intros k t Hi. apply (tokens_at I _ _ _ Tc) in Hi. apply (tokens_at J _ _ _ Tc'). rewrite !app_assoc, nth_error_app2 in Hi by (rewrite !app_length; unfold r, q, p; lia).
      rewrite !app_assoc, nth_error_app2 by (rewrite !app_length; unfold r', q', p; lia). rewrite !app_length in *.
      replace (r + k - (List.length t1 + List.length tA + List.length tB)) with k in Hi by (unfold r, q, p; lia). replace (r' + k - (List.length t1 + List.length tB + List.length tA)) with k by (unfold r', q', p; lia). exact Hi. }
    destruct (runs_copied E En I J root _ _ _ _ _ _ Ci Oi Cj Oj R1 initial_rules 0 (kin_initial E En) ltac:(unfold r, q in *; lia)) as (d1' & w1' & r1' & R1' & A1 & W1 & K1).
    { intros k t Hk. apply Same1. lia. }
    { apply Sp. }
    { replace (0 + (p - 0)) with p by lia. apply Sp'. }
    { destruct (proj1 Sp) as [Z|Z]; [left; exact Z|right; left; exact Z]. }
    replace (0 + (p - 0)) with p in R1' by lia.
    assert (Last : forall a b, line_start I b -> a <= b -> b = a \/ (exists y, b = S y /\ tok I y T_Eol) \/ finished I b /\ finished J (a + (b - a))).
    { intros a b [[->|Z] _] Hab; [left; lia|right; left; exact Z]. }
    destruct (runs_copied E En I J root _ _ _ _ _ _ Ci Oi Cj Oj RB r1' p K1 ltac:(unfold r, q in *; lia)) as (dB' & wB' & rB' & RB' & AB & WBw & KB).
    { exact SameB. }
    { apply Sr. }
    { replace (p + (r - q)) with q' by (unfold q', r; lia). apply Sq'. }
    { destruct (proj1 Sr) as [Z|Z]; [left; unfold r, q in *; lia|right; left; exact Z]. }
    replace (p + (r - q)) with q' in RB' by (unfold q', r; lia).
    destruct (runs_copied E En I J root _ _ _ _ _ _ Ci Oi Cj Oj RA rB' q' KB ltac:(unfold r, q in *; lia)) as (dA' & wA' & rA' & RA' & AA & WAw & KA).
    { exact SameA. }
    { apply Sq. }
    { replace (q' + (q - p)) with r' by (unfold q, r'; lia). apply Sr'. }
    { destruct (proj1 Sq) as [Z|Z]; [left; unfold r, q in *; lia|right; left; exact Z]. }
    replace (q' + (q - p)) with r' in RA' by (unfold q, r'; lia).
    assert (Past : forall A0, ~ tok A0 (List.length (in_tokens A0)) T_Indent).
    { intros A0 [z Z]. assert (nth_error (in_tokens A0) (List.length (in_tokens A0)) <> None) as V by congruence. apply nth_error_Some in V. lia. }
    destruct (runs_copied E En I J root _ _ _ _ _ _ Ci Oi Cj Oj R3 rA' r' KA ltac:(lia)) as (d3' & w3' & r3' & R3' & A3 & W3 & K3).
    { intros k t _. apply Same3. }
    { apply Past. }
    { replace (r' + (List.length (in_tokens I) - r)) with (List.length (in_tokens J)) by lia. apply Past. }
    { right. right. split; apply nth_error_None; lia. }
    assert (Fj : finished J (r' + (List.length (in_tokens I) - r))) by (apply nth_error_None; lia).
    pose proof (runs_tiles _ _ _ _ _ _ _ _ _ (runs_app _ _ _ _ _ _ _ _ _ _ _ _ _ R1' (runs_app _ _ _ _ _ _ _ _ _ _ _ _ _ RB' (runs_app _ _ _ _ _ _ _ _ _ _ _ _ _ RA' R3'))) Fj) as TJ.
    pose proof (Forall2_app A1 (Forall2_app AB (Forall2_app AA A3))) as Al.
    assert (Np1 : Forall (fun d => is_include (item d) = false) (d1 ++ dB ++ dA ++ d3)) by (rewrite !Forall_app in *; tauto).
    pose proof (alike_no_include _ _ Al Np1) as NpJ. pose proof (alike_here root _ _ Al) as Ae.
    assert (Du1 : dues canonicalize [] [] [] (map (here root) (d1 ++ dB ++ dA ++ d3)) []).
    { rewrite map_app in Du |- *. apply dues_split in Du. destruct Du as [Dx Dy]. change (@nil report) with (@nil report ++ []). apply dues_app; [exact Dx|].
      apply calm_dues; auto. rewrite !Forall_app in *; tauto. }
    assert (Lv : level (map (here root) (d1 ++ dA ++ dB ++ d3)) (map (here root) (d1 ++ dB ++ dA ++ d3))).
    { rewrite !map_app. rewrite !app_assoc. apply level_snoc. set (s := map (here root) d1).
      destruct (calm_level root dA CA s) as (X1 & X2 & X3), (calm_level root dB CB (s ++ map (here root) dA)) as (B1 & B2 & B3),
        (calm_level root dB CB s) as (C1 & C2 & C3), (calm_level root dA CA (s ++ map (here root) dB)) as (D1 & D2 & D3).
      split; [|split]; intros; [rewrite <- D1, <- C1, <- B1, <- X1|rewrite <- D2, <- C2, <- B2, <- X2|rewrite <- D3, <- C3, <- B3, <- X3]; reflexivity. }
    pose proof (proj1 (level_leftover _ _ Lv) Le) as Le1.
    assert (DuJ : dues canonicalize [] [] [] (map (here root) (d1' ++ dB' ++ dA' ++ d3')) []).
    { eapply (strip_dues root canonicalize [] [] [] [] [] _ Du1 [] (d1' ++ dB' ++ dA' ++ d3') (Forall2_nil _)). rewrite plain_here by exact Np1. exact Al. }
    pose proof (alike_leftover any _ _ Ae Le1) as LeJ.
    destruct (alone_parses L E En U canonicalize root Cano Root c' tc' Lx' Cj Oj Ni' _ _ _ TJ NpJ DuJ LeJ) as (poJ & yJ & sorted & YJ & SoJ & ObJ & G).
    rewrite !map_app in Y. apply yields_split in Y. destruct Y as (y1 & yr & -> & Y1 & Yr). cbn [app] in Yr.
    destruct (calm_yields root dA dB _ _ _ CA CB Yr) as (yA & yB & y3 & -> & YA & YB & Yr').
    pose proof (yields_app _ _ _ _ _ Y1 Yr') as YI. rewrite <- !map_app in YI.
    destruct (sorted_exists (y1 ++ yB ++ yA ++ y3)) as (m & Sm).
    exists sorted, (fst (assimilate_all (options_new poJ) (options_of (map (here root) (d1' ++ dB' ++ dA' ++ d3'))))), (plugins_of (map (here root) (d1' ++ dB' ++ dA' ++ d3'))), (w1' ++ wB' ++ wA' ++ w3').
    exists m, y1, yA, yB, y3, (plugins_of (map (here root) d1)), (plugins_of (map (here root) dA)), (plugins_of (map (here root) dB)), (plugins_of (map (here root) d3)).
    assert (NoPl : forall a b ts dd rr ww, runs E I root rr a dd ww b rr -> (exists po, obeys E po rr) -> (forall x t, a <= x < b -> tok I x t -> In t ts) -> without K_Plugin ts -> Forall calm_declaration dd -> plugins_of (map (here root) dd) = []).
    { clear - Ci Oi En. intros a b ts dd rr ww R Ob Ts Np Cd. remember rr as r2 eqn:Qr in R at 2. clear Qr. induction R as [r i|r i j d r1 ds ws k r3 D R IH]; [reflexivity|].
      destruct (obeys_after E En _ _ _ _ _ _ _ Ci Oi Ob D) as [Ob1 B]. pose proof (runs_le E En _ _ _ _ _ _ _ _ Ci Oi Ob1 R) as Le. inversion Cd as [|? ? C1 C2]; subst.
      unfold plugins_of in *. cbn [map flat_map]. rewrite IH; auto; [|intros x t Hx; apply Ts; lia]. rewrite app_nil_r. cbn. destruct C1 as [[x Q]|[x Q]]; rewrite Q; [reflexivity|].
      exfalso. inversion D as [z es W|y z P Le'|y o es r0 P Le']; subst; cbn in Q; try discriminate Q. injection Q as ->. inversion P; subst. apply Np. apply (Ts i); [lia|]. assumption. }
    split; [exact G|]. split; [exact So|]. split; [exact Sm|]. split; [|split; [|split; [|split; [|split; [|split; [|split; [|split; [|split]]]]]]]].
    - eapply alike_sorted; [|exact Sm|exact SoJ]. eapply alike_yields; [exact YI|constructor|exact Ae|exact YJ].
    - eapply yields_within; [exact WA|exact YA].
    - eapply yields_within; [exact WB|exact YB].
    - intro Nt. clear - So Sm Nt. apply sorted_keyed in So, Sm. destruct So as [So K1], Sm as [Sm K2]. destruct key_compare_laws as (CE & CO & CT).
      apply keyed_unique; auto. intro k. rewrite K1, K2. unfold keyed. rewrite !filter_app. f_equal. rewrite !app_assoc. f_equal.
      destruct (filter _ yA) as [|x la] eqn:Fa; [rewrite app_nil_r; reflexivity|]. destruct (filter _ yB) as [|y lb] eqn:Fb; [rewrite app_nil_r; reflexivity|].
      exfalso. assert (Hx : In x (x :: la)) by (left; reflexivity). assert (Hy : In y (y :: lb)) by (left; reflexivity). rewrite <- Fa in Hx. rewrite <- Fb in Hy.
      apply filter_In in Hx, Hy. destruct Hx as [Hx Kx], Hy as [Hy Ky]. apply (Nt x y Hx Hy).
      assert (Qx : directive_key x = k) by (apply CE; destruct (key_compare (directive_key x) k); congruence).
      assert (Qy : directive_key y = k) by (apply CE; destruct (key_compare (directive_key y) k); congruence).
      assert (Rf : key_compare k k = Eq) by (apply CE; reflexivity).
      split; rewrite <- must_precede_key, Qx, Qy, Rf; discriminate.
    - eapply alike_opts; [exact Ob|exact ObJ|exact K3|]. rewrite <- (alike_options_of any _ _ Ae). destruct Lv as (_ & _ & Q). rewrite Q. reflexivity.
    - unfold plugins_of. rewrite !map_app, !flat_map_app. reflexivity.
    - pose proof (alike_plugins_of any _ _ Ae) as Z. unfold plugins_of in *. rewrite !map_app, !flat_map_app in Z. rewrite !map_app, !flat_map_app. exact Z.
    - intro Np0. eapply NoPl; [exact RA|exact Ob1|exact InA|exact Np0|exact CA].
    - intro Np0. eapply NoPl; [exact RB|exact Ob1|exact InB|exact Np0|exact CB].
    - rewrite !map_app, W1, W3, WAw, WBw. apply Permutation_app_head. rewrite !app_assoc. apply Permutation_app_tail. apply Permutation_app_comm.
  Qed.
End Swap.

(** ** A case: two blocks with a plugin and a tie between them *)
Lemma quiet_check ts : forallb (fun t => match t with T_Keyword (K_Option | K_Pushtag | K_Poptag | K_Pushmeta | K_Popmeta) => false | _ => true end) ts = true -> quiet ts.
Proof. rewrite forallb_forall. intro H. unfold quiet, without. repeat split; intro X; specialize (H _ X); discriminate H. Qed.
Definition ex_first : str := lit "option ""title"" ""x""" ++ [10%N] ++ lit "pushtag #trip" ++ [10%N].
Definition ex_block_a : str := lit "2024-01-03 close Assets:Cash" ++ [10%N] ++ lit "plugin ""p""" ++ [10%N] ++ lit "2024-01-01 * ""a""" ++ [10%N] ++ lit "  Assets:Cash 1 USD" ++ [10%N] ++ lit "  Income:Cash" ++ [10%N].
Definition ex_block_b : str := lit "2024-01-02 open Assets:Cash" ++ [10%N] ++ lit "2024-01-01 note Assets:Cash ""n""" ++ [10%N].
Definition ex_last : str := lit "poptag #trip" ++ [10%N].
Definition ex_ab : str := ex_first ++ ex_block_a ++ ex_block_b ++ ex_last.
Definition ex_ba : str := ex_first ++ ex_block_b ++ ex_block_a ++ ex_last.
Example C75_ex : exists ds opts ps ws,
  let words c := map fst (ex_lexed c) in
  lex P_Lexer.ex_env ex_ab = Fine (Some (ex_lexed ex_ab)) /\ lex P_Lexer.ex_env ex_ba = Fine (Some (ex_lexed ex_ba)) /\
  words ex_ab = words ex_first ++ words ex_block_a ++ words ex_block_b ++ words ex_last /\ words ex_ba = words ex_first ++ words ex_block_b ++ words ex_block_a ++ words ex_last /\
  ended (words ex_first) /\ ended (words ex_block_a) /\ ended (words ex_block_b) /\ afresh_next (words ex_block_a) /\ afresh_next (words ex_block_b) /\ afresh_next (words ex_last) /\
  quiet (words ex_block_a) /\ quiet (words ex_block_b) /\
  fine_content P_Lexer.ex_env P_Grammar.ex_env 0 ex_ab /\ fine_content P_Lexer.ex_env P_Grammar.ex_env 0 ex_ba /\ without K_Include (words ex_ab) /\
  ledger_is P_Lexer.ex_env P_Grammar.ex_env (fun p => Some p) None ex_ab (Success ds opts ps ws) /\
  List.length ds = 4 /\ List.length ps = 1.
Proof.
  destruct (ex_ledger_success ex_ab ltac:(vm_compute; exact Logic.I)) as (ds & opts & ps & ws & HA & QA).
  exists ds, opts, ps, ws. cbn zeta. do 2 (split; [apply ex_lexes; vm_compute; reflexivity|]). do 2 (split; [vm_compute; reflexivity|]).
  split; [right; exists (removelast (map fst (ex_lexed ex_first))); vm_compute; reflexivity|].
  split; [right; exists (removelast (map fst (ex_lexed ex_block_a))); vm_compute; reflexivity|].
  split; [right; exists (removelast (map fst (ex_lexed ex_block_b))); vm_compute; reflexivity|].
  do 3 (split; [intros vs; vm_compute; discriminate|]). do 2 (split; [apply quiet_check; vm_compute; reflexivity|]).
  do 2 (split; [apply check_content_ok; vm_compute; reflexivity|]). split; [apply check_without_include; vm_compute; reflexivity|].
  split; [exact HA|]. clear HA. vm_compute in QA. injection QA as <- _ <- _. split; reflexivity.
Qed.

(** ** What is necessary: a tag pushed in one of them does not move along *)
Theorem C75_push_refuted : exists L E a b dsA optsA psA wsA dsB optsB psB wsB rest,
  unicode_ok (le_unicode L) /\ environment_ok E /\
  ledger_is L E (fun p => Some p) None (a ++ b ++ rest) (Success dsA optsA psA wsA) /\ ledger_is L E (fun p => Some p) None (b ++ a ++ rest) (Success dsB optsB psB wsB) /\
  List.length dsA = 1 /\ List.length dsB = 1 /\ ~ Forall2 (fun x y => alike (item x) (item y)) dsA dsB.
Proof.
  set (a := lit "pushtag #trip" ++ [10%N]). set (b := lit "2024-01-02 open Assets:Cash" ++ [10%N]). set (rest := lit "poptag #trip" ++ [10%N]).
  destruct (ex_ledger_success (a ++ b ++ rest) ltac:(vm_compute; exact Logic.I)) as (dsA & optsA & psA & wsA & HA & QA).
  destruct (ex_ledger_success (b ++ a ++ rest) ltac:(vm_compute; exact Logic.I)) as (dsB & optsB & psB & wsB & HB & QB).
  exists P_Lexer.ex_env, P_Grammar.ex_env, a, b, dsA, optsA, psA, wsA, dsB, optsB, psB, wsB, rest.
  split; [exact P_Lexer.arabic_ok|]. split; [exact P_File.ex_environment|]. split; [exact HA|]. split; [exact HB|]. clear HA HB.
  assert (Z : forall x y l l', Forall2 (fun x y : spanned directive => alike (item x) (item y)) (x :: l) (y :: l') -> List.length (md_tags (item (dir_metadata (item x)))) = List.length (md_tags (item (dir_metadata (item y))))).
  { intros x y l l' F. inversion F as [|? ? ? ? A _]; subst. destruct A as [_ [_ [(m & P & Fm) _]] _]. rewrite (Permutation_length P). eapply forall2_length. exact Fm. }
  vm_compute in QA, QB. injection QA as <- _ _ _. injection QB as <- _ _ _. split; [reflexivity|]. split; [reflexivity|]. intro F. apply Z in F. discriminate F.
Qed.

Print Assumptions C75_swap.
Print Assumptions C75_push_refuted.
