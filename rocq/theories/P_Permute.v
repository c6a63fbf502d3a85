(** * C75, said of any number of blocks of lines in any order *)
From Coq Require Import String Ascii.
From Coq Require Import List NArith ZArith Arith Bool Lia Permutation FinFun.
From Verif Require Import Base BaseFacts Text Path PathFacts Sources Types SpecTypes TypesFacts P_Types SortM SpecSort P_Sort Options SpecOptions OptionsFacts P_Options
  Pragma SpecPragma PragmaRun P_Pragma Read SpecRead ReadFacts P_Read
  Token Lexer SpecLexer P_Lexer Peg PegFacts Grammar SpecExpr SpecGrammar SpecDirective SpecDisplay SpecLedger SpecAlike P_Grammar
  Parse SpecParse SpecWhole P_File P_Parse P_Order AlikeWalk AlikeEquiv SpecPaste P_Paste SpecLayout P_Words
  SpecAppend AppendText P_Append SpecLocal Parts P_Local SpecWrap P_Wrap SpecSwap P_Swap TextLines P_Text P_RoundTrip.
Import SpecPragma Read.
Import ListNotations.
Local Open Scope nat_scope.
Local Notation ended := SpecAppend.ended.
Local Notation nl := [10%N].
Local Notation al := (fun x y : spanned directive => alike (item x) (item y)).

(** Of any two of the directives, one must precede the other. *)
Definition untied (ds : list (spanned directive)) : Prop :=
  forall i j x y, i <> j -> nth_error ds i = Some x -> nth_error ds j = Some y -> ~ tied (item x) (item y).

Lemma untied_permuted l m : Permutation l m -> untied l -> untied m.
Proof.
  intros P H i j x y Ne Hx Hy. apply Permutation_nth_error in P. destruct P as (_ & f & Inj & F). rewrite F in Hx, Hy. apply (H (f i) (f j)); auto.
Qed.
Lemma untied_alike l m : Forall2 al l m -> untied l -> untied m.
Proof.
  intros F H i j x y Ne Hx Hy T.
  assert (Z : forall k z, nth_error m k = Some z -> exists z', nth_error l k = Some z' /\ alike (item z') (item z)).
  { clear - F. induction F as [|a b l m A F IH]; intros [|k] z Hz; cbn in Hz; try discriminate; [injection Hz as <-; exists a; auto|exact (IH _ _ Hz)]. }
  destruct (Z _ _ Hx) as (x' & Hx' & Ax), (Z _ _ Hy) as (y' & Hy' & Ay). apply (H i j x' y' Ne Hx' Hy'). destruct T as [T1 T2].
  assert (Kx : kept (item x') (item x)) by (split; apply Ax). assert (Ky : kept (item y') (item y)) by (split; apply Ay).
  split; intro X; [apply T1; exact (proj1 (alike_must_precede _ _ _ _ Kx Ky) X)|apply T2; exact (proj1 (alike_must_precede _ _ _ _ Ky Kx) X)].
Qed.
Lemma untied_apart a b c d : untied (a ++ b ++ c ++ d) -> forall x y, In x b -> In y c -> ~ tied (item x) (item y).
Proof.
  intros H x y Hx Hy. apply In_nth_error in Hx, Hy. destruct Hx as (i & Hx), Hy as (j & Hy). pose proof (nth_error_Some b i) as [Li _]. pose proof (nth_error_Some c j) as [Lj _]. rewrite Hx in Li. rewrite Hy in Lj.
  specialize (Li ltac:(discriminate)). specialize (Lj ltac:(discriminate)).
  apply (H (List.length a + i) (List.length a + List.length b + j)); [lia| |].
  - rewrite nth_error_app2, nth_error_app1 by lia. rewrite <- Hx. f_equal. lia.
  - rewrite nth_error_app2, nth_error_app2, nth_error_app1 by lia. rewrite <- Hy. f_equal. lia.
Qed.

Section Permute.
  Context (L : lexer_env) (E : grammar_env) (En : environment_ok E) (U : unicode_ok (le_unicode L)).
  Context (ND : forall c, u_Nd (le_unicode L) c = true -> u_Lu (le_unicode L) c = false /\ u_Lo (le_unicode L) c = false).
  Context (canonicalize : path -> option path) (root : option path).
  Context (Cano : forall p q c d, same_path p q -> canonicalize p = Some c -> canonicalize q = Some d -> same_path c d).
  Context (Root : forall p, root = Some p -> canonicalize p <> None).

  (** Lines which start afresh, with no option in them, and nothing pushed or
      popped. *)
  Definition block (s : str) : Prop := (exists fin ws ls, starts_afresh L fin ws ls s) /\
    forall k, In k [K_Option; K_Pushtag; K_Poptag; K_Pushmeta; K_Popmeta] -> says_no L k (s ++ nl).
  (** Nothing more, or lines which start afresh. *)
  Definition remainder (s : str) : Prop := s = [] \/ exists ws ls, starts_afresh L true ws ls s.
  Definition blocks (Bs : list str) : str := flat_map (fun B => B ++ nl) Bs.

  Record good (B : str) (us : list token) : Prop := {
    g_starts : exists fin ws ls, starts_afresh L fin ws ls B;
    g_piece : piece L (B ++ nl) us;
    g_ended : ended us;
    g_afresh : afresh_next us;
    g_quiet : quiet us
  }.
  Lemma block_good B : block B -> exists us, good B us.
  Proof.
    intros [(fin & ws & ls & H) Q]. exists (ledger_tokens true ((false, ws) :: ls)). destruct (piece_set_out L U ND _ _ _ (afresh_out L _ _ _ _ H)) as [P Ed]. destruct (piece_afresh L U ND _ _ _ _ H) as (_ & Pw & _ & Nw).
    constructor; [eauto|exact P|exact Ed|apply tokens_afresh; assumption|]. unfold quiet. repeat split; (eapply says_no_piece; [exact P|]); (apply Q; cbn; tauto).
  Qed.

  Lemma rest_tokens b : remainder b -> exists t3, afresh_next t3 /\ forall Bs ts, Forall2 good Bs ts ->
    (blocks Bs ++ b = [] /\ concat ts ++ t3 = []) \/ exists w l, starts_afresh L true w l (blocks Bs ++ b) /\ concat ts ++ t3 = ledger_tokens true ((false, w) :: l).
  Proof.
    intro R. assert (X : exists t3, afresh_next t3 /\ ((b = [] /\ t3 = []) \/ exists w l, starts_afresh L true w l b /\ t3 = ledger_tokens true ((false, w) :: l))).
    { destruct R as [->|(ws & ls & H)]; [exists []; split; [intros vs Q; discriminate|left; auto]|]. destruct (piece_afresh L U ND _ _ _ _ H) as (_ & Pw & _ & Nw). exists (ledger_tokens true ((false, ws) :: ls)). split; [apply tokens_afresh; assumption|eauto]. }
    destruct X as (t3 & N3 & X). exists t3. split; [exact N3|]. intros Bs ts F. induction F as [|B us Bs ts G F IH]; [exact X|]. right. cbn [blocks flat_map concat]. rewrite <- !app_assoc. cbn [app].
    destruct G as [(fin & ws & ls & H) P _ _ _]. destruct (piece_afresh L U ND _ _ _ _ H) as (P' & _). assert (us = ledger_tokens true ((false, ws) :: ls)) as -> by (eapply piece_unique; eassumption).
    destruct IH as [[Qb Qt]|(w & l & Hb & Qt)].
    - exists ws, ls. change (flat_map (fun B => B ++ nl) Bs ++ b) with (blocks Bs ++ b). rewrite Qb, Qt, app_nil_r. split; [|reflexivity].
      destruct H as [o g s0 rest Ho G0 W Bg Ig Li]. rewrite <- app_assoc. eapply afresh; [exact Ho|exact G0|apply P_Newline.worded_newline; [exact U|exact W]|exact Bg| |eapply P_Newline.lined_newline; [exact U|exact Li]].
      intro Z. apply Ig. apply P_Newline.ignored_newline; [eapply (P_Newline.worded_some L U); eassumption|exact Z].
    - exists ws, (ls ++ (false, w) :: l). rewrite Qt. split; [|rewrite app_comm_cons, (tokens_onto ((false, ws) :: ls)); reflexivity]. eapply afresh_onto; eassumption.
  Qed.
  Lemma whole_tokens fin la a b : set_out L fin la a -> remainder b -> exists t1 t3, ended t1 /\ afresh_next t3 /\ forall Bs ts, Forall2 good Bs ts -> piece L (a ++ nl ++ blocks Bs ++ b) (t1 ++ concat ts ++ t3).
  Proof.
    intros Ha Hb. destruct (piece_set_out L U ND _ _ _ Ha) as [Pa Ea]. destruct (rest_tokens b Hb) as (t3 & N3 & R). exists (ledger_tokens true la), t3. split; [exact Ea|]. split; [exact N3|]. intros Bs ts F.
    destruct (R _ _ F) as [[Qb Qt]|(w & l & H & Qt)]; [rewrite Qb, Qt, !app_nil_r; exact Pa|rewrite Qt]. eapply piece_onto; eassumption.
  Qed.

  (** What is the same when blocks have changed places. *)
  Definition rearranged (plugins : Prop) ds opts ps ws ds' opts' ps' (ws' : list report) : Prop :=
    same_elements al ds ds' /\ (untied ds -> Forall2 al ds ds') /\ alike_options opts opts' /\
    same_elements alike_plugin ps ps' /\ (plugins -> Forall2 alike_plugin ps ps') /\ Permutation (map rp_problem ws) (map rp_problem ws').
  Lemma al_trans : trans al. Proof. intros x y z. apply alike_trans. Qed.
  Lemma rearranged_refl P ds opts ps ws : rearranged P ds opts ps ws ds opts ps ws.
  Proof.
    assert (R : refl al) by (intro; apply alike_refl). split; [apply elements_refl; exact R|]. split; [intros _; apply forall2_refl; exact R|]. split; [apply options_refl|]. split; [apply elements_refl, plugin_refl|]. split; [intros _; apply forall2_refl, plugin_refl|reflexivity].
  Qed.
  Lemma rearranged_trans P a b c d a' b' c' d' a2 b2 c2 d2 : rearranged P a b c d a' b' c' d' -> rearranged P a' b' c' d' a2 b2 c2 d2 -> rearranged P a b c d a2 b2 c2 d2.
  Proof.
    intros (A & T & O & Pl & Po & W) (A' & T' & O' & Pl' & Po' & W'). split; [eapply (elements_trans al al_trans); eassumption|]. split.
    - intro X. eapply (forall2_trans al al_trans); [exact (T X)|]. apply T'. eapply untied_alike; [exact (T X)|exact X].
    - split; [eapply options_trans; eassumption|]. split; [eapply (elements_trans _ plugin_trans); eassumption|]. split; [intro X; eapply (forall2_trans _ plugin_trans); [exact (Po X)|exact (Po' X)]|etransitivity; eassumption].
  Qed.

  Section From.
    Context (a b : str) (t1 t3 : list token) (Ed1 : ended t1) (N3 : afresh_next t3) (plugins : Prop).
    Context (Whole : forall Bs ts, Forall2 good Bs ts -> piece L (a ++ nl ++ blocks Bs ++ b) (t1 ++ concat ts ++ t3)).
    Definition holds (Bs : list str) ds opts ps ws : Prop :=
      let c := a ++ nl ++ blocks Bs ++ b in fine_content L E 0 c /\ says_no L K_Include c /\ ledger_is L E canonicalize root c (Success ds opts ps ws).
    Lemma ended_concat ts : Forall ended ts -> ended (concat ts).
    Proof.
      induction 1 as [|t ts Et F IH]; [left; reflexivity|]. cbn. destruct IH as [->|(u & ->)]; [rewrite app_nil_r; exact Et|right; exists (t ++ u); apply app_assoc].
    Qed.
    Lemma good_ended Bs ts : Forall2 good Bs ts -> Forall ended ts.
    Proof. induction 1 as [|B us Bs ts G F IH]; constructor; [apply (g_ended _ _ G)|exact IH]. Qed.

    Lemma neighbours pre post tpre tpost A B uA uB ds opts ps ws : Forall2 good pre tpre -> Forall2 good post tpost -> good A uA -> good B uB ->
      (plugins -> without K_Plugin uA /\ without K_Plugin uB) ->
      holds (pre ++ A :: B :: post) ds opts ps ws -> exists ds' opts' ps' ws', holds (pre ++ B :: A :: post) ds' opts' ps' ws' /\ rearranged plugins ds opts ps ws ds' opts' ps' ws'.
    Proof.
      intros Fp Fq GA GB Np (Fc & Ni & H). set (t0 := t1 ++ concat tpre). set (t2 := concat tpost ++ t3).
      assert (P : piece L (a ++ nl ++ blocks (pre ++ A :: B :: post) ++ b) (t0 ++ uA ++ uB ++ t2)).
      { replace (t0 ++ uA ++ uB ++ t2) with (t1 ++ concat (tpre ++ uA :: uB :: tpost) ++ t3) by (rewrite concat_app; cbn; unfold t0, t2; rewrite <- !app_assoc; reflexivity). apply Whole. apply Forall2_app; [exact Fp|]. constructor; [exact GA|constructor; [exact GB|exact Fq]]. }
      assert (P' : piece L (a ++ nl ++ blocks (pre ++ B :: A :: post) ++ b) (t0 ++ uB ++ uA ++ t2)).
      { replace (t0 ++ uB ++ uA ++ t2) with (t1 ++ concat (tpre ++ uB :: uA :: tpost) ++ t3) by (rewrite concat_app; cbn; unfold t0, t2; rewrite <- !app_assoc; reflexivity). apply Whole. apply Forall2_app; [exact Fp|]. constructor; [exact GB|constructor; [exact GA|exact Fq]]. }
      pose proof (says_no_piece L _ _ _ P Ni) as Ni2. destruct P as (tc & Lx & Tc), P' as (tc' & Lx' & Tc'). rewrite <- Tc in Ni2.
      assert (Ed0 : ended t0). { unfold t0. pose proof (ended_concat _ (good_ended _ _ Fp)) as [->|(u & ->)]; [rewrite app_nil_r; exact Ed1|right; exists (t1 ++ u); apply app_assoc]. }
      assert (N2 : afresh_next t2). { unfold t2. destruct Fq as [|? ? ? ? [_ _ Eq Aq _] Fq]; [exact N3|]. cbn. intros vs Q. destruct y as [|t y]; [|cbn in Q; injection Q as -> _; exact (Aq y eq_refl)]. cbn in Q. clear Eq Aq.
        revert vs Q. clear - Fq N3. induction Fq as [|? us ? ? [_ _ _ Aq _] Fq IH]; intros vs Q; [exact (N3 _ Q)|]. cbn in Q. destruct us as [|t us]; [exact (IH _ Q)|]. cbn in Q. injection Q as -> _. exact (Aq us eq_refl). }
      destruct GA as [_ PA EdA AfA QA], GB as [_ PB EdB AfB QB].
      destruct (C75_swap L E En U canonicalize root Cano Root _ _ _ _ _ _ _ _ _ _ _ _ Lx Lx' Tc Tc' Ed0 EdA EdB AfA AfB N2 QA QB Fc Ni2 H)
        as (ds' & opts' & ps' & ws' & m & y1 & yA & yB & y3 & p1 & pA & pB & p3 & H' & S1 & S2 & Al & _ & _ & Ti & O & Qp & Pl & NoA & NoB & W).
      exists ds', opts', ps', ws'. split.
      - split; [|split; [|exact H']].
        + apply (content_tokens L E 0 _ tc Lx) in Fc. apply (content_tokens L E 0 _ tc' Lx'). rewrite Tc in Fc. rewrite Tc'. apply (fine_app E t0 _ Ed0) in Fc. destruct Fc as [F1 Fc]. apply (fine_app E uA _ EdA) in Fc. destruct Fc as [FA Fc]. apply (fine_app E uB _ EdB) in Fc.
          apply (fine_app E t0 _ Ed0). split; [exact F1|]. apply (fine_app E uB _ EdB). split; [apply Fc|]. apply (fine_app E uA _ EdA). split; [exact FA|apply Fc].
        + intros ts Lt. rewrite Lx' in Lt. injection Lt as <-. rewrite Tc'. rewrite Tc in Ni2. intro X. apply Ni2. rewrite !in_app_iff in *. tauto.
      - assert (Pm : Permutation ds m).
        { transitivity (y1 ++ yA ++ yB ++ y3); [symmetry; apply sorted_permutation; exact S1|]. transitivity (y1 ++ yB ++ yA ++ y3); [|apply sorted_permutation; exact S2].
          apply Permutation_app_head. rewrite !app_assoc. apply Permutation_app_tail, Permutation_app_comm. }
        split; [exists m; auto|]. split; [|split; [exact O|split; [|split; [|exact W]]]].
        + intro X. rewrite Ti in Al; [exact Al|]. apply (untied_apart y1 yA yB y3). eapply untied_permuted; [symmetry; apply sorted_permutation; exact S1|exact X].
        + exists (p1 ++ pB ++ pA ++ p3). split; [rewrite Qp|exact Pl]. apply Permutation_app_head. rewrite !app_assoc. apply Permutation_app_tail, Permutation_app_comm.
        + intro X. rewrite (NoA (proj1 (Np X))), (NoB (proj2 (Np X))) in *. subst ps. exact Pl.
    Qed.

    Lemma goods Bs ts Bs' : Forall2 good Bs ts -> Permutation Bs Bs' -> exists ts', Forall2 good Bs' ts' /\ Permutation ts ts'.
    Proof. intros F P. destruct (forall2_permute good Bs' Bs (Permutation_sym P) ts F) as (ts' & F' & P'). exists ts'. split; [exact F'|symmetry; exact P']. Qed.

    Lemma permuted Bs Bs' : Permutation Bs Bs' -> forall pre tpre ts ds opts ps ws, Forall2 good pre tpre -> Forall2 good Bs ts ->
      (plugins -> Forall (without K_Plugin) ts) -> holds (pre ++ Bs) ds opts ps ws ->
      exists ds' opts' ps' ws', holds (pre ++ Bs') ds' opts' ps' ws' /\ rearranged plugins ds opts ps ws ds' opts' ps' ws'.
    Proof.
      induction 1 as [|x l l' P IH|x y l|l l' l2 P IH P' IH']; intros pre tpre ts ds opts ps ws Fp Fb Np H.
      - do 4 eexists. split; [exact H|apply rearranged_refl].
      - inversion Fb as [|? u ? ts' G F]; subst. replace (pre ++ x :: l) with ((pre ++ [x]) ++ l) in H by (rewrite <- app_assoc; reflexivity). replace (pre ++ x :: l') with ((pre ++ [x]) ++ l') by (rewrite <- app_assoc; reflexivity).
        eapply (IH (pre ++ [x]) (tpre ++ [u]) ts'); [apply Forall2_app; [exact Fp|constructor; [exact G|constructor]]|exact F|intro X; specialize (Np X); inversion Np; assumption|exact H].
      - inversion Fb as [|? u ? ts' G F]; subst. inversion F as [|? u' ? ts2 G' F']; subst. eapply (neighbours pre l tpre ts2); try eassumption. intro X. specialize (Np X). inversion Np as [|? ? N1 Np']; subst. inversion Np'; auto.
      - destruct (IH _ _ _ _ _ _ _ Fp Fb Np H) as (ds1 & opts1 & ps1 & ws1 & H1 & R1). destruct (goods _ _ _ Fb P) as (ts' & Fb' & Pt).
        destruct (IH' _ _ _ _ _ _ _ Fp Fb' ltac:(intro X; eapply Permutation_Forall; [exact Pt|exact (Np X)]) H1) as (ds2 & opts2 & ps2 & ws2 & H2 & R2).
        exists ds2, opts2, ps2, ws2. split; [exact H2|eapply rearranged_trans; eassumption].
    Qed.
  End From.

  (** Any number of blocks of lines, with nothing but directives and plugins in
      them, are put into any other order, in a text which is parsed successfully:
      it is again, with the same directives, plugins, options and warnings.  If
      of any two directives one must precede the other, then the directives are
      in the same order as well, and so are the plugins if none is in the
      blocks. *)
  Theorem C75_permute_text : forall fin la a Bs Bs' b ds opts ps ws,
    set_out L fin la a -> Forall block Bs -> remainder b -> Permutation Bs Bs' ->
    let c := a ++ nl ++ blocks Bs ++ b in
    fine_content L E 0 c -> says_no L K_Include c ->
    ledger_is L E canonicalize root c (Success ds opts ps ws) ->
    exists ds' opts' ps' ws',
      ledger_is L E canonicalize root (a ++ nl ++ blocks Bs' ++ b) (Success ds' opts' ps' ws') /\
      same_elements (fun x y => alike (item x) (item y)) ds ds' /\
      (untied ds -> Forall2 (fun x y => alike (item x) (item y)) ds ds') /\
      alike_options opts opts' /\
      same_elements alike_plugin ps ps' /\ (Forall (fun B => says_no L K_Plugin (B ++ nl)) Bs -> Forall2 alike_plugin ps ps') /\
      Permutation (map rp_problem ws) (map rp_problem ws').
  Proof.
    intros fin la a Bs Bs' b ds opts ps ws Ha FB Hb P c Fc Ni H. destruct (whole_tokens _ _ _ _ Ha Hb) as (t1 & t3 & E1 & N3 & W).
    assert (X : exists ts, Forall2 good Bs ts). { clear - FB U ND. induction FB as [|B Bs HB FB IH]; [exists []; constructor|]. destruct (block_good B HB) as (us & G), IH as (ts & F). exists (us :: ts). constructor; assumption. }
    destruct X as (ts & F).
    destruct (permuted a b t1 t3 E1 N3 (Forall (fun B => says_no L K_Plugin (B ++ nl)) Bs) W Bs Bs' P [] [] ts ds opts ps ws) as (ds' & opts' & ps' & ws' & (_ & _ & H') & R); [constructor|exact F| |repeat split; assumption|].
    - intro X. clear - F X. induction F as [|B us Bs ts G F IH]; [constructor|]. inversion X as [|? ? X1 X2]; subst. constructor; [eapply says_no_piece; [apply (g_piece _ _ G)|exact X1]|exact (IH X2)].
    - exists ds', opts', ps', ws'. split; [exact H'|exact R].
  Qed.
End Permute.

Print Assumptions C75_permute_text.

(** Three blocks, the first of two lines, after an option and at the end of the
    text, with directives of different dates. *)
Example C75_ex_permute : exists ds opts ps ws,
  let a := lines_text [kw K_Option; quoted (lit "title"); quoted (lit "x")] [] in
  let B1 := lines_text ex_notes [(false, [kw K_Plugin; quoted (lit "p")])] in let B2 := lines_text (ex_date :: ex_opens) ex_keys in
  let B3 := lines_text [on (lit "2024-01-03") (mk_date 2024 1 3); kw K_Commodity; (lit "USD", T_Currency (lit "USD"))] [] in
  let c := a ++ nl ++ blocks [B1; B2; B3] ++ [] in
  set_out P_Lexer.ex_env false [(false, [kw K_Option; quoted (lit "title"); quoted (lit "x")])] a /\ Forall (block P_Lexer.ex_env) [B1; B2; B3] /\ remainder P_Lexer.ex_env [] /\
  Permutation [B1; B2; B3] [B3; B1; B2] /\ fine_content P_Lexer.ex_env P_Grammar.ex_env 0 c /\ says_no P_Lexer.ex_env K_Include c /\
  ledger_is P_Lexer.ex_env P_Grammar.ex_env (fun p => Some p) None c (Success ds opts ps ws) /\ List.length ds = 3 /\ untied ds /\ List.length ps = 1.
Proof.
  set (a := lines_text [kw K_Option; quoted (lit "title"); quoted (lit "x")] []). set (B1 := lines_text ex_notes [(false, [kw K_Plugin; quoted (lit "p")])]). set (B2 := lines_text (ex_date :: ex_opens) ex_keys).
  set (B3 := lines_text [on (lit "2024-01-03") (mk_date 2024 1 3); kw K_Commodity; (lit "USD", T_Currency (lit "USD"))] []).
  destruct (ex_ledger_success (a ++ nl ++ blocks [B1; B2; B3] ++ []) ltac:(vm_compute; exact Logic.I)) as (ds & opts & ps & ws & H & Q).
  exists ds, opts, ps, ws. cbn zeta. split; [apply lines_out; vm_compute; reflexivity|]. split.
  { repeat constructor.
    1,3,5: exists false; do 2 eexists; match goal with |- starts_afresh _ _ _ _ ?x => rewrite <- (app_nil_r x) end; apply (lines_afresh false); vm_compute; reflexivity.
    all: intros k Hk; cbn in Hk; repeat (destruct Hk as [<-|Hk]; [apply check_no; vm_compute; reflexivity|]); destruct Hk. }
  split; [left; reflexivity|]. split; [symmetry; apply (Permutation_cons_append [B1; B2] B3)|]. split; [apply check_content_ok; vm_compute; reflexivity|]. split; [apply check_no; vm_compute; reflexivity|]. split; [exact H|]. clear H.
  vm_compute in Q. injection Q as <- _ <- _. split; [reflexivity|]. split; [|reflexivity].
  intros [|[|[|[|i]]]] [|[|[|[|j]]]] x y Ne Hx Hy; cbn in Hx, Hy; try congruence; injection Hx as <-; injection Hy as <-; intros [T1 T2];
    (exfalso; (apply T1 + apply T2); left; right; split; [reflexivity|right; split; [reflexivity|reflexivity]]).
Qed.

(** Without that condition the order may be another: two notes of the same day
    are returned in the order in which they are written. *)
Theorem C75_tied_refuted : exists L E A B dsA optsA psA wsA dsB optsB psB wsB,
  unicode_ok (le_unicode L) /\ environment_ok E /\ Forall (block L) [A; B] /\
  ledger_is L E (fun p => Some p) None ([] ++ nl ++ blocks [A; B] ++ []) (Success dsA optsA psA wsA) /\
  ledger_is L E (fun p => Some p) None ([] ++ nl ++ blocks [B; A] ++ []) (Success dsB optsB psB wsB) /\
  ~ Forall2 (fun x y => alike (item x) (item y)) dsA dsB.
Proof.
  set (w := fun s => [on (lit "2024-01-01") (mk_date 2024 1 1); kw K_Note; acc (lit "Assets:Cash"); quoted s]).
  set (A := lines_text (w (lit "a")) []). set (B := lines_text (w (lit "b")) []).
  destruct (ex_ledger_success ([] ++ nl ++ blocks [A; B] ++ []) ltac:(vm_compute; exact Logic.I)) as (dsA & optsA & psA & wsA & HA & QA).
  destruct (ex_ledger_success ([] ++ nl ++ blocks [B; A] ++ []) ltac:(vm_compute; exact Logic.I)) as (dsB & optsB & psB & wsB & HB & QB).
  exists P_Lexer.ex_env, P_Grammar.ex_env, A, B, dsA, optsA, psA, wsA, dsB, optsB, psB, wsB.
  split; [exact P_Lexer.arabic_ok|]. split; [exact P_File.ex_environment|]. split.
  { repeat constructor.
    1,3: exists false; do 2 eexists; match goal with |- starts_afresh _ _ _ _ ?x => rewrite <- (app_nil_r x) end; apply (lines_afresh false); vm_compute; reflexivity.
    all: intros k Hk; cbn in Hk; repeat (destruct Hk as [<-|Hk]; [apply check_no; vm_compute; reflexivity|]); destruct Hk. }
  split; [exact HA|]. split; [exact HB|]. clear HA HB. vm_compute in QA, QB. injection QA as <- _ _ _. injection QB as <- _ _ _. intro F. inversion F as [|? ? ? ? [_ _ V] _]; subst. inversion V; subst.
  match goal with H : same_item _ _ |- _ => discriminate H end.
Qed.
Print Assumptions C75_tied_refuted.
