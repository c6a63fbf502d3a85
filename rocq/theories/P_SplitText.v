(** * C78 for texts of words on lines: some lines are moved into a file *)
From Coq Require Import String Ascii.
From Coq Require Import List NArith ZArith Arith Bool Lia Permutation.
From Verif Require Import Base BaseFacts Text Path PathFacts SpecPath Sources Types SpecTypes Options SpecOptions Pragma SpecPragma Read SpecRead ReadFacts P_Read
  Token LexPost SpecLex Lexer SpecLexer LexerFacts P_Lexer DisplayLex SpecLayout LayoutLex Grammar SpecGrammar SpecDirective SpecDisplay SpecLedger SpecAlike P_Grammar
  Parse SpecParse SpecWhole ParseFacts P_File P_Includes P_Parse IncludeTokens P_Order SpecPaste Paste Parts P_Paste SpecAppend Append SpecLocal Local P_Append P_Local TextLines P_Text SpecSplit Split P_PasteNeeds P_Split P_Swap P_Block P_BlockText P_Complete.
Import SpecPragma Read SpecLayout.
Import ListNotations.
Local Open Scope nat_scope.
Local Notation tok := SpecGrammar.tok.
Local Notation ended := SpecAppend.ended.
Local Notation nl := [10%N].

(** There is one include in these tokens. *)
Lemma included_one I a t b : map fst (in_tokens I) = a ++ T_Keyword K_Include :: T_String t :: b -> without K_Include a -> without K_Include b -> included_strings I = [t].
Proof.
  intros Q Na Nb. assert (Ln : List.length (in_tokens I) = List.length a + (1 + S (List.length b))) by (rewrite <- (map_length fst), Q, app_length; cbn; lia).
  assert (At : forall k, nth_error (map fst (in_tokens I)) k = nth_error (a ++ T_Keyword K_Include :: T_String t :: b) k) by (intro k; rewrite Q; reflexivity).
  assert (No : forall k, k <> List.length a -> included_at I k = []).
  { intros k Nk. unfold included_at. destruct (nth_error (in_tokens I) k) as [[u r]|] eqn:X; [|reflexivity]. apply (map_nth_error fst) in X. rewrite At in X. cbn [fst] in X.
    destruct u; try reflexivity. match goal with x : keyword |- _ => destruct x; try reflexivity end. exfalso.
    destruct (Nat.lt_ge_cases k (List.length a)) as [Lt|Ge]; [rewrite nth_error_app1 in X by exact Lt; apply Na; exact (nth_error_In _ _ X)|].
    rewrite nth_error_app2 in X by exact Ge. destruct (k - List.length a) as [|[|m]] eqn:Qm; [lia|discriminate X|]. cbn in X. apply Nb. exact (nth_error_In _ _ X). }
  assert (Z : forall m k, (List.length a < k \/ k + m <= List.length a) -> flat_map (included_at I) (seq k m) = []).
  { induction m as [|m IH]; intros k Hk; [reflexivity|]. cbn [seq flat_map]. rewrite No by lia. apply IH. lia. }
  unfold included_strings. rewrite Ln. rewrite seq_app, flat_map_app. rewrite (Z (List.length a) 0) by lia. cbn [app]. rewrite seq_app, flat_map_app, (Z (S (List.length b)) (0 + List.length a + 1)) by lia.
  cbn [seq flat_map Nat.add]. rewrite !app_nil_r. pose proof (At (List.length a)) as A0. pose proof (At (S (List.length a))) as A1.
  rewrite nth_error_app2 in A0 by lia. rewrite Nat.sub_diag in A0. rewrite nth_error_app2 in A1 by lia. replace (S (List.length a) - List.length a) with 1 in A1 by lia.
  unfold included_at. rewrite nth_error_map in A0. rewrite nth_error_map in A1. destruct (nth_error (in_tokens I) (List.length a)) as [[u r]|]; [|discriminate A0]. destruct (nth_error (in_tokens I) (S (List.length a))) as [[u' r']|]; [|discriminate A1].
  cbn in A0, A1. injection A0 as ->. injection A1 as ->. reflexivity.
Qed.

Section Texts.
  Context (L : lexer_env) (E : grammar_env) (En : environment_ok E) (U : unicode_ok (le_unicode L))
          (ND : forall c, u_Nd (le_unicode L) c = true -> u_Lu (le_unicode L) c = false /\ u_Lo (le_unicode L) c = false).
  Context (glob_with : str -> result (list glob_item) str) (canonicalize : path -> option path) (read : path -> result str str).
  Context (Cano : forall p q c d, same_path p q -> canonicalize p = Some c -> canonicalize q = Some d -> same_path c d).
  Context (Glob : glob_agrees glob_with).
  Context (root : option path).

  (** Some lines are moved into the file [name], and a line which includes it is
      put in their place.  Then the root file and [name] are read, and nothing
      else, and parsed as the text was. *)
  Theorem C78_move_text : forall fin l1 a fB wB lB B w3 l3 b fi wi wt txt i name cname fuel ds opts ps ws,
    set_out L fin l1 a -> starts_afresh L fB wB lB B -> starts_afresh L true w3 l3 b ->
    starts_afresh L fi [(wi, T_Keyword K_Include); (wt, T_String txt)] [] i ->
    let c := a ++ nl ++ B ++ nl ++ b in let c' := a ++ nl ++ i ++ nl ++ b in
    glob_with (resolve_included_path root txt) = Ok [G_Ok name] -> read name = Ok (B ++ nl) ->
    canonicalize name = Some cname -> (forall p, root = Some p -> exists q, canonicalize p = Some q /\ ~ same_path cname q) ->
    (forall ts, lex L (B ++ nl) = Fine (Some ts) -> ~ sets_rules (input_of 0 (B ++ nl) ts) /\ ~ sets_documents (input_of 0 (B ++ nl) ts)) ->
    (forall ts, lex L b = Fine (Some ts) -> ~ sets_rules (input_of 0 b ts)) ->
    fine_content L E 0 c -> says_no L K_Include c ->
    ledger_is L E canonicalize root c (Success ds opts ps ws) ->
    exists s toks ds' opts' ps' ws' more,
      read_with_includes (includes_of L) glob_with canonicalize read (S fuel) root c' = Some s /\
      content_iter s = [(0, root, c'); (1, Some name, B ++ nl)] /\ parser_new L s = Fine (Some toks) /\
      parse E canonicalize s toks = Fine (Some (Success ds' opts' ps' ws')) /\
      Forall2 (fun d d' => alike (item d) (item d')) ds ds' /\ alike_options opts opts' /\ Forall2 alike_plugin ps ps' /\
      Permutation (map rp_problem ws') (map rp_problem ws ++ more) /\
      Forall (fun p => exists by_default limit, p = StringTooLong by_default limit (lines_of txt)) more.
  Proof.
    intros fin l1 a fB wB lB B w3 l3 b fi wi wt txt i name cname fuel ds opts ps ws Ha HB Hb Hi c c' G Rn Cn Cr NB Nb Fc Ni H.
    destruct (piece_set_out L U ND _ _ _ Ha) as [Pa E1]. destruct (piece_set_out L U ND _ _ _ (afresh_out L _ _ _ _ HB)) as [PB _].
    destruct (piece_afresh L U ND _ _ _ _ HB) as (_ & QB & _ & NeB). destruct (piece_afresh L U ND _ _ _ _ Hb) as (_ & Qb & _ & Neb). pose proof (piece_last L U ND _ _ _ Hb) as Pb.
    pose proof (piece_three L U ND _ _ _ _ _ _ _ _ _ _ Ha HB Hb) as P. fold c in P. pose proof (piece_three L U ND _ _ _ _ _ _ _ _ _ _ Ha Hi Hb) as P'. fold c' in P'.
    change (ledger_tokens true [(false, [(wi, T_Keyword K_Include); (wt, T_String txt)])]) with [T_Keyword K_Include; T_String txt; T_Eol] in P'.
    pose proof (says_no_piece L _ _ _ P Ni) as Ni3. pose proof (tokens_afresh _ lB QB NeB) as AB. pose proof (tokens_afresh _ l3 Qb Neb) as Ab.
    set (t1 := ledger_tokens true l1) in *. set (t2 := ledger_tokens true ((false, wB) :: lB)) in *. set (t3 := ledger_tokens true ((false, w3) :: l3)) in *.
    assert (Ni' : without K_Include t1 /\ without K_Include t2 /\ without K_Include t3) by (unfold without in *; rewrite !in_app_iff in Ni3; tauto). destruct Ni' as (N1 & N2 & N3). clear Ni3.
    assert (A1 : afresh_next t1).
    { unfold t1. destruct Ha as [|? k w ls ? o g s0 rest _ _ W Bg _ _]; [intros vs X; discriminate X|]. pose proof (tokens_afresh w ls (worded_plain L _ _ _ W)) as X. rewrite ledger_tokens_ended in *. apply X.
      destruct Bg as (? & ? & ? & -> & _). discriminate. }
    destruct P as (tc & Lx & Tc). destruct P' as (tc' & Lx' & Tc'). destruct PB as (te & LxE & Te).
    assert (Ic : includes_of L c' = [txt]).
    { unfold includes_of. rewrite C38_includes, Lx'. apply (included_one (input_of 0 c' tc') t1 txt (T_Eol :: t3)); [exact Tc'|exact N1|]. intros [X|X]; [discriminate|exact (N3 X)]. }
    assert (IB : includes_of L (B ++ nl) = []).
    { unfold includes_of. rewrite C38_includes, LxE. destruct (included_strings (input_of 0 (B ++ nl) te)) as [|x l] eqn:X; [reflexivity|]. exfalso.
      assert (Hx : In x (included_strings (input_of 0 (B ++ nl) te))) by (rewrite X; left; reflexivity). apply in_included in Hx. destruct Hx as (k & [r Tr] & _). apply nth_error_In in Tr.
      apply N2. rewrite <- Te. exact (in_map fst _ _ Tr). }
    set (s := mk_sources root c' (char_offs 0 c') [(resolve_included_path root txt, Expanded [name])] [(name, Content 1 (B ++ nl) (char_offs 0 (B ++ nl)))]
      [match root with Some p => p | None => lit "inline" end; name]).
    assert (Rd : read_with_includes (includes_of L) glob_with canonicalize read (S fuel) root c' = Some s).
    { unfold read_with_includes, read_start, resolved_includes. rewrite Ic. cbn [map read_loop rd_pending]. unfold read_include. cbn [rd_names rd_pending rd_globs rd_content rd_canonical]. rewrite G. cbn [fold_left read_item]. rewrite Cn.
      assert (M : mem path_eqb cname match root with Some p => match canonicalize p with Some c0 => [c0] | None => [] end | None => [] end = false).
      { destruct root as [p|]; [|reflexivity]. destruct (Cr p eq_refl) as (q & -> & Nq). cbn. destruct (path_eqb cname q) eqn:X; [|reflexivity]. exfalso. apply Nq. apply path_eqb_eq. exact X. }
      cbn [rd_canonical]. rewrite M. rewrite Rn. cbn [rd_names rd_pending rd_globs rd_content rd_canonical map item_path app List.length insert]. unfold resolved_includes. rewrite IB. cbn [map app].
      destruct fuel; reflexivity. }
    assert (Rs : reads_to (includes_of L) glob_with canonicalize read (S fuel) root c' s) by (exists s; rewrite Rd; repeat split; reflexivity).
    assert (Root : forall p, root = Some p -> canonicalize p <> None) by (intros p Qp; destruct (Cr p Qp) as (q & -> & _); discriminate).
    assert (Tk : tokens_of L (content_iter s) [(root, map fst tc'); (Some name, map fst te)]).
    { constructor; [|constructor; [|constructor]]; (split; [reflexivity|]); eexists; (split; [eassumption|reflexivity]). }
    assert (Sp : spread glob_with [(Some name, map fst te)] root (map fst tc') (map fst tc) []).
    { rewrite Te, Tc, Tc'. assert (X : exists us, t2 = us ++ [T_Eol]) by (unfold t2; rewrite ledger_tokens_ended; eexists; rewrite app_assoc; reflexivity). destruct X as (us & X). rewrite X in *.
      apply (spread_one glob_with name root txt [G_Ok name] name); auto; [|reflexivity]. intro Y. apply N2. apply in_or_app. left. exact Y. }
    destruct (C78_split L E En U glob_with canonicalize read Cano Glob (S fuel) root c' s Rs Root _ _ c tc _ _ _ _ H Fc Lx Tk Sp) as (toks & ds' & opts' & ps' & ws' & more & Pn & Ps & A & Bo & Bp & Pe & Mo).
    - intros ts X. rewrite Lx' in X. injection X as <-. intros x y Tx Lt (nm & v & T0 & T1 & T2 & Hin). destruct Pb as (tb & Lxb & Tb). apply (Nb tb Lxb).
      assert (Hx : x = List.length t1).
      { apply (tokens_at (input_of 0 c' tc') _ _ _ Tc') in Tx. destruct (Nat.lt_trichotomy x (List.length t1)) as [Y|[Y|Y]]; [|exact Y|]; exfalso.
        - rewrite nth_error_app1 in Tx by exact Y. exact (N1 (nth_error_In _ _ Tx)).
        - rewrite nth_error_app2 in Tx by lia. destruct (x - List.length t1) as [|[|[|m]]] eqn:Qm; [lia|discriminate Tx|discriminate Tx|]. cbn in Tx. exact (N3 (nth_error_In _ _ Tx)). }
      assert (Sh : forall k t, tok (input_of 0 c' tc') k t -> List.length t1 + 3 <= k -> tok (input_of 0 b tb) (k - (List.length t1 + 3)) t).
      { intros k t Hk Le. apply (tokens_at (input_of 0 c' tc') _ _ _ Tc') in Hk. apply (tokens_at (input_of 0 b tb) _ _ _ Tb). rewrite app_assoc, nth_error_app2 in Hk by (rewrite app_length; cbn; lia). rewrite app_length in Hk. exact Hk. }
      assert (Hy : List.length t1 + 3 <= y).
      { apply (tokens_at (input_of 0 c' tc') _ _ _ Tc') in T0. rewrite nth_error_app2 in T0 by lia. destruct (y - List.length t1) as [|[|[|m]]] eqn:Qm; [lia|discriminate T0|discriminate T0|lia]. }
      exists (y - (List.length t1 + 3)), nm, v. split; [apply Sh; [exact T0|exact Hy]|].
      split; [replace (S (y - (List.length t1 + 3))) with (S y - (List.length t1 + 3)) by lia; apply Sh; [exact T1|lia]|].
      split; [replace (S (S (y - (List.length t1 + 3)))) with (S (S y) - (List.length t1 + 3)) by lia; apply Sh; [exact T2|lia]|exact Hin].
    - intros id f cc ts Hin X. cbn in Hin. destruct Hin as [Y|[]]. injection Y as <- <- <-. exact (NB ts X).
    - exists s, toks, ds', opts', ps', ws', more. split; [exact Rd|]. split; [reflexivity|]. repeat (split; [assumption|]).
      rewrite Forall_forall in Mo |- *. intros p Hp. destruct (Mo p Hp) as (bd & lim & t & (id & f & cc & Hin & Ht) & ->). exists bd, lim.
      cbn in Hin. destruct Hin as [Y|[Y|[]]]; injection Y as <- <- <-; [rewrite Ic in Ht; destruct Ht as [<-|[]]; reflexivity|rewrite IB in Ht; destruct Ht].
  Qed.
End Texts.

(** ** A case: lines with a directive and a plugin are moved *)
Definition ex_include : list word := [kw K_Include; quoted (lit "b.bean")].
Example C78_ex_text : exists ds opts ps ws,
  let a := text_of P_BlockText.ex_first in let B := text_of ex_block in let b := line_text ex_notes ++ nl in let i := line_text ex_include in
  let c := a ++ nl ++ B ++ nl ++ b in
  let read := by_name (lit "b.bean") (B ++ nl) in
  i = lit "include ""b.bean""" /\
  set_out P_Lexer.ex_env false ((false, fst P_BlockText.ex_first) :: snd P_BlockText.ex_first) a /\ starts_afresh P_Lexer.ex_env false (fst ex_block) (snd ex_block) B /\ starts_afresh P_Lexer.ex_env true ex_notes [] b /\
  starts_afresh P_Lexer.ex_env false ex_include [] i /\
  glob_agrees ex_glob /\ ex_glob (resolve_included_path None (lit "b.bean")) = Ok [G_Ok (lit "b.bean")] /\ read (lit "b.bean") = Ok (B ++ nl) /\
  (forall ts, lex P_Lexer.ex_env (B ++ nl) = Fine (Some ts) -> ~ sets_rules (input_of 0 (B ++ nl) ts) /\ ~ sets_documents (input_of 0 (B ++ nl) ts)) /\
  (forall ts, lex P_Lexer.ex_env b = Fine (Some ts) -> ~ sets_rules (input_of 0 b ts)) /\
  fine_content P_Lexer.ex_env P_Grammar.ex_env 0 c /\ says_no P_Lexer.ex_env K_Include c /\
  ledger_is P_Lexer.ex_env P_Grammar.ex_env (fun p => Some p) None c (Success ds opts ps ws) /\ List.length ds = 3 /\ List.length ps = 1.
Proof.
  set (a := text_of P_BlockText.ex_first). set (B := text_of ex_block). set (b := line_text ex_notes ++ nl). set (i := line_text ex_include).
  destruct (ex_ledger_success (a ++ nl ++ B ++ nl ++ b) ltac:(vm_compute; exact Logic.I)) as (ds & opts & ps & ws & HA & QA).
  exists ds, opts, ps, ws. cbn zeta. split; [vm_compute; reflexivity|].
  split; [apply lines_out; vm_compute; reflexivity|]. split; [unfold B, text_of; rewrite <- (app_nil_r (lines_text _ _)); apply (lines_afresh false); vm_compute; reflexivity|].
  split; [unfold b; rewrite <- (app_nil_r (line_text ex_notes)); apply (lines_afresh true ex_notes []); vm_compute; reflexivity|].
  split; [change i with (text_of (ex_include, [])); unfold text_of; rewrite <- (app_nil_r (lines_text _ _)); apply (lines_afresh false ex_include []); vm_compute; reflexivity|].
  split; [destruct ex_complete as (? & ? & ? & ? & X & _); exact X|]. split; [vm_compute; reflexivity|]. split; [reflexivity|].
  split; [intros ts Lx; vm_compute in Lx; injection Lx as <-; split; [apply P_Order.check_rules_ok|apply check_documents_ok]; vm_compute; reflexivity|].
  split; [intros ts Lx; apply P_Order.check_rules_ok; vm_compute in Lx; injection Lx as <-; vm_compute; reflexivity|].
  split; [apply check_content_ok; vm_compute; reflexivity|]. split; [apply check_no; vm_compute; reflexivity|].
  split; [exact HA|]. split; [clear - QA; vm_compute in QA; injection QA as <- _ _ _; reflexivity|clear - QA; vm_compute in QA; injection QA as _ _ <- _; reflexivity].
Qed.

Print Assumptions C78_move_text.
