(** * C73 to C75, said of texts *)
From Coq Require Import String Ascii.
From Coq Require Import List NArith ZArith Arith Bool Lia Permutation.
From Verif Require Import Base BaseFacts Text Path PathFacts Sources Types SpecTypes TypesFacts P_Types SortM SpecSort P_Sort Options SpecOptions OptionsFacts P_Options
  Pragma SpecPragma PragmaRun P_Pragma Read SpecRead ReadFacts P_Read
  Token Lexer SpecLexer P_Lexer Peg PegFacts Grammar SpecExpr SpecGrammar SpecDirective SpecDisplay SpecLedger SpecAlike P_Grammar
  Parse SpecParse SpecWhole P_File P_Parse P_Order SpecPaste P_Paste SpecLayout P_Words
  SpecAppend AppendText P_Append SpecLocal Parts P_Local SpecWrap P_Wrap SpecSwap P_Swap TextLines.
Import SpecPragma Read.
Import ListNotations.
Local Open Scope nat_scope.
Local Notation tok := SpecGrammar.tok.
Local Notation ended := SpecAppend.ended.
Local Notation nl := [10%N].

Section Texts.
  Context (L : lexer_env) (E : grammar_env) (En : environment_ok E) (U : unicode_ok (le_unicode L)).
  Context (ND : forall c, u_Nd (le_unicode L) c = true -> u_Lu (le_unicode L) c = false /\ u_Lo (le_unicode L) c = false).
  Context (canonicalize : path -> option path) (root : option path).
  Context (Cano : forall p q c d, same_path p q -> canonicalize p = Some c -> canonicalize q = Some d -> same_path c d).
  Context (Root : forall p, root = Some p -> canonicalize p <> None).

  (** No token of the text is this keyword. *)
  Definition says_no (k : keyword) (s : str) : Prop := forall ts, lex L s = Fine (Some ts) -> without k (map fst ts).
  Lemma says_no_piece k s us : piece L s us -> says_no k s -> without k us.
  Proof. intros (ts & Lx & <-) H. exact (H ts Lx). Qed.

  (** What sets a rule in lines sets it in a text which starts with them. *)
  Lemma rules_in_piece I s us more : ended us -> piece L s us -> map fst (in_tokens I) = us ++ more ->
    (forall ts, lex L s = Fine (Some ts) -> ~ sets_rules (input_of 0 s ts)) -> forall x, x < List.length us -> ~ sets_rule_at I x.
  Proof using L.
    clear - L. intros [->|(vs & Eu)] (ts & Lx & Ms) Q H x Hx (name & value & T0 & T1 & T2 & Hin); [cbn in Hx; lia|].
    assert (At : forall k t, tok I k t -> k < List.length us -> tok (input_of 0 s ts) k t).
    { intros k t Hk Lk. apply (tokens_at I _ _ _ Q) in Hk. apply (tokens_at (input_of 0 s ts) us _ _ Ms). rewrite nth_error_app1 in Hk by exact Lk. exact Hk. }
    assert (Last : forall t, tok I (List.length vs) t -> t = T_Eol).
    { intros t Hk. apply (tokens_at I _ _ _ Q) in Hk. rewrite Eu, <- app_assoc, nth_error_app2, Nat.sub_diag in Hk by lia. injection Hk as <-. reflexivity. }
    assert (Lu : List.length us = S (List.length vs)) by (rewrite Eu, app_length; cbn; lia).
    assert (N0 : x <> List.length vs) by (intros ->; specialize (Last _ T0); discriminate).
    assert (N1 : S x <> List.length vs) by (intros Z; rewrite Z in T1; specialize (Last _ T1); discriminate).
    apply (H ts Lx). exists x, name, value. split; [apply At; auto|]. split; [apply At; auto; lia|]. split; [apply At; auto; lia|exact Hin].
  Qed.

  (** A warning about a string of the text which is too long. *)
  Definition long_string_of (s : str) (p : problem) : Prop :=
    exists ts text by_default limit, lex L s = Fine (Some ts) /\ In (T_String text) (map fst ts) /\ p = StringTooLong by_default limit (lines_of text).
  Lemma long_strings_of limit I s pre mid post : map fst (in_tokens I) = pre ++ mid ++ post -> piece L s mid ->
    Forall (long_string_of s) (map rp_problem (long_strings limit I (List.length pre) (List.length pre + List.length mid))).
  Proof using L.
    clear - L. intros Q (ts & Lx & Ms). apply Forall_forall. intros p Hp. apply in_map_iff in Hp. destruct Hp as (r & <- & Hr). unfold long_strings in Hr. apply in_flat_map in Hr. destruct Hr as (k & Hk & Hr).
    apply in_seq in Hk. destruct (nth_error (in_tokens I) k) as [[t [x y]]|] eqn:Z; [|destruct Hr]. assert (exists text, t = T_String text) as (text & ->) by (destruct t; try (destruct Hr; fail); eauto).
    destruct (lines_of text <=? allowed limit)%N; [destruct Hr|]. destruct Hr as [<-|[]]. exists ts, text. do 2 eexists. split; [exact Lx|]. split; [|reflexivity].
    apply (map_nth_error fst) in Z. cbn [fst] in Z. rewrite Q, nth_error_app2, nth_error_app1 in Z by lia. rewrite Ms. eapply nth_error_In. exact Z.
  Qed.

  (** Take the lines of a directive, a line which starts with a date and indented
      ones, out of a text between two other lines, and the others are read as
      before. *)
  Theorem C73_delete_text : forall fin la a fe w d we le e wb lb b ds opts ps ws,
    set_out L fin la a -> starts_afresh L fe ((w, T_Date d) :: we) le e -> Forall (fun l => fst l = true) le -> starts_afresh L true wb lb b ->
    let c := a ++ nl ++ e ++ nl ++ b in
    fine_content L E 0 c -> says_no K_Include c ->
    ledger_is L E canonicalize root c (Success ds opts ps ws) ->
    exists before x after ds' opts' ps' ws' more,
      ds = before ++ x :: after /\
      ledger_is L E canonicalize root (a ++ nl ++ b) (Success ds' opts' ps' ws') /\
      Forall2 (fun x y => alike (item x) (item y)) (before ++ after) ds' /\ alike_options opts opts' /\ Forall2 alike_plugin ps ps' /\
      Permutation (map rp_problem ws) (map rp_problem ws' ++ more) /\ Forall (long_string_of (e ++ nl)) more.
  Proof.
    intros fin la a fe w d we le e wb lb b ds opts ps ws Ha He Il Hb c Fc Ni H.
    destruct (piece_set_out L U ND _ _ _ Ha) as [_ Ea]. destruct (piece_afresh L U ND _ _ _ _ He) as (Pl & Pe & Ple & _). destruct (piece_afresh L U ND _ _ _ _ Hb) as (_ & Pb & _ & Nb).
    pose proof (piece_three L U ND _ _ _ _ _ _ _ _ _ _ Ha He Hb) as P3. fold c in P3. pose proof (piece_onto L U ND _ _ _ _ _ _ Ha Hb) as P2.
    pose proof (says_no_piece _ _ _ P3 Ni) as Ni3. destruct P3 as (tc & Lx & Tc). destruct P2 as (tc' & Lx' & Tc'). rewrite <- Tc in Ni3.
    destruct (C73_delete L E En U canonicalize root Cano Root _ _ _ _ _ _ _ _ _ _ _ Lx Lx' Tc Tc' Ea (entry_tokens d w we le Pe Ple Il) (tokens_afresh wb lb Pb Nb) Fc Ni3 H)
      as (before & x & after & ds' & opts' & ps' & ws' & limit & Q & _ & H' & A & O & P & W).
    exists before, x, after, ds', opts', ps', ws', (map rp_problem (long_strings limit (input_of 0 c tc) (List.length (ledger_tokens true la)) (List.length (ledger_tokens true la) + List.length (ledger_tokens true ((false, (w, T_Date d) :: we) :: le))))).
    do 5 (split; [assumption|]). split; [rewrite <- map_app; exact W|].
    eapply long_strings_of; [exact Tc|exact Pl].
  Qed.

  (** Put them there, and the others are read as before, if no rules are set
      before them. *)
  Theorem C73_insert_text : forall fin la a fe w d we le e wb lb b ds' opts' ps' ws' dsE optsE psE wsE,
    set_out L fin la a -> starts_afresh L fe ((w, T_Date d) :: we) le e -> Forall (fun l => fst l = true) le -> starts_afresh L true wb lb b ->
    let c := a ++ nl ++ e ++ nl ++ b in let c' := a ++ nl ++ b in
    fine_content L E 0 c' -> fine_content L E 0 (e ++ nl) -> says_no K_Include c ->
    (forall ts, lex L (a ++ nl) = Fine (Some ts) -> ~ sets_rules (input_of 0 (a ++ nl) ts)) ->
    ledger_is L E canonicalize root c' (Success ds' opts' ps' ws') -> ledger_is L E canonicalize root (e ++ nl) (Success dsE optsE psE wsE) ->
    exists before x after opts ps ws more,
      ledger_is L E canonicalize root c (Success (before ++ x :: after) opts ps ws) /\
      Forall2 (fun x y => alike (item x) (item y)) (before ++ after) ds' /\ alike_options opts opts' /\ Forall2 alike_plugin ps ps' /\
      Permutation (map rp_problem ws) (map rp_problem ws' ++ more) /\ Forall (long_string_of (e ++ nl)) more.
  Proof.
    intros fin la a fe w d we le e wb lb b ds' opts' ps' ws' dsE optsE psE wsE Ha He Il Hb c c' Fc' Fe Ni Nr H' HE.
    destruct (piece_set_out L U ND _ _ _ Ha) as [Pa Ea]. destruct (piece_afresh L U ND _ _ _ _ He) as (Pl & Pe & Ple & _). destruct (piece_afresh L U ND _ _ _ _ Hb) as (_ & Pb & _ & Nb).
    pose proof (piece_three L U ND _ _ _ _ _ _ _ _ _ _ Ha He Hb) as P3. fold c in P3. pose proof (piece_onto L U ND _ _ _ _ _ _ Ha Hb) as P2. fold c' in P2.
    pose proof (says_no_piece _ _ _ P3 Ni) as Ni3. destruct P3 as (tc & Lx & Tc). destruct P2 as (tc' & Lx' & Tc'). rewrite <- Tc in Ni3.
    pose proof Pl as Pl'. destruct Pl' as (te & LxE & Te). assert (Et : entry (map fst te)) by (rewrite Te; exact (entry_tokens d w we le Pe Ple Il)). rewrite <- Te in Tc.
    destruct (C73_insert L E En U canonicalize root Cano Root _ _ _ _ _ _ _ _ _ _ _ _ _ _ _ _ Lx Lx' LxE Tc Tc' Ea Et (tokens_afresh wb lb Pb Nb) Fc' Fe Ni3 (rules_in_piece (input_of 0 c' tc') _ _ _ Ea Pa Tc' Nr) H' HE)
      as (before & x & after & opts & ps & ws & limit & H & _ & A & O & P & W).
    exists before, x, after, opts, ps, ws, (map rp_problem (long_strings limit (input_of 0 c tc) (List.length (ledger_tokens true la)) (List.length (ledger_tokens true la) + List.length te))).
    do 4 (split; [assumption|]). split; [rewrite <- map_app; exact W|]. rewrite <- (map_length fst te). eapply long_strings_of; [exact Tc|]. rewrite Te. exact Pl.
  Qed.

  (** A text between a line which pushes a tag and one which pops it. *)
  Theorem C74_tag_text : forall t fp wp wp' p fb wb lb b wq wq' q ds opts ps ws,
    starts_afresh L fp [(wp, T_Keyword K_Pushtag); (wp', T_Tag t)] [] p -> starts_afresh L fb wb lb b -> starts_afresh L true [(wq, T_Keyword K_Poptag); (wq', T_Tag t)] [] q ->
    tag_link_lang (g_unicode E) t -> says_no K_Include (b ++ nl) -> fine_content L E 0 (b ++ nl) ->
    ledger_is L E canonicalize root (b ++ nl) (Success ds opts ps ws) ->
    exists ds' opts' ps' ws', ledger_is L E canonicalize root (p ++ nl ++ b ++ nl ++ q) (Success ds' opts' ps' ws') /\
      Forall2 (fun x y => with_tag t (item x) (item y)) ds ds' /\ alike_options opts opts' /\ Forall2 alike_plugin ps ps' /\ map rp_problem ws = map rp_problem ws'.
  Proof.
    intros t fp wp wp' p fb wb lb b wq wq' q ds opts ps ws Hp Hb Hq Tl Ni Fb H. pose proof (piece_three L U ND _ _ _ _ _ _ _ _ _ _ (afresh_out L _ _ _ _ Hp) Hb Hq) as (tc & Lc & Tc).
    destruct (piece_afresh L U ND _ _ _ _ Hb) as ((tb & Lb & Tb) & _). destruct (piece_set_out L U ND _ _ _ (afresh_out L _ _ _ _ Hb)) as [_ Eb]. rewrite <- Tb in Tc, Eb.
    exact (C74_tag L E En U canonicalize root Cano Root t _ _ _ _ _ _ _ _ Lb Lc Tc Tl Eb (Ni _ Lb) Fb H).
  Qed.

  (** Two blocks of lines change places. *)
  Theorem C75_swap_text : forall fin l1 a fA wA lA A fB wB lB B w3 l3 b ds opts ps ws,
    set_out L fin l1 a -> starts_afresh L fA wA lA A -> starts_afresh L fB wB lB B -> starts_afresh L true w3 l3 b ->
    let c := a ++ nl ++ A ++ nl ++ B ++ nl ++ b in
    (forall k, In k [K_Option; K_Pushtag; K_Poptag; K_Pushmeta; K_Popmeta] -> says_no k (A ++ nl) /\ says_no k (B ++ nl)) ->
    fine_content L E 0 c -> says_no K_Include c ->
    ledger_is L E canonicalize root c (Success ds opts ps ws) ->
    exists ds' opts' ps' ws' m y1 yA yB y3 p1 pA pB p3,
      ledger_is L E canonicalize root (a ++ nl ++ B ++ nl ++ A ++ nl ++ b) (Success ds' opts' ps' ws') /\
      sorted_from (y1 ++ yA ++ yB ++ y3) ds /\ sorted_from (y1 ++ yB ++ yA ++ y3) m /\ Forall2 (fun x y => alike (item x) (item y)) m ds' /\
      ((forall x y, In x yA -> In y yB -> ~ tied (item x) (item y)) -> m = ds) /\
      alike_options opts opts' /\
      ps = p1 ++ pA ++ pB ++ p3 /\ Forall2 alike_plugin (p1 ++ pB ++ pA ++ p3) ps' /\ (says_no K_Plugin (A ++ nl) -> pA = []) /\ (says_no K_Plugin (B ++ nl) -> pB = []) /\
      Permutation (map rp_problem ws) (map rp_problem ws').
  Proof.
    intros fin l1 a fA wA lA A fB wB lB B w3 l3 b ds opts ps ws Ha HA HB Hb c Qu Fc Ni H.
    destruct (piece_set_out L U ND _ _ _ Ha) as [_ E1]. destruct (piece_set_out L U ND _ _ _ (afresh_out L _ _ _ _ HA)) as [PA EA]. destruct (piece_set_out L U ND _ _ _ (afresh_out L _ _ _ _ HB)) as [PB EB].
    destruct (piece_afresh L U ND _ _ _ _ HA) as (_ & QA & _ & NA). destruct (piece_afresh L U ND _ _ _ _ HB) as (_ & QB & _ & NB). destruct (piece_afresh L U ND _ _ _ _ Hb) as (_ & Qb & _ & Nb).
    pose proof (piece_three L U ND _ _ _ _ _ _ _ _ _ _ Ha HA (afresh_onto L U _ _ _ _ _ _ _ HB Hb)) as P. rewrite app_comm_cons, tokens_onto in P. fold c in P.
    pose proof (piece_three L U ND _ _ _ _ _ _ _ _ _ _ Ha HB (afresh_onto L U _ _ _ _ _ _ _ HA Hb)) as P'. rewrite app_comm_cons, tokens_onto in P'.
    pose proof (says_no_piece _ _ _ P Ni) as Ni3. destruct P as (tc & Lx & Tc). destruct P' as (tc' & Lx' & Tc'). rewrite <- Tc in Ni3.
    assert (Qt : quiet (ledger_tokens true ((false, wA) :: lA)) /\ quiet (ledger_tokens true ((false, wB) :: lB))).
    { unfold quiet. repeat split; (eapply says_no_piece; [eassumption|]); (apply Qu; cbn; tauto). }
    destruct (C75_swap L E En U canonicalize root Cano Root _ _ _ _ _ _ _ _ _ _ _ _ Lx Lx' Tc Tc' E1 EA EB (tokens_afresh _ _ QA NA) (tokens_afresh _ _ QB NB) (tokens_afresh _ _ Qb Nb) (proj1 Qt) (proj2 Qt) Fc Ni3 H)
      as (ds' & opts' & ps' & ws' & m & y1 & yA & yB & y3 & p1 & pA & pB & p3 & H' & S1 & S2 & Al & _ & _ & Ti & O & Qp & Pl & NoA & NoB & W).
    exists ds', opts', ps', ws', m, y1, yA, yB, y3, p1, pA, pB, p3. do 8 (split; [assumption|]).
    split; [intro X; apply NoA; eapply says_no_piece; eassumption|]. split; [intro X; apply NoB; eapply says_no_piece; eassumption|]. exact W.
  Qed.
End Texts.

Print Assumptions C73_delete_text.
Print Assumptions C73_insert_text.
Print Assumptions C74_tag_text.
Print Assumptions C75_swap_text.

(** ** Examples *)

Lemma lexeme_of w t : raw_lex P_Lexer.ex_env w = Fine (Some [(Ok t, (0, blen w))]) -> lexeme P_Lexer.ex_env w (SpecLexer.tok t).
Proof.
  intro H. pose proof (C30_maximal_munch P_Lexer.ex_env P_Lexer.arabic_ok w) as M. rewrite H in M.
  assert (G : forall off s l, cut (lexeme P_Lexer.ex_env) off s l -> l = [(Ok t, (off, off + blen s))] -> lexeme P_Lexer.ex_env s (SpecLexer.tok t)).
  { intros off s l X. destruct X as [|off u rest l L0 B X|off u rest x l L0 B X|off u rest l L0 B X]; intro Q; try discriminate Q.
    - exfalso. assert (Z : forall off s l, cut (lexeme P_Lexer.ex_env) off s l -> forall x a b, In (x, (a, b)) l -> off <= a).
      { clear. induction 1 as [|off u rest l L0 B X IH|off u rest x l L0 B X IH|off u rest l L0 B X IH]; intros y a b I1; [destruct I1|specialize (IH _ _ _ I1); lia| |];
          (destruct I1 as [Q|I1]; [injection Q as _ <- _; lia|specialize (IH _ _ _ I1); lia]). }
      specialize (Z _ _ _ X (Ok t) off (off + blen (u ++ rest))). rewrite Q in Z. specialize (Z (or_introl eq_refl)). destruct L0 as (Nu & _). destruct u as [|c u]; [congruence|].
      pose proof (utf8_len_pos c). cbn in Z. lia.
    - injection Q as -> Qb ->. rewrite blen_app in Qb. assert (Z : blen rest = 0) by lia. apply blen_zero in Z. rewrite Z, app_nil_r. exact B. }
  exact (G 0 w _ M eq_refl).
Qed.

Definition check_word (x : word) : bool :=
  match raw_lex P_Lexer.ex_env (fst x) with
  | Fine (Some [(Ok t, (0, n))]) => if token_eq_dec t (snd x) then (n =? blen (fst x)) && negb (is_eol t) else false
  | _ => false
  end.
Lemma check_word_ok x : check_word x = true -> lexeme P_Lexer.ex_env (fst x) (SpecLexer.tok (snd x)) /\ is_eol (snd x) = false.
Proof.
  unfold check_word. destruct (raw_lex P_Lexer.ex_env (fst x)) as [[[|[[t|] [[|a] n]] [|? ?]]|]|] eqn:R; try discriminate. destruct (token_eq_dec t (snd x)) as [->|]; [|discriminate].
  intro H. apply andb_true_iff in H. destruct H as [H1 H2]. apply Nat.eqb_eq in H1. subst n. split; [apply lexeme_of; exact R|]. apply negb_true_iff. exact H2.
Qed.

(** The text of a line, and of lines, with a blank between the words and two
    before those of an indented line. *)
Fixpoint line_text (ws : list word) : str :=
  match ws with [] => [] | [(w, _)] => w | (w, _) :: ws' => w ++ lit " " ++ line_text ws' end.
Definition next_text (l : words_line) : str := nl ++ (if fst l then lit "  " else []) ++ line_text (snd l).
Definition lines_text (ws : list word) (ls : list words_line) : str := line_text ws ++ flat_map next_text ls.
Definition ends_word (s : str) : Prop := s = [] \/ exists c r, s = c :: r /\ In c [32; 9; 10; 13; 59]%N.
Lemma line_worded ws rest : forallb check_word ws = true -> ends_word rest -> worded P_Lexer.ex_env ws rest (line_text ws ++ rest).
Proof.
  intros H R. induction ws as [|[w t] ws IH]; [constructor|]. cbn [forallb] in H. apply andb_true_iff in H. destruct H as [H1 H2]. specialize (IH H2). destruct (check_word_ok _ H1) as [Lx No]. cbn [fst snd] in Lx, No.
  destruct ws as [|x ws].
  - cbn [line_text]. apply (worded_next P_Lexer.ex_env w t [] _ _ rest); [exact Lx|exact No|constructor| |exact IH]. eapply C64_word; [exact P_Lexer.arabic_ok|exact Lx|exact No|exact R].
  - change (line_text ((w, t) :: x :: ws)) with (w ++ lit " " ++ line_text (x :: ws)). rewrite <- !app_assoc. apply (worded_next P_Lexer.ex_env w t (lit " ") _ _ (line_text (x :: ws) ++ rest)); [exact Lx|exact No|repeat constructor| |exact IH].
    eapply C64_word; [exact P_Lexer.arabic_ok|exact Lx|exact No|]. right. eexists. eexists. split; [reflexivity|]. cbn. intuition.
Qed.
Definition check_start (i : bool) (ws : list word) : bool :=
  match ws with (c :: _, t) :: _ => (i || negb (existsb (N.eqb c) (lit "*!&#?%:"))) && negb (if token_eq_dec t T_Colon then true else false) | _ => false end.
Lemma check_start_ok i ws rest : check_start i ws = true -> begins ws /\ (i = false -> ~ ignored_start (line_text ws ++ rest)).
Proof.
  destruct ws as [|[[|c w] t] ws]; try discriminate. cbn [check_start]. intro H. apply andb_true_iff in H. destruct H as [H1 H2]. apply negb_true_iff in H2. split.
  - exists (c :: w), t, ws. split; [reflexivity|]. intros ->. destruct (token_eq_dec T_Colon T_Colon); congruence.
  - intros -> (d & r & Q & H). apply negb_true_iff in H1. assert (d = c) as -> by (destruct ws; cbn in Q; congruence). assert (existsb (N.eqb c) (lit "*!&#?%:") = true) by (apply existsb_exists; exists c; split; [exact H|apply N.eqb_refl]). congruence.
Qed.
Definition check_lines (ws : list word) (ls : list words_line) : bool :=
  forallb check_word ws && check_start false ws && forallb (fun l => forallb check_word (snd l) && check_start (fst l) (snd l)) ls.
Lemma lines_lined (fin : bool) ls : forallb (fun l => forallb check_word (snd l) && check_start (fst l) (snd l)) ls = true -> lined P_Lexer.ex_env fin ls (flat_map next_text ls ++ (if fin then nl else [])) /\ ends_word (flat_map next_text ls ++ (if fin then nl else [])).
Proof.
  induction ls as [|[i ws] ls IH]; intro H; cbn [flat_map app].
  - destruct fin; split; [apply lined_eol; apply gaps_eol; exact ex_break_lf|right; eexists; eexists; split; [reflexivity|cbn; intuition]|constructor|left; reflexivity].
  - cbn [forallb] in H. apply andb_true_iff in H. destruct H as [H1 H2]. cbn [snd] in H1. apply andb_true_iff in H1. destruct H1 as [H1 H3]. destruct (IH H2) as [IL IE]. split; [|right; eexists; eexists; split; [reflexivity|cbn; intuition]].
    destruct (check_start_ok i ws (flat_map next_text ls ++ (if fin then nl else [])) H3) as [B Ig].
    replace ((next_text (i, ws) ++ flat_map next_text ls) ++ (if fin then nl else [])) with ((nl ++ (if i then lit "  " else [])) ++ line_text ws ++ flat_map next_text ls ++ (if fin then nl else [])) by (unfold next_text; cbn [fst snd]; rewrite <- !app_assoc; reflexivity).
    apply (lined_next P_Lexer.ex_env fin i ws ls _ _ (flat_map next_text ls ++ (if fin then nl else []))).
    + destruct i; [apply gaps_indent; [exact ex_break_lf|split; [discriminate|repeat constructor]]|apply gaps_eol; exact ex_break_lf].
    + apply line_worded; assumption.
    + exact B.
    + exact Ig.
    + exact IL.
Qed.
Lemma lines_afresh (fin : bool) ws ls : check_lines ws ls = true -> starts_afresh P_Lexer.ex_env fin ws ls (lines_text ws ls ++ (if fin then nl else [])).
Proof.
  unfold check_lines. intro H. apply andb_true_iff in H. destruct H as [H H3]. apply andb_true_iff in H. destruct H as [H1 H2]. destruct (lines_lined fin ls H3) as [Li En]. destruct (check_start_ok false ws (flat_map next_text ls ++ (if fin then nl else [])) H2) as [B Ig].
  unfold lines_text. rewrite <- app_assoc. apply (afresh _ _ _ _ None [] _ (flat_map next_text ls ++ (if fin then nl else []))); [left; reflexivity|constructor|apply line_worded; assumption|exact B|apply Ig; reflexivity|exact Li].
Qed.
Lemma lines_out ws ls : check_lines ws ls = true -> set_out P_Lexer.ex_env false ((false, ws) :: ls) (lines_text ws ls).
Proof. intro H. apply afresh_out. rewrite <- (app_nil_r (lines_text ws ls)). apply (lines_afresh false). exact H. Qed.

Definition kw (k : keyword) : word := (keyword_text k, T_Keyword k).
Definition acc (s : str) : word := (s, T_Account s).
Definition quoted (s : str) : word := (34%N :: s ++ [34%N], T_String s).
Definition hash (s : str) : word := (35%N :: s, T_Tag s).
Definition on (s : str) (d : date) : word := (s, T_Date d).

Lemma check_no k s : forallb (fun t => if token_eq_dec t (T_Keyword k) then false else true) (map fst (ex_lexed s)) = true -> says_no P_Lexer.ex_env k s.
Proof.
  rewrite forallb_forall. intros H ts Lx X. unfold ex_lexed in H. rewrite Lx in H. specialize (H _ X). cbv beta in H. destruct (token_eq_dec (T_Keyword k) (T_Keyword k)); [discriminate H|congruence].
Qed.

(** A directive with a key, between two others: taken out or put in. *)
Definition ex_line (l : list word) : list word * list words_line := (l, []).
Definition text_of (x : list word * list words_line) : str := lines_text (fst x) (snd x).
Definition ex_before : list word * list words_line := ([kw K_Option; quoted (lit "title"); quoted (lit "x")], [(false, [on (lit "2024-01-03") (mk_date 2024 1 3); kw K_Close; acc (lit "Assets:Cash")])]).
Definition ex_date : word := on (lit "2024-01-02") (mk_date 2024 1 2).
Definition ex_keys : list words_line := [(true, [(lit "where", T_Key (lit "where")); (lit ":", T_Colon); quoted (lit "here")])].
Definition ex_opens : list word := [kw K_Open; acc (lit "Assets:Cash")].
Definition ex_notes : list word := [on (lit "2024-01-01") (mk_date 2024 1 1); kw K_Note; acc (lit "Assets:Cash"); quoted (lit "n")].
Example C73_ex_text : exists ds opts ps ws ds' opts' ps' ws' dsE optsE psE wsE,
  let a := text_of ex_before in let e := lines_text (ex_date :: ex_opens) ex_keys in let b := line_text ex_notes ++ nl in
  let c := a ++ nl ++ e ++ nl ++ b in let c' := a ++ nl ++ b in
  c = lit "option ""title"" ""x""" ++ nl ++ lit "2024-01-03 close Assets:Cash" ++ nl ++ lit "2024-01-02 open Assets:Cash" ++ nl ++ lit "  where : ""here""" ++ nl ++ lit "2024-01-01 note Assets:Cash ""n""" ++ nl /\
  set_out P_Lexer.ex_env false ((false, fst ex_before) :: snd ex_before) a /\ starts_afresh P_Lexer.ex_env false (ex_date :: ex_opens) ex_keys e /\ Forall (fun l => fst l = true) ex_keys /\
  starts_afresh P_Lexer.ex_env true ex_notes [] b /\
  fine_content P_Lexer.ex_env P_Grammar.ex_env 0 c /\ fine_content P_Lexer.ex_env P_Grammar.ex_env 0 c' /\ fine_content P_Lexer.ex_env P_Grammar.ex_env 0 (e ++ nl) /\ says_no P_Lexer.ex_env K_Include c /\
  (forall ts, lex P_Lexer.ex_env (a ++ nl) = Fine (Some ts) -> ~ sets_rules (input_of 0 (a ++ nl) ts)) /\
  ledger_is P_Lexer.ex_env P_Grammar.ex_env (fun p => Some p) None c (Success ds opts ps ws) /\ List.length ds = 3 /\
  ledger_is P_Lexer.ex_env P_Grammar.ex_env (fun p => Some p) None c' (Success ds' opts' ps' ws') /\
  ledger_is P_Lexer.ex_env P_Grammar.ex_env (fun p => Some p) None (e ++ nl) (Success dsE optsE psE wsE).
Proof.
  set (a := text_of ex_before). set (e := lines_text (ex_date :: ex_opens) ex_keys). set (b := line_text ex_notes ++ nl).
  destruct (ex_ledger_success (a ++ nl ++ e ++ nl ++ b) ltac:(vm_compute; exact Logic.I)) as (ds & opts & ps & ws & HA & QA).
  destruct (ex_ledger_success (a ++ nl ++ b) ltac:(vm_compute; exact Logic.I)) as (ds' & opts' & ps' & ws' & HB & _).
  destruct (ex_ledger_success (e ++ nl) ltac:(vm_compute; exact Logic.I)) as (dsE & optsE & psE & wsE & HE & _).
  exists ds, opts, ps, ws, ds', opts', ps', ws', dsE, optsE, psE, wsE. cbn zeta. split; [vm_compute; reflexivity|].
  split; [apply lines_out; vm_compute; reflexivity|]. split; [unfold e; rewrite <- (app_nil_r (lines_text _ _)); apply (lines_afresh false); vm_compute; reflexivity|]. split; [repeat constructor|].
  split; [unfold b; rewrite <- (app_nil_r (line_text ex_notes)); apply (lines_afresh true ex_notes []); vm_compute; reflexivity|].
  do 3 (split; [apply check_content_ok; vm_compute; reflexivity|]). split; [apply check_no; vm_compute; reflexivity|].
  split; [intros ts Lx; apply P_Order.check_rules_ok; vm_compute in Lx; injection Lx as <-; vm_compute; reflexivity|].
  split; [exact HA|]. split; [clear - QA; vm_compute in QA; injection QA as <- _ _ _; reflexivity|]. split; [exact HB|exact HE].
Qed.

(** The directives of a text between the lines of a tag. *)
Example C74_ex_text : exists ds opts ps ws,
  let p := line_text [kw K_Pushtag; hash (lit "trip")] in let q := line_text [kw K_Poptag; hash (lit "trip")] ++ nl in
  let b := lines_text ex_notes [(false, ex_date :: ex_opens); (true, [hash (lit "away")])] in
  p ++ nl ++ b ++ nl ++ q = lit "pushtag #trip" ++ nl ++ lit "2024-01-01 note Assets:Cash ""n""" ++ nl ++ lit "2024-01-02 open Assets:Cash" ++ nl ++ lit "  #away" ++ nl ++ lit "poptag #trip" ++ nl /\
  starts_afresh P_Lexer.ex_env false [kw K_Pushtag; hash (lit "trip")] [] p /\ starts_afresh P_Lexer.ex_env false ex_notes [(false, ex_date :: ex_opens); (true, [hash (lit "away")])] b /\
  starts_afresh P_Lexer.ex_env true [kw K_Poptag; hash (lit "trip")] [] q /\
  tag_link_lang (g_unicode P_Grammar.ex_env) (lit "trip") /\ says_no P_Lexer.ex_env K_Include (b ++ nl) /\ fine_content P_Lexer.ex_env P_Grammar.ex_env 0 (b ++ nl) /\
  ledger_is P_Lexer.ex_env P_Grammar.ex_env (fun p => Some p) None (b ++ nl) (Success ds opts ps ws) /\ map (fun d => tags_of (item d)) ds = [[]; [lit "away"]].
Proof.
  set (b := lines_text ex_notes [(false, ex_date :: ex_opens); (true, [hash (lit "away")])]).
  destruct (ex_ledger_success (b ++ nl) ltac:(vm_compute; exact Logic.I)) as (ds & opts & ps & ws & HA & QA).
  exists ds, opts, ps, ws. cbn zeta. split; [vm_compute; reflexivity|].
  split; [apply (lines_afresh false [kw K_Pushtag; hash (lit "trip")] []); vm_compute; reflexivity|].
  split; [unfold b; rewrite <- (app_nil_r (lines_text _ _)); apply (lines_afresh false); vm_compute; reflexivity|].
  split; [apply (lines_afresh true [kw K_Poptag; hash (lit "trip")] []); vm_compute; reflexivity|].
  split; [apply (proj1 (tag_link_ok (g_unicode P_Grammar.ex_env) (lit "trip") (lit "trip"))); vm_compute; reflexivity|].
  split; [apply check_no; vm_compute; reflexivity|]. split; [apply check_content_ok; vm_compute; reflexivity|].
  split; [exact HA|]. clear HA. vm_compute in QA. injection QA as <- _ _ _. vm_compute. reflexivity.
Qed.

(** Two blocks, one with a plugin. *)
Example C75_ex_text : exists ds opts ps ws,
  let a := text_of ex_before in let A := lines_text [kw K_Plugin; quoted (lit "p")] [(false, ex_notes)] in let B := lines_text (ex_date :: ex_opens) ex_keys in
  let b := line_text [on (lit "2024-01-01") (mk_date 2024 1 1); kw K_Commodity; (lit "USD", T_Currency (lit "USD"))] ++ nl in
  let c := a ++ nl ++ A ++ nl ++ B ++ nl ++ b in
  set_out P_Lexer.ex_env false ((false, fst ex_before) :: snd ex_before) a /\ starts_afresh P_Lexer.ex_env false [kw K_Plugin; quoted (lit "p")] [(false, ex_notes)] A /\
  starts_afresh P_Lexer.ex_env false (ex_date :: ex_opens) ex_keys B /\ starts_afresh P_Lexer.ex_env true [on (lit "2024-01-01") (mk_date 2024 1 1); kw K_Commodity; (lit "USD", T_Currency (lit "USD"))] [] b /\
  (forall k, In k [K_Option; K_Pushtag; K_Poptag; K_Pushmeta; K_Popmeta] -> says_no P_Lexer.ex_env k (A ++ nl) /\ says_no P_Lexer.ex_env k (B ++ nl)) /\
  fine_content P_Lexer.ex_env P_Grammar.ex_env 0 c /\ says_no P_Lexer.ex_env K_Include c /\ says_no P_Lexer.ex_env K_Plugin (B ++ nl) /\
  ledger_is P_Lexer.ex_env P_Grammar.ex_env (fun p => Some p) None c (Success ds opts ps ws) /\ List.length ds = 4 /\ List.length ps = 1.
Proof.
  set (a := text_of ex_before). set (A := lines_text [kw K_Plugin; quoted (lit "p")] [(false, ex_notes)]). set (B := lines_text (ex_date :: ex_opens) ex_keys).
  set (b := line_text [on (lit "2024-01-01") (mk_date 2024 1 1); kw K_Commodity; (lit "USD", T_Currency (lit "USD"))] ++ nl).
  destruct (ex_ledger_success (a ++ nl ++ A ++ nl ++ B ++ nl ++ b) ltac:(vm_compute; exact Logic.I)) as (ds & opts & ps & ws & HA & QA).
  exists ds, opts, ps, ws. cbn zeta. split; [apply lines_out; vm_compute; reflexivity|].
  split; [unfold A; rewrite <- (app_nil_r (lines_text _ _)); apply (lines_afresh false); vm_compute; reflexivity|].
  split; [unfold B; rewrite <- (app_nil_r (lines_text _ _)); apply (lines_afresh false); vm_compute; reflexivity|].
  split; [unfold b; apply (lines_afresh true [on (lit "2024-01-01") (mk_date 2024 1 1); kw K_Commodity; (lit "USD", T_Currency (lit "USD"))] []); vm_compute; reflexivity|].
  split; [intros k Hk; cbn in Hk; repeat (destruct Hk as [<-|Hk]; [split; apply check_no; vm_compute; reflexivity|]); destruct Hk|].
  split; [apply check_content_ok; vm_compute; reflexivity|]. do 2 (split; [apply check_no; vm_compute; reflexivity|]).
  split; [exact HA|]. clear HA. vm_compute in QA. injection QA as <- _ <- _. split; reflexivity.
Qed.
