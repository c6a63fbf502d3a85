(** * C76, said of texts *)
From Coq Require Import String Ascii.
From Coq Require Import List NArith ZArith Arith Bool Lia Permutation.
From Verif Require Import Base BaseFacts Text Path PathFacts Sources Types SpecTypes TypesFacts P_Types SortM SpecSort P_Sort Options SpecOptions OptionsFacts P_Options
  Pragma SpecPragma PragmaRun P_Pragma Read SpecRead ReadFacts P_Read
  Token Lexer SpecLexer P_Lexer Peg PegFacts Grammar SpecExpr SpecGrammar SpecDirective SpecDisplay SpecLedger SpecAlike P_Grammar
  Parse SpecParse SpecWhole P_File P_Parse P_Order SpecPaste P_Paste SpecLayout P_Words
  SpecAppend AppendText P_Append SpecLocal Parts P_Local SpecWrap P_Wrap SpecSwap P_Swap SpecBlock P_Block TextLines P_Text.
Import SpecPragma Read.
Import ListNotations.
Local Open Scope nat_scope.
Local Notation tok := SpecGrammar.tok.
Local Notation ended := SpecAppend.ended.
Local Notation nl := [10%N].

Section Texts.
  Context (L : lexer_env) (E : grammar_env) (En : environment_ok E) (U : unicode_ok (le_unicode L)).
  Context (ND : forall c, u_Nd (le_unicode L) c = true -> u_Lu (le_unicode L) c = false /\ u_Lo (le_unicode L) c = false).
  Context (canonicalize : path -> option path) (root : option path).
  Context (Cano : forall p q c d, same_path p q -> canonicalize p = Some c -> canonicalize q = Some d -> same_path c d).
  Context (Root : forall p, root = Some p -> canonicalize p <> None).

  (** A text of lines is taken apart: lines with nothing but directives and
      plugins on the one hand, the lines before and after them on the other. *)
  Theorem C76_split_text : forall fin l1 a fB wB lB B w3 l3 b ds opts ps ws,
    set_out L fin l1 a -> starts_afresh L fB wB lB B -> starts_afresh L true w3 l3 b ->
    let c := a ++ nl ++ B ++ nl ++ b in
    (forall k, In k [K_Option; K_Pushtag; K_Poptag; K_Pushmeta; K_Popmeta] -> says_no L k (B ++ nl)) ->
    says_no L K_Pushtag (a ++ nl) -> says_no L K_Pushmeta (a ++ nl) -> (forall ts, lex L (a ++ nl) = Fine (Some ts) -> ~ sets_rules (input_of 0 (a ++ nl) ts)) ->
    fine_content L E 0 c -> says_no L K_Include c ->
    ledger_is L E canonicalize root c (Success ds opts ps ws) ->
    exists kept taken ds' opts' ps' ws' dsB optsB psB wsB p1 pB p3,
      ledger_is L E canonicalize root (a ++ nl ++ b) (Success ds' opts' ps' ws') /\ ledger_is L E canonicalize root (B ++ nl) (Success dsB optsB psB wsB) /\
      shuffled kept taken ds /\ Forall2 (fun x y => alike (item x) (item y)) kept ds' /\ Forall2 (fun x y => alike (item x) (item y)) taken dsB /\
      alike_options opts opts' /\ ps = p1 ++ pB ++ p3 /\ Forall2 alike_plugin (p1 ++ p3) ps' /\ Forall2 alike_plugin pB psB /\
      Permutation (map rp_problem ws) (map rp_problem ws' ++ map rp_problem wsB).
  Proof.
    intros fin l1 a fB wB lB B w3 l3 b ds opts ps ws Ha HB Hb c Qu P1 P2 Nr Fc Ni H.
    destruct (piece_set_out L U ND _ _ _ Ha) as [Pa E1]. destruct (piece_set_out L U ND _ _ _ (afresh_out L _ _ _ _ HB)) as [PB EB].
    destruct (piece_afresh L U ND _ _ _ _ HB) as (_ & QB & _ & NB). destruct (piece_afresh L U ND _ _ _ _ Hb) as (_ & Qb & _ & Nb).
    pose proof (piece_three L U ND _ _ _ _ _ _ _ _ _ _ Ha HB Hb) as P. fold c in P. pose proof (piece_onto L U ND _ _ _ _ _ _ Ha Hb) as P'.
    pose proof (says_no_piece L _ _ _ P Ni) as Ni3. destruct P as (tc & Lx & Tc). destruct P' as (tc' & Lx' & Tc'). rewrite <- Tc in Ni3.
    assert (Qt : quiet (ledger_tokens true ((false, wB) :: lB))) by (unfold quiet; repeat split; (eapply says_no_piece; [eassumption|]); (apply Qu; cbn; tauto)).
    pose proof PB as (te & LxE & Te).
    exact (C76_split L E En U canonicalize root Cano Root _ _ _ _ _ _ _ _ _ _ _ _ _ Lx Lx' LxE Tc Tc' Te E1 EB (tokens_afresh _ _ QB NB) (tokens_afresh _ _ Qb Nb) Qt
      (says_no_piece L _ _ _ Pa P1) (says_no_piece L _ _ _ Pa P2) (rules_in_piece L (input_of 0 c tc) _ _ _ E1 Pa Tc Nr) Fc Ni3 H).
  Qed.

  (** It is put together: such lines go between two lines of another text. *)
  Theorem C76_put_text : forall fin l1 a fB wB lB B w3 l3 b ds' opts' ps' ws' dsB optsB psB wsB,
    set_out L fin l1 a -> starts_afresh L fB wB lB B -> starts_afresh L true w3 l3 b ->
    let c := a ++ nl ++ B ++ nl ++ b in let c' := a ++ nl ++ b in
    (forall k, In k [K_Option; K_Pushtag; K_Poptag; K_Pushmeta; K_Popmeta] -> says_no L k (B ++ nl)) ->
    (forall ts, lex L (a ++ nl) = Fine (Some ts) -> ~ sets_rules (input_of 0 (a ++ nl) ts)) ->
    fine_content L E 0 c' -> fine_content L E 0 (B ++ nl) -> says_no L K_Include c ->
    ledger_is L E canonicalize root c' (Success ds' opts' ps' ws') -> ledger_is L E canonicalize root (B ++ nl) (Success dsB optsB psB wsB) ->
    exists ds opts ps ws kept taken p1 pB p3,
      ledger_is L E canonicalize root c (Success ds opts ps ws) /\
      shuffled kept taken ds /\ Forall2 (fun x y => alike (item x) (item y)) kept ds' /\
      (says_no L K_Pushtag (a ++ nl) -> says_no L K_Pushmeta (a ++ nl) -> Forall2 (fun x y => alike (item x) (item y)) taken dsB) /\
      alike_options opts opts' /\ ps = p1 ++ pB ++ p3 /\ Forall2 alike_plugin (p1 ++ p3) ps' /\ Forall2 alike_plugin pB psB /\
      Permutation (map rp_problem ws) (map rp_problem ws' ++ map rp_problem wsB).
  Proof.
    intros fin l1 a fB wB lB B w3 l3 b ds' opts' ps' ws' dsB optsB psB wsB Ha HB Hb c c' Qu Nr Fc' FB Ni H' HE.
    destruct (piece_set_out L U ND _ _ _ Ha) as [Pa E1]. destruct (piece_set_out L U ND _ _ _ (afresh_out L _ _ _ _ HB)) as [PB EB].
    destruct (piece_afresh L U ND _ _ _ _ HB) as (_ & QB & _ & NB). destruct (piece_afresh L U ND _ _ _ _ Hb) as (_ & Qb & _ & Nb).
    pose proof (piece_three L U ND _ _ _ _ _ _ _ _ _ _ Ha HB Hb) as P. fold c in P. pose proof (piece_onto L U ND _ _ _ _ _ _ Ha Hb) as P'. fold c' in P'.
    pose proof (says_no_piece L _ _ _ P Ni) as Ni3. destruct P as (tc & Lx & Tc). destruct P' as (tc' & Lx' & Tc'). rewrite <- Tc in Ni3.
    assert (Qt : quiet (ledger_tokens true ((false, wB) :: lB))) by (unfold quiet; repeat split; (eapply says_no_piece; [eassumption|]); (apply Qu; cbn; tauto)).
    pose proof PB as (te & LxE & Te). pose proof (tokens_afresh wB lB QB NB) as FrB. rewrite <- Te in Tc, EB, FrB, Qt.
    destruct (C76_put L E En U canonicalize root Cano Root _ _ _ _ _ _ _ _ _ _ _ _ _ _ _ _ Lx Lx' LxE Tc Tc' E1 EB FrB (tokens_afresh _ _ Qb Nb) Qt Fc' FB Ni3
      (rules_in_piece L (input_of 0 c' tc') _ _ _ E1 Pa Tc' Nr) H' HE) as (ds & opts & ps & ws & kept & taken & p1 & pB & p3 & A1 & A2 & _ & _ & A3 & A4 & A5 & A6 & A7 & A8 & A9).
    exists ds, opts, ps, ws, kept, taken, p1, pB, p3. do 3 (split; [assumption|]). split; [|repeat (split; [assumption|]); assumption].
    intros S1 S2. apply A9; eapply says_no_piece; eassumption.
  Qed.
End Texts.

(** ** A case: lines with a plugin and a directive *)
Definition ex_first : list word * list words_line := ([kw K_Option; quoted (lit "title"); quoted (lit "x")], [(false, [on (lit "2024-01-03") (mk_date 2024 1 3); kw K_Close; acc (lit "Assets:Cash")])]).
Definition ex_block : list word * list words_line := (ex_date :: ex_opens, ex_keys ++ [(false, [kw K_Plugin; quoted (lit "p")])]).
Example C76_ex_text : exists ds opts ps ws ds' opts' ps' ws' dsB optsB psB wsB,
  let a := text_of ex_first in let B := text_of ex_block in let b := line_text ex_notes ++ nl in
  let c := a ++ nl ++ B ++ nl ++ b in let c' := a ++ nl ++ b in
  B = lit "2024-01-02 open Assets:Cash" ++ nl ++ lit "  where : ""here""" ++ nl ++ lit "plugin ""p""" /\
  set_out P_Lexer.ex_env false ((false, fst ex_first) :: snd ex_first) a /\ starts_afresh P_Lexer.ex_env false (fst ex_block) (snd ex_block) B /\ starts_afresh P_Lexer.ex_env true ex_notes [] b /\
  (forall k, In k [K_Option; K_Pushtag; K_Poptag; K_Pushmeta; K_Popmeta] -> says_no P_Lexer.ex_env k (B ++ nl)) /\
  says_no P_Lexer.ex_env K_Pushtag (a ++ nl) /\ says_no P_Lexer.ex_env K_Pushmeta (a ++ nl) /\ (forall ts, lex P_Lexer.ex_env (a ++ nl) = Fine (Some ts) -> ~ sets_rules (input_of 0 (a ++ nl) ts)) /\
  fine_content P_Lexer.ex_env P_Grammar.ex_env 0 c /\ fine_content P_Lexer.ex_env P_Grammar.ex_env 0 c' /\ fine_content P_Lexer.ex_env P_Grammar.ex_env 0 (B ++ nl) /\ says_no P_Lexer.ex_env K_Include c /\
  ledger_is P_Lexer.ex_env P_Grammar.ex_env (fun p => Some p) None c (Success ds opts ps ws) /\ List.length ds = 3 /\ List.length ps = 1 /\
  ledger_is P_Lexer.ex_env P_Grammar.ex_env (fun p => Some p) None c' (Success ds' opts' ps' ws') /\
  ledger_is P_Lexer.ex_env P_Grammar.ex_env (fun p => Some p) None (B ++ nl) (Success dsB optsB psB wsB).
Proof.
  set (a := text_of ex_first). set (B := text_of ex_block). set (b := line_text ex_notes ++ nl).
  destruct (ex_ledger_success (a ++ nl ++ B ++ nl ++ b) ltac:(vm_compute; exact Logic.I)) as (ds & opts & ps & ws & HA & QA).
  destruct (ex_ledger_success (a ++ nl ++ b) ltac:(vm_compute; exact Logic.I)) as (ds' & opts' & ps' & ws' & HB & _).
  destruct (ex_ledger_success (B ++ nl) ltac:(vm_compute; exact Logic.I)) as (dsE & optsE & psE & wsE & HE & _).
  exists ds, opts, ps, ws, ds', opts', ps', ws', dsE, optsE, psE, wsE. cbn zeta. split; [vm_compute; reflexivity|].
  split; [apply lines_out; vm_compute; reflexivity|]. split; [unfold B, text_of; rewrite <- (app_nil_r (lines_text _ _)); apply (lines_afresh false); vm_compute; reflexivity|].
  split; [unfold b; rewrite <- (app_nil_r (line_text ex_notes)); apply (lines_afresh true ex_notes []); vm_compute; reflexivity|].
  split; [intros k [<-|[<-|[<-|[<-|[<-|[]]]]]]; apply check_no; vm_compute; reflexivity|].
  do 2 (split; [apply check_no; vm_compute; reflexivity|]).
  split; [intros ts Lx; apply P_Order.check_rules_ok; vm_compute in Lx; injection Lx as <-; vm_compute; reflexivity|].
  do 3 (split; [apply check_content_ok; vm_compute; reflexivity|]). split; [apply check_no; vm_compute; reflexivity|].
  split; [exact HA|]. split; [clear - QA; vm_compute in QA; injection QA as <- _ _ _; reflexivity|]. split; [clear - QA; vm_compute in QA; injection QA as _ _ <- _; reflexivity|]. split; [exact HB|exact HE].
Qed.

Print Assumptions C76_split_text.
Print Assumptions C76_put_text.
