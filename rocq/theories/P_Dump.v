(** * C62: what dump.rs prints can be parsed again *)
From Coq Require Import String Ascii.
From Coq Require Import List NArith ZArith QArith Arith Bool Lia Permutation.
From Verif Require Import Base BaseFacts Text Path SpecPath PathFacts Sources Types SpecTypes TypesFacts P_Types SortM SpecSort P_Sort Options SpecOptions P_Options
  Pragma SpecPragma PragmaFacts PragmaRun P_Pragma Read SpecRead ReadFacts P_Read Decimal SpecDecimal
  Token LexPost SpecLex LexFacts P_Lex Lexer SpecLexer LexerFacts P_Lexer Peg Grammar SpecExpr Display SpecDisplay SpecLedger
  PegFacts ExprFacts P_Arith DisplayLex DisplayText DisplayDirective DisplayLexed SpecGrammar SpecDirective GrammarSafe DisplayRead DisplayLaid DisplayLedger DisplayDump DisplayParsed P_Grammar
  Parse SpecParse SpecWhole ParseFacts ParseOnce ParseFile P_File P_Includes P_Parse P_Display P_RoundTrip P_Ledger
  Report SpecReport P_Report Messages P_Messages Checks SpecChecks P_Checks.
Import ListNotations.
Local Open Scope nat_scope.

Lemma dump_spaced D ds : dump_text D ds = spaced D (map item ds).
Proof. unfold dump_text, spaced. induction ds as [|d ds IH]; [reflexivity|]. cbn [flat_map map]. rewrite IH. reflexivity. Qed.
Lemma dump_printed D ds : printed (display_directive D) ds (dump_text D ds).
Proof. unfold dump_text. induction ds as [|d ds IH]; [constructor|]. cbn [flat_map]. rewrite <- app_assoc. constructor. exact IH. Qed.
Lemma printed_dump D ds text : printed (display_directive D) ds text -> text = dump_text D ds.
Proof. induction 1 as [|d ds rest P ->]; [reflexivity|]. unfold dump_text. cbn [flat_map]. rewrite <- app_assoc. reflexivity. Qed.

(** ** Directives, printed *)
Section Printed.
  Context (L : lexer_env) (E : grammar_env) (En : environment_ok E) (UO : unicode_ok (le_unicode L)) (RD : reads_decimals (le_decimal L)).
  Context (ND : forall c, u_Nd (le_unicode L) c = true -> u_Lu (le_unicode L) c = false /\ u_Lo (le_unicode L) c = false).
  Context (D : display_env) (Dok : display_ok D).
  Context (glob_with : str -> result (list glob_item) str) (canonicalize : path -> option path) (read : path -> result str str).
  Context (Cano : forall p q c d, same_path p q -> canonicalize p = Some c -> canonicalize q = Some d -> same_path c d).
  Context (canonicalize' : path -> option path) (fuel : nat) (root : option path).
  Context (Root : forall p, root = Some p -> canonicalize p <> None).
  Context (ds : list (spanned directive)) (text : str) (Pr : printed (display_directive D) ds text).
  Context (Fd : Forall (common L E default_names) (map item ds)).

  Lemma printed_lexed : exists out, lex L text = Fine (Some out) /\ map fst out = o_ledger D [] (map item ds).
  Proof. rewrite (printed_dump _ _ _ Pr), dump_spaced. exact (spaced_lexed L UO ND D E default_names Dok RD _ Fd). Qed.

  Theorem C62_can_be_read : exists s, reads_to (includes_of L) glob_with canonicalize read fuel root text s.
  Proof. exact (text_can_be_read L E D Dok glob_with canonicalize read fuel root [] _ Fd _ printed_lexed). Qed.

  (** What is printed is parsed to the same directives, in order of date. *)
  Theorem C62_read_back : forall s, reads_to (includes_of L) glob_with canonicalize read fuel root text s ->
    exists toks again directives opts warnings, parser_new L s = Fine (Some toks) /\
      parse E canonicalize' s toks = Fine (Some (Success directives opts [] warnings)) /\
      Forall2 (fun d d' => alike (item d) (item d')) ds again /\ sorted_from again directives.
  Proof.
    intros s Reads. destruct (text_read_back L E En UO D Dok glob_with canonicalize read Cano canonicalize' fuel root Root [] _ Fd _ printed_lexed s Reads)
      as (toks & again & directives & opts & plugins & warnings & Pn & Ps & Ap & Al & So). inversion Ap; subst.
    exists toks, again, directives, opts, warnings. split; [exact Pn|]. split; [exact Ps|]. split; [|exact So].
    clear - Al. revert again Al. induction ds as [|d l IH]; intros again Al; inversion Al; subst; constructor; auto.
  Qed.
End Printed.

(** ** The program *)
Section Program.
  Context (L : lexer_env) (E : grammar_env) (En : environment_ok E) (UO : unicode_ok (le_unicode L)) (RD : reads_decimals (le_decimal L)) (DF : decimals_fit (le_decimal L)).
  Context (ND : forall c, u_Nd (le_unicode L) c = true -> u_Lu (le_unicode L) c = false /\ u_Lo (le_unicode L) c = false).
  Context (D : display_env) (Dok : display_ok D).
  Context (glob_with : str -> result (list glob_item) str) (canonicalize : path -> option path) (read : path -> result str str).
  Context (Cano : forall p q c d, same_path p q -> canonicalize p = Some c -> canonicalize q = Some d -> same_path c d).
  Context (canonicalize' : path -> option path) (fuel : nat) (root : option path) (content : str) (s : sources).
  Context (Reads : reads_to (includes_of L) glob_with canonicalize read fuel root content s).

  Context {W Er : Type} (draw : drawing -> list (str * str) -> W -> W * option Er) (put : str -> W -> W * option Er).
  Context (msgs : message_env).

  (** If parsing succeeds the program draws the warnings, and prints the
      directives, one after the other. *)
  Theorem C62_program : forall directives opts plugins warnings, let p := Success directives opts plugins warnings in
    exists text, printed (display_directive D) directives text /\
      draws s draw put (warnings_of msgs p)
        (fun w => match dump_program draw put msgs s D p w with Fine (out, w') => if str_eqb out text then Fine w' else Panic | Panic => Panic end).
  Proof.
    intros directives opts plugins warnings p. exists (dump_text D directives). split; [apply dump_printed|].
    destruct (write_unwrap_draws _ _ _ _ _ _ _ _ Reads draw put (warnings_of msgs p)) as (texts & ds & Ls & F & Wr).
    exists texts, ds. split; [exact Ls|]. split; [exact F|]. intro w. rewrite <- Wr. cbn [dump_program p].
    fold p. destruct (write_unwrap draw put s w (warnings_of msgs p)); [|reflexivity]. rewrite (proj2 (str_eqb_eq _ _) eq_refl). reflexivity.
  Qed.

  Context (Root : forall p, root = Some p -> canonicalize p <> None).
  Context (toks : list (list rtoken)) (directives : list (spanned directive)) (opts : options) (plugins : list plugin) (warnings : list report).
  Context (Pn : parser_new L s = Fine (Some toks)) (Fi : forall id f c, In (id, f, c) (content_iter s) -> fine_content L E id c).
  Context (Ps : parse E canonicalize' s toks = Fine (Some (Success directives opts plugins warnings))).

  (** Files have been read and parsed without an error, no option names an
      account type, and there is nothing in the directives which is not
      displayed as it is written.  What the program prints is parsed without
      an error to the same directives in the same order, and no plugins. *)
  Context (No : forall id f c ts, In (id, f, c) (content_iter s) -> lex L c = Fine (Some ts) -> ~ sets_names (input_of id c ts)).
  Context (Sh : Forall (fun d => showable (item d)) directives).
  Theorem C62_round_trip : forall w out w', dump_program draw put msgs s D (Success directives opts plugins warnings) w = Fine (out, w') ->
    forall glob_with canonicalize read canonicalize' fuel root,
    (forall p q c d, same_path p q -> canonicalize p = Some c -> canonicalize q = Some d -> same_path c d) ->
    (forall p, root = Some p -> canonicalize p <> None) ->
    (exists s', reads_to (includes_of L) glob_with canonicalize read fuel root out s') /\
    forall s', reads_to (includes_of L) glob_with canonicalize read fuel root out s' ->
    exists toks' directives' opts' warnings', parser_new L s' = Fine (Some toks') /\
      parse E canonicalize' s' toks' = Fine (Some (Success directives' opts' [] warnings')) /\
      Forall2 (fun d d' => alike (item d) (item d')) directives directives'.
  Proof.
    intros w out w' Run glob2 cano2 read2 cano3 fuel2 root2 Cano2 Root2.
    assert (out = dump_text D directives) as ->. { cbn [dump_program] in Run. destruct (write_unwrap draw put s w _); [|discriminate]. injection Run as <- _. reflexivity. }
    pose proof (C52_common L E En UO DF glob_with canonicalize read Cano canonicalize' fuel root content s Reads Root toks directives opts plugins warnings Pn Fi Ps No Sh) as Co.
    pose proof (printed_lexed L E UO RD ND D Dok directives _ (dump_printed D directives) Co) as Lx.
    split; [exact (text_can_be_read L E D Dok glob2 cano2 read2 fuel2 root2 [] _ Co _ Lx)|].
    intros s' Reads2.
    destruct (text_in_order L E En UO D Dok glob2 cano2 read2 Cano2 cano3 fuel2 root2 Root2 [] _ Co _ Lx) with (s := s') as (toks' & directives' & opts' & plugins' & warnings' & A & B & C & C'); [|exact Reads2|].
    - destruct (C50_success_sound L E En UO _ _ _ Cano canonicalize' _ _ _ _ Reads Root _ _ _ _ _ Pn Fi Ps) as [rootds others r' po es rest yielded directives warnings Ti Wa _ _ Y So _].
      eapply sorted_ordered. exact So.
    - inversion C; subst plugins'. exists toks', directives', opts', warnings'. split; [exact A|]. split; [exact B|].
      clear - C'. revert directives' C'. induction directives as [|d ds IH]; intros ds' C'; inversion C'; subst; constructor; auto.
  Qed.
End Program.

Print Assumptions C62_can_be_read.
Print Assumptions C62_read_back.
Print Assumptions C62_program.
Print Assumptions C62_round_trip.

(** ** Cases *)
Definition ex_dump (r : outcome (option parsed_as)) : str :=
  match r with Fine (Some (Success ds _ _ _)) => dump_text ex_display ds | _ => [] end.
Example ex_dumped : ex_dump (ex_parse ex_ledger) =
  ex_line "2024-01-01 open Assets:Cash USD,CHF ""STRICT""" ++ ex_line "" ++
  ex_line "2024-02-29 * ""Payee"" ""Some words"" #food #trip ^inv-1" ++ ex_line "  sum: -1 - 2 * (3.50 + 4) EUR" ++ ex_line "  receipt: ""a.pdf""" ++
  ex_line "  ! Assets:Cash -1234.50 USD {5 # 6 CHF, 2024-01-01, ""lot""} @ 4 EUR" ++ ex_line "  date: 2024-03-01" ++ ex_line "  Expenses:Food" ++ ex_line "" ++
  ex_line "2024-03-01 balance Assets:Cash 100 USD" ++ ex_line "" ++ ex_line "2024-03-01 custom ""budget"" Assets:Cash TRUE 10.00 USD" ++ ex_line "".
Proof. vm_compute. reflexivity. Qed.
(** (The order of tags and keys is reversed each time.) *)
Example ex_dumped_again : ex_dump (ex_parse (ex_dump (ex_parse (ex_dump (ex_parse ex_ledger))))) = ex_dump (ex_parse ex_ledger).
Proof. vm_compute. reflexivity. Qed.
