(** * C87: other numbers in several files *)
From Coq Require Import String Ascii.
From Coq Require Import List NArith ZArith Arith Bool Lia Permutation.
From Verif Require Import Base BaseFacts Text Path PathFacts Sources Types SpecTypes TypesFacts P_Types SortM SpecSort P_Sort Options SpecOptions OptionsFacts P_Options
  Pragma SpecPragma PragmaRun P_Pragma Read SpecRead ReadFacts P_Read
  Token Lexer SpecLexer P_Lexer Peg PegFacts Grammar SpecExpr SpecGrammar SpecDirective SpecDisplay SpecLedger SpecAlike ExprFacts P_Grammar
  Parse SpecParse SpecWhole ParseFacts ParseOnce ParseFile P_File P_Includes P_Parse IncludeTokens P_Order P_Complete AlikeEquiv AlikeRead AlikeFile AlikeWalk AlikeOptions SortFacts SimCopy SpecPaste Paste P_Paste SpecLayout P_Layout SpecAppend Append P_Append
  SpecDecimal Decimal P_Expr SpecNames P_NamesFiles SpecRename SpecNumbers Numbers NumbersRun NumbersFiles P_Numbers.
Import SpecPragma Read.
Import ListNotations.
Local Open Scope nat_scope.

Lemma renumbered_includes L E nu c c' : renumbered E nu L c c' -> includes_of L c = includes_of L c'.
Proof.
  intros (ts & ts' & Lx & Lx' & Q & _). unfold includes_of. rewrite !C38_includes, Lx, Lx'.
  assert (G : forall us, map fst us = map (number_token nu) (map fst ts) -> included_strings (input_of 0 c ts) = included_strings (input_of 0 c' us)); [|exact (G ts' Q)].
  clear Lx' ts' Q. intros us Q. unfold included_strings. cbn [input_of in_tokens].
  assert (Ln : List.length us = List.length ts) by (apply (f_equal (@List.length _)) in Q; rewrite !map_length in Q; exact Q). rewrite Ln.
  apply flat_map_ext. intro i. unfold included_at. cbn [input_of in_tokens].
  assert (T : forall j, option_map fst (nth_error us j) = option_map (number_token nu) (option_map fst (nth_error ts j))).
  { intro j. pose proof (f_equal (fun l => nth_error l j) Q) as H. cbn beta in H. rewrite !nth_error_map in H. exact H. }
  pose proof (T i) as T0. pose proof (T (S i)) as T1. clear T.
  destruct (nth_error ts i) as [[t r]|]; destruct (nth_error us i) as [[u r']|]; try discriminate T0; [|reflexivity]. cbn in T0. injection T0 as ->.
  destruct (nth_error ts (S i)) as [[v q]|]; destruct (nth_error us (S i)) as [[w q']|]; try discriminate T1; cbn in T1; [injection T1 as ->|].
  - destruct t; try reflexivity. destruct k; try reflexivity. destruct v; reflexivity.
  - destruct t; try reflexivity.
Qed.

(** ** The declarations of the files *)
Lemma renumbered_tiles L E (En : environment_ok E) nu id file c ts c' ts' (R : span -> span -> Prop) :
  map fst ts' = map (number_token nu) (map fst ts) -> calculable E (input_of 0 c ts) -> calculable E (input_of 0 c' ts') -> lex L c = Fine (Some ts) -> lex L c' = Fine (Some ts') ->
  (forall sp sp', token_place L (id, file, c) (id, file, c') sp sp' -> R sp sp') ->
  forall r r' ds ws r1, alike_rules r r' -> tiles E (input_of id c ts) file r 0 ds [] ws r1 ->
  exists ds' ws' r1', tiles E (input_of id c' ts') file r' 0 ds' [] ws' r1' /\ Forall2 (alike_declaration R) (map (in_place (number_declaration E nu)) ds) ds' /\
    map rp_problem ws = map rp_problem ws' /\ alike_rules r1 r1'.
Proof.
  intros Q Ca Cc Lx Lx' Pl r r' ds ws r1 Ar T.
  set (tj := map (fun x => (number_token nu (fst x), snd x)) ts). set (I := input_of id c ts) in *. set (J0 := input_of id c tj).
  assert (Tk : in_tokens J0 = map (fun x => (number_token nu (fst x), snd x)) (in_tokens I)) by reflexivity.
  assert (Same : map fst (in_tokens J0) = map fst (in_tokens (input_of id c' ts'))) by (cbn; rewrite Q; unfold tj; rewrite !map_map; reflexivity).
  assert (Ci : calculable E I) by (eapply same_calculable; [|exact Ca]; reflexivity).
  assert (Cj : calculable E J0) by (eapply same_calculable; [|exact Cc]; symmetry; exact Same).
  pose proof (tiles_J E nu I J0 Ci Cj eq_refl eq_refl Tk (fun i j e S => proj1 (proj1 (bounds I) i j e S)) file
    (fun r0 i H => ParseOnce.not_indented E I file r0 i H) r 0 ds [] ws r1 T) as TJ.
  destruct (same_tiles E J0 (input_of id c' ts') file R Same (env_order _ En)) with (2 := TJ) (r' := r') as (ds' & ws' & r1' & T' & Al & W & Ar'); [|exact Ar|].
  { intros k t Tt. apply Pl. apply (other_I nu I J0 Tk) in Tt; [|exact Logic.I].
    exists ts, ts', k, t. repeat (split; [assumption|]). split; [apply (text_J nu I J0 eq_refl eq_refl Tk)|reflexivity]. }
  exists ds', ws', r1'. auto.
Qed.
Lemma renumbered_files_tiled L E (En : environment_ok E) nu (R : span -> span -> Prop) : forall cs cs',
  Forall2 (fun x y => fst x = fst y /\ renumbered E nu L (snd x) (snd y)) cs cs' ->
  Forall2 (fun x y => forall sp sp', token_place L x y sp sp' -> R sp sp') cs cs' ->
  forall r r' fs ws r1, alike_rules r r' -> files_tiled L E r cs fs [] ws r1 ->
  exists fs' ws' r1', files_tiled L E r' cs' fs' [] ws' r1' /\ Forall2 (alike_file R) (map (number_file E nu) fs) fs' /\ map rp_problem ws = map rp_problem ws' /\ alike_rules r1 r1'.
Proof.
  intros cs cs' F. induction F as [|[[id file] c] [[id' file'] c'] cs cs' [Q T] F IH]; intros P r r' fs ws r1 Ar Ti.
  - inversion Ti; subst. exists [], [], r'. repeat (split; [try constructor; try reflexivity|]); exact Ar || apply Ar.
  - remember (@nil report) as es0 eqn:Qe in Ti. inversion Ti as [|r0 i0 f0 c0 toks cs0 ds es ws1 r2 fs1 es' ws2 r3 Lx Tl Tr]; subst.
    match goal with H : _ ++ _ = [] |- _ => apply app_eq_nil in H; destruct H as [-> ->] end. cbn in Q. injection Q as <- <-.
    inversion P as [|? ? ? ? Px Pr]; subst. destruct T as (ts & ts' & L1 & L2 & Tq & Ca & Cc). cbn [snd] in L1, L2. rewrite Lx in L1. injection L1 as <-.
    destruct (renumbered_tiles L E En nu id file c toks c' ts' R Tq Ca Cc Lx L2 Px _ _ _ _ _ Ar Tl) as (ds' & ws1' & r2' & Tl' & Fd & W1 & Ar2).
    destruct (IH Pr _ _ _ _ _ Ar2 Tr) as (fs' & ws2' & r3' & Tr' & Ff & W2 & Ar3).
    exists ((file, ds') :: fs'), (ws1' ++ ws2'), r3'. split; [change (@nil report) with (@nil report ++ []); econstructor; eassumption|].
    split; [cbn [map]; constructor; [split; [reflexivity|exact Fd]|exact Ff]|]. split; [rewrite !map_app, W1, W2; reflexivity|exact Ar3].
Qed.
Lemma renumbered_fine L E nu id c c' : renumbered E nu L c c' -> fine_content L E id c -> fine_content L E id c'.
Proof.
  intros (ts & ts' & Lx & Lx' & Q & Ca & Cc) (t & X & C & O). rewrite Lx in X. injection X as <-.
  set (tj := map (fun x => (number_token nu (fst x), snd x)) ts). set (I := input_of id c ts) in *. set (J0 := input_of id c tj).
  assert (Tk : in_tokens J0 = map (fun x => (number_token nu (fst x), snd x)) (in_tokens I)) by reflexivity.
  assert (Same : map fst (in_tokens J0) = map fst (in_tokens (input_of id c' ts'))) by (cbn; rewrite Q; unfold tj; rewrite !map_map; reflexivity).
  exists ts'. split; [exact Lx'|]. split.
  - eapply same_computable; [exact Same|]. apply computable_from; [|eapply same_calculable; [|exact Cc]; symmetry; exact Same].
    intros i s T. apply (com_ascii _ _ C i s). apply (other_I nu I J0 Tk); [exact Logic.I|exact T].
  - eapply same_fine_options; [exact Same|]. exact (fine_options_J nu I J0 Tk O).
Qed.

Section Files.
  Context (L : lexer_env) (E : grammar_env) (En : environment_ok E) (U : unicode_ok (le_unicode L)).
  Context (glob_with : str -> result (list glob_item) str) (canonicalize : path -> option path).
  Context (Cano : forall p q c d, same_path p q -> canonicalize p = Some c -> canonicalize q = Some d -> same_path c d).
  Context (canonicalize' : path -> option path) (root : option path).
  Context (Root : forall p, root = Some p -> canonicalize p <> None).

  (** Replace each file by another one with other numbers, such that all which can be
      read as an expression in any of them can be calculated: the ledger is the same
      with the expressions of the other numbers, and with what they come to. *)
  Theorem C87_files : forall nu read read' fuel content content' s ds opts ps ws,
    same_reading (renumbered E nu L) read read' -> renumbered E nu L content content' ->
    read_with_includes (includes_of L) glob_with canonicalize read fuel root content = Some s ->
    (forall id f c, In (id, f, c) (content_iter s) -> fine_content L E id c) ->
    parsed_from L E canonicalize' s = Fine (Some (Success ds opts ps ws)) ->
    exists s' ds' opts' ps' ws',
      read_with_includes (includes_of L) glob_with canonicalize read' fuel root content' = Some s' /\
      parsed_from L E canonicalize' s' = Fine (Some (Success ds' opts' ps' ws')) /\
      Forall2 (fun d d' => alike (number_directive (g_ops E) nu (item d)) (item d')) ds ds' /\
      alike_options opts opts' /\ Forall2 alike_plugin ps ps' /\ map rp_problem ws = map rp_problem ws'.
  Proof.
    intros nu read read' fuel content content' s ds opts ps ws Same Rn Rd Fi Pf.
    pose proof (alike_read L glob_with canonicalize read read' (renumbered E nu L) (fun c c' H => renumbered_includes L E nu c c' H) Same fuel root content content' Rn) as H.
    rewrite Rd in H. destruct (read_with_includes (includes_of L) glob_with canonicalize read' fuel root content') as [s'|] eqn:Rd'; [|contradiction].
    destruct H as [[Sr Sg Se Sc] _]. exists s'.
    unfold parsed_from in Pf. destruct (parser_new L s) as [[toks|]|] eqn:Pn; try discriminate.
    pose proof (reads_itself L glob_with canonicalize root _ _ _ _ Rd) as Reads.
    destruct (success_all L E En U glob_with canonicalize read Cano canonicalize' fuel root content s Reads Root toks ds opts ps ws Pn Fi Pf)
      as (rootds & others & rE & po & es & rest & yielded & Ti & Nd & W & Du & Le & Y & So & Ob & -> & ->).
    set (K := fun sp sp' => exists x y, In (x, y) (combine (content_iter s) (content_iter s')) /\ token_place L x y sp sp').
    assert (Kin : forall a b a' b', K a a' -> K b b' -> a = b -> a' = b').
    { assert (Si : forall x y, In (x, y) (combine (content_iter s) (content_iter s')) -> fst (fst x) = fst (fst y)).
      { clear - Sc. intros x y Hin. induction Sc as [|u v l l' [Q _] F IH]; [destruct Hin|]. destruct Hin as [Z|Hin]; [injection Z as <- <-; now rewrite Q|auto]. }
      intros a b a' b' (x & y & Hin & P) (x' & y' & Hin' & P'). apply (token_place_functional L x y x' y'); auto; [intros c ts; apply lexed_separate; exact U|].
      intro Q. pose proof (proj1 (C05_ids _ _ _ _ _ _ _ _ Reads)) as Nd'.
      clear - Nd' Hin Hin' Q. revert Nd' Hin Hin'. generalize (content_iter s') as m. induction (content_iter s) as [|u l IH]; intros m Nd' Hin Hin'; [destruct Hin|].
      destruct m as [|v m]; [destruct Hin|]. cbn in Nd'. apply NoDup_cons_iff in Nd'. destruct Nd' as [Nu Nd']. cbn in Hin, Hin'.
      destruct Hin as [Z|Hin], Hin' as [Z'|Hin'].
      - injection Z as <- <-. injection Z' as <- <-. auto.
      - exfalso. injection Z as <- <-. apply Nu. rewrite Q. apply (in_map (fun x => fst (fst x))). eapply in_combine_l. exact Hin'.
      - exfalso. injection Z' as <- <-. apply Nu. rewrite <- Q. apply (in_map (fun x => fst (fst x))). eapply in_combine_l. exact Hin.
      - exact (IH m Nd' Hin Hin'). }
    assert (Pl : Forall2 (fun x y => forall sp sp', token_place L x y sp sp' -> K sp sp') (content_iter s) (content_iter s')).
    { assert (In1 : forall x y, In (x, y) (combine (content_iter s) (content_iter s')) -> forall sp sp', token_place L x y sp sp' -> K sp sp') by (intros x y Hin sp sp' P; exists x, y; auto).
      clearbody K. clear - Sc In1. induction Sc as [|x y l l' A F IH]; constructor; [apply In1; left; reflexivity|]. apply IH. intros u v Hin. apply In1. right. exact Hin. }
    destruct (renumbered_files_tiled L E En nu K _ _ Sc Pl initial_rules initial_rules _ _ _ (conj eq_refl eq_refl) Ti) as (fs' & ws' & r1' & Ti' & Ff & Qw & Ar).
    cbn [map] in Ff. inversion Ff as [|? [root' rootds'] ? others' [Qr Fr] Fo]; subst. cbn [fst snd number_file] in Qr, Fr. subst root'.
    pose proof (proj1 (any_walk E nu (included_globs s)) _ _ _ _ _ W) as Wn.
    destruct (proj1 (alike_walk K (included_globs s)) _ _ _ _ _ Wn _ _ Fo Fr) as (es' & rest' & W' & Ae & _).
    pose proof (walk_one_push L E En U _ _ _ _ _ _ _ _ _ (proj1 (C05_ids _ _ _ _ _ _ _ _ Reads)) Fi Ti W) as One.
    pose proof (any_dues E nu _ _ _ [] _ One Du) as Dn. cbn [map] in Dn.
    pose proof (alike_dues K Kin _ _ _ _ _ Dn [] es' (Forall2_nil _) Ae) as Du'.
    pose proof (alike_leftover K _ _ Ae (any_leftover E nu _ Le)) as Le'.
    assert (Fi' : forall id f c, In (id, f, c) (content_iter s') -> fine_content L E id c).
    { intros id f c Hin. destruct (forall2_in_r _ _ _ Sc _ Hin) as ([[id0 f0] c0] & Hin' & Q & A). cbn in Q, A. injection Q as -> ->. eapply renumbered_fine; [exact A|]. apply (Fi id f). exact Hin'. }
    rewrite Sg in W', Du'. rewrite Se in Du'.
    destruct (all_parses L E En U glob_with canonicalize Cano canonicalize' root Root read' fuel content' s' rootds' others' r1' ws' es' rest' Rd' Fi' Ti' W' Du' Le') as (po2 & y2 & sorted & Y2 & So2 & Ob2 & Ps).
    exists sorted, (fst (assimilate_all (options_new po2) (options_of es'))), (plugins_of es'), ws'.
    split; [reflexivity|]. split; [exact Ps|]. split; [|split; [|split; [|exact Qw]]].
    - pose proof (any_yields E nu _ _ _ Y) as Yn. cbn [map] in Yn.
      assert (X : Forall2 (fun d d' => alike (item d) (item d')) (map (in_place (number_directive (g_ops E) nu)) ds) sorted).
      { eapply alike_sorted; [|exact (numbered_sorted E nu _ _ So)|exact So2]. eapply (alike_yields K); [exact Yn|apply Forall2_nil|exact Ae|exact Y2]. }
      clear - X. remember (map (in_place (number_directive (g_ops E) nu)) ds) as l eqn:Q. revert ds Q.
      induction X as [|x y l l' A Al IH]; intros [|d ds] Q; try discriminate; constructor; cbn in Q; injection Q as -> Q; auto.
    - apply (ruled_opts E _ _ rE r1'); auto. rewrite <- (any_options E nu es). eapply alike_options_of. exact Ae.
    - pose proof (alike_plugins_of K _ _ Ae) as X. rewrite (any_plugins E nu) in X. exact X.
  Qed.

  (** If the one can be changed back into the other, one is parsed successfully just
      when the other one is. *)
  Theorem C87_exactly : forall nu back read read' fuel content content' s s',
    same_reading (renumbered E nu L) read read' -> renumbered E nu L content content' -> same_reading (renumbered E back L) read' read -> renumbered E back L content' content ->
    read_with_includes (includes_of L) glob_with canonicalize read fuel root content = Some s ->
    read_with_includes (includes_of L) glob_with canonicalize read' fuel root content' = Some s' ->
    (forall id f c, In (id, f, c) (content_iter s) -> fine_content L E id c) ->
    (exists ds opts ps ws, parsed_from L E canonicalize' s = Fine (Some (Success ds opts ps ws))) <->
    (exists ds opts ps ws, parsed_from L E canonicalize' s' = Fine (Some (Success ds opts ps ws))).
  Proof.
    intros nu back read read' fuel content content' s s' Sr Rc Sr' Rc' Rd Rd' Fi.
    pose proof (alike_read L glob_with canonicalize read read' (renumbered E nu L) (fun c c' H => renumbered_includes L E nu c c' H) Sr fuel root content content' Rc) as H.
    rewrite Rd, Rd' in H. destruct H as [[_ _ _ Sc] _].
    assert (Fi' : forall id f c, In (id, f, c) (content_iter s') -> fine_content L E id c).
    { intros id f c Hin. destruct (forall2_in_r _ _ _ Sc _ Hin) as ([[id0 f0] c0] & Hin' & Q & A). cbn in Q, A. injection Q as -> ->. eapply renumbered_fine; [exact A|]. apply (Fi id f). exact Hin'. }
    split; intros (ds & opts & ps & ws & P).
    - destruct (C87_files nu read read' fuel content content' s ds opts ps ws Sr Rc Rd Fi P) as (s2 & ds' & opts' & ps' & ws' & R2 & P2 & _). rewrite Rd' in R2. injection R2 as <-. eauto.
    - destruct (C87_files back read' read fuel content' content s' ds opts ps ws Sr' Rc' Rd' Fi' P) as (s2 & ds' & opts' & ps' & ws' & R2 & P2 & _). rewrite Rd in R2. injection R2 as <-. eauto.
  Qed.

  (** Where no operator follows a number or a closing parenthesis, any numbers can
      take the place of any others. *)
  Theorem C87_alone : forall nu c c' ts ts', lex L c = Fine (Some ts) -> lex L c' = Fine (Some ts') ->
    map fst ts' = map (number_token nu) (map fst ts) -> numbers_alone (map fst ts) -> renumbered E nu L c c'.
  Proof.
    intros nu c c' ts ts' Lx Lx' Q A. exists ts, ts'. split; [exact Lx|]. split; [exact Lx'|]. split; [exact Q|].
    split; apply alone_calculable; [exact A|]. cbn. rewrite Q. apply numbers_alone_by. exact A.
  Qed.
End Files.

(** ** A case: two files, the second included twice while there is metadata pushed *)
Definition ex_few : str :=
  lit "pushmeta nr: 3" ++ [10%N] ++ lit "include ""b.bean""" ++ [10%N] ++ lit "include ""b.bean""" ++ [10%N] ++
  lit "2024-01-02 txn ""x""" ++ [10%N] ++ lit "  Assets:Cash (5.25) USD" ++ [10%N] ++ lit "  Income:Gift" ++ [10%N] ++ lit "popmeta nr:" ++ [10%N].
Definition ex_few_b : str := lit "2024-01-01 open Assets:Cash USD" ++ [10%N] ++ lit "  of: 1 USD" ++ [10%N] ++ lit "2024-01-04 price USD 1.5 CHF" ++ [10%N].
Definition ex_many : str :=
  lit "pushmeta nr:  13" ++ [10%N] ++ lit "include ""b.bean""" ++ [10%N] ++ lit "include ""b.bean""" ++ [10%N] ++
  lit "2024-01-02 txn ""x""" ++ [10%N] ++ lit "  Assets:Cash   (5.35) USD" ++ [10%N] ++ lit "  Income:Gift" ++ [10%N] ++ lit "popmeta nr:" ++ [10%N].
Definition ex_many_b : str := lit "2024-01-01 open Assets:Cash USD" ++ [10%N] ++ lit "  of: 11 USD" ++ [10%N] ++ lit "2024-01-04 price USD 2.5 CHF" ++ [10%N].
Lemma check_renumbered nu c c' : check_content P_Lexer.ex_env P_Grammar.ex_env 0 c = true -> check_content P_Lexer.ex_env P_Grammar.ex_env 0 c' = true ->
  map fst (ex_lexed c') = map (number_token nu) (map fst (ex_lexed c)) -> check_alone (map fst (ex_lexed c)) = true -> renumbered P_Grammar.ex_env nu P_Lexer.ex_env c c'.
Proof.
  intros C C' Q A. apply (C87_alone P_Lexer.ex_env P_Grammar.ex_env nu c c' (ex_lexed c) (ex_lexed c')); auto using ex_lexes, check_alone_ok.
Qed.
Example C87_files_ex : exists s ds opts ps ws,
  same_reading (renumbered P_Grammar.ex_env ex_nu P_Lexer.ex_env) (ex_read_b ex_few_b) (ex_read_b ex_many_b) /\ renumbered P_Grammar.ex_env ex_nu P_Lexer.ex_env ex_few ex_many /\
  read_with_includes (includes_of P_Lexer.ex_env) ex_glob ex_canonicalize (ex_read_b ex_few_b) 5 ex_root ex_few = Some s /\
  (forall id f c, In (id, f, c) (content_iter s) -> fine_content P_Lexer.ex_env P_Grammar.ex_env id c) /\
  parsed_from P_Lexer.ex_env P_Grammar.ex_env ex_canonicalize s = Fine (Some (Success ds opts ps ws)) /\ List.length ds = 3 /\ num_sources s = 2.
Proof.
  destruct (ex_two ex_few ex_few_b) as [[s [ds opts ps ws|]]|] eqn:X; try (vm_compute in X; discriminate X).
  exists s, ds, opts, ps, ws. destruct (ex_two_is _ _ _ _ X) as [Rd Ps].
  split; [intro p; unfold ex_read_b; destruct (path_eqb p (lit "/d/b.bean")); [|reflexivity]; apply check_renumbered; vm_compute; reflexivity|].
  split; [apply check_renumbered; vm_compute; reflexivity|]. split; [exact Rd|]. split.
  { assert (D : content_iter s = [(0, ex_root, ex_few); (1, Some (lit "/d/b.bean"), ex_few_b)]).
    { clear - Rd. vm_compute in Rd. injection Rd as <-. vm_compute. reflexivity. }
    rewrite D. intros id f c [Q|[Q|[]]]; injection Q as <- <- <-; apply check_content_ok; vm_compute; reflexivity. }
  split; [exact Ps|]. clear - X. vm_compute in X. injection X as <- <- _ _ _. split; reflexivity.
Qed.

(** And back. *)
Definition ex_nu_back (d : decimal) : decimal := mk_dec (dec_neg d) (dec_mant d - 10) (dec_scale d).
Example C87_exactly_ex : exists s s',
  same_reading (renumbered P_Grammar.ex_env ex_nu P_Lexer.ex_env) (ex_read_b ex_few_b) (ex_read_b ex_many_b) /\ renumbered P_Grammar.ex_env ex_nu P_Lexer.ex_env ex_few ex_many /\
  same_reading (renumbered P_Grammar.ex_env ex_nu_back P_Lexer.ex_env) (ex_read_b ex_many_b) (ex_read_b ex_few_b) /\ renumbered P_Grammar.ex_env ex_nu_back P_Lexer.ex_env ex_many ex_few /\
  read_with_includes (includes_of P_Lexer.ex_env) ex_glob ex_canonicalize (ex_read_b ex_few_b) 5 ex_root ex_few = Some s /\
  read_with_includes (includes_of P_Lexer.ex_env) ex_glob ex_canonicalize (ex_read_b ex_many_b) 5 ex_root ex_many = Some s' /\
  (forall id f c, In (id, f, c) (content_iter s) -> fine_content P_Lexer.ex_env P_Grammar.ex_env id c).
Proof.
  destruct C87_files_ex as (s & _ & _ & _ & _ & Sr & Rc & Rd & Fi & _).
  destruct (ex_two ex_many ex_many_b) as [[s' x]|] eqn:X; try (vm_compute in X; discriminate X). destruct (ex_two_is _ _ _ _ X) as [Rd' _].
  exists s, s'. split; [exact Sr|]. split; [exact Rc|].
  split; [intro p; unfold ex_read_b; destruct (path_eqb p (lit "/d/b.bean")); [|reflexivity]; apply check_renumbered; vm_compute; reflexivity|].
  split; [apply check_renumbered; vm_compute; reflexivity|]. auto.
Qed.

Print Assumptions C87_files.
Print Assumptions C87_exactly.
Print Assumptions C87_alone.
