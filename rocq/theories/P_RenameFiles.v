(** * C85: accounts renamed in several files *)
From Coq Require Import String Ascii.
From Coq Require Import List NArith ZArith Arith Bool Lia Permutation.
From Verif Require Import Base BaseFacts Text Path PathFacts Sources Types SpecTypes TypesFacts P_Types SortM SpecSort P_Sort Options SpecOptions OptionsFacts P_Options
  Pragma SpecPragma PragmaRun P_Pragma Read SpecRead ReadFacts P_Read
  Token Lexer SpecLexer P_Lexer Peg PegFacts Grammar SpecExpr SpecGrammar SpecDirective SpecDisplay SpecLedger SpecAlike ExprFacts P_Grammar
  Parse SpecParse SpecWhole ParseFacts ParseOnce ParseFile P_File P_Includes P_Parse IncludeTokens P_Order P_Complete AlikeEquiv AlikeRead AlikeFile AlikeWalk AlikeOptions SortFacts SimCopy SpecPaste Paste P_Paste SpecLayout P_Layout SpecAppend Append P_Append
  SpecNames P_NamesFiles SpecRename Rename RenameRun RenameFiles P_Rename.
Import SpecPragma Read.
Import ListNotations.
Local Open Scope nat_scope.

Lemma reaccounted_includes L rn c c' : reaccounted rn L c c' -> includes_of L c = includes_of L c'.
Proof.
  intros (ts & ts' & Lx & Lx' & Q). unfold includes_of. rewrite !C38_includes, Lx, Lx'.
  assert (G : forall us, map fst us = map (rename_token rn) (map fst ts) -> included_strings (input_of 0 c ts) = included_strings (input_of 0 c' us)); [|exact (G ts' Q)].
  clear Lx' ts' Q. intros us Q. unfold included_strings. cbn [input_of in_tokens].
  assert (Ln : List.length us = List.length ts) by (apply (f_equal (@List.length _)) in Q; rewrite !map_length in Q; exact Q). rewrite Ln.
  apply flat_map_ext. intro i. unfold included_at. cbn [input_of in_tokens].
  assert (T : forall j, option_map fst (nth_error us j) = option_map (rename_token rn) (option_map fst (nth_error ts j))).
  { intro j. pose proof (f_equal (fun l => nth_error l j) Q) as H. cbn beta in H. rewrite !nth_error_map in H. exact H. }
  pose proof (T i) as T0. pose proof (T (S i)) as T1. clear T.
  destruct (nth_error ts i) as [[t r]|]; destruct (nth_error us i) as [[u r']|]; try discriminate T0; [|reflexivity]. cbn in T0. injection T0 as ->.
  destruct (nth_error ts (S i)) as [[v q]|]; destruct (nth_error us (S i)) as [[w q']|]; try discriminate T1; cbn in T1; [injection T1 as ->|].
  - destruct t; try reflexivity. destruct k; try reflexivity. destruct v; reflexivity.
  - destruct t; try reflexivity.
Qed.

(** ** The declarations of the files *)
Lemma reaccounted_tiles L E (En : environment_ok E) rn (Kt : keeps_types rn (g_unicode E)) id file c ts c' ts' (R : span -> span -> Prop) :
  map fst ts' = map (rename_token rn) (map fst ts) -> lex L c = Fine (Some ts) -> lex L c' = Fine (Some ts') ->
  (forall sp sp', token_place L (id, file, c) (id, file, c') sp sp' -> R sp sp') ->
  forall r r' ds ws r1, valid_names E r -> alike_rules r r' -> tiles E (input_of id c ts) file r 0 ds [] ws r1 ->
  exists ds' ws' r1', tiles E (input_of id c' ts') file r' 0 ds' [] ws' r1' /\ Forall2 (alike_declaration R) (map (in_place (rename_declaration rn)) ds) ds' /\
    map rp_problem ws = map rp_problem ws' /\ valid_names E r1 /\ alike_rules r1 r1'.
Proof.
  intros Q Lx Lx' Pl r r' ds ws r1 V Ar T.
  set (tj := map (fun x => (rename_token rn (fst x), snd x)) ts). set (I := input_of id c ts) in *. set (J0 := input_of id c tj).
  assert (Tk : in_tokens J0 = map (fun x => (rename_token rn (fst x), snd x)) (in_tokens I)) by reflexivity.
  destruct (tiles_any E rn I J0 Kt eq_refl eq_refl Tk (fun i j e S => proj1 (proj1 (bounds I) i j e S)) file
    (fun r0 i H => ParseOnce.not_indented E I file r0 i H) r 0 ds [] ws r1 V T) as (V1 & TJ).
  assert (Same : map fst (in_tokens J0) = map fst (in_tokens (input_of id c' ts'))) by (cbn; rewrite Q; unfold tj; rewrite !map_map; reflexivity).
  destruct (same_tiles E J0 (input_of id c' ts') file R Same (env_order _ En)) with (2 := TJ) (r' := r') as (ds' & ws' & r1' & T' & Al & W & Ar'); [|exact Ar|].
  { intros k t Tt. apply Pl. apply (other_I rn I J0 Tk) in Tt; [|exact Logic.I].
    exists ts, ts', k, t. repeat (split; [assumption|]). split; [apply (text_J rn I J0 eq_refl eq_refl Tk)|reflexivity]. }
  exists ds', ws', r1'. auto.
Qed.
Lemma reaccounted_files_tiled L E (En : environment_ok E) rn (Kt : keeps_types rn (g_unicode E)) (R : span -> span -> Prop) : forall cs cs',
  Forall2 (fun x y => fst x = fst y /\ reaccounted rn L (snd x) (snd y)) cs cs' ->
  Forall2 (fun x y => forall sp sp', token_place L x y sp sp' -> R sp sp') cs cs' ->
  forall r r' fs ws r1, valid_names E r -> alike_rules r r' -> files_tiled L E r cs fs [] ws r1 ->
  exists fs' ws' r1', files_tiled L E r' cs' fs' [] ws' r1' /\ Forall2 (alike_file R) (map (rename_file rn) fs) fs' /\ map rp_problem ws = map rp_problem ws' /\ alike_rules r1 r1'.
Proof.
  intros cs cs' F. induction F as [|[[id file] c] [[id' file'] c'] cs cs' [Q T] F IH]; intros P r r' fs ws r1 V Ar Ti.
  - inversion Ti; subst. exists [], [], r'. repeat (split; [try constructor; try reflexivity|]); exact Ar || apply Ar.
  - remember (@nil report) as es0 eqn:Qe in Ti. inversion Ti as [|r0 i0 f0 c0 toks cs0 ds es ws1 r2 fs1 es' ws2 r3 Lx Tl Tr]; subst.
    match goal with H : _ ++ _ = [] |- _ => apply app_eq_nil in H; destruct H as [-> ->] end. cbn in Q. injection Q as <- <-.
    inversion P as [|? ? ? ? Px Pr]; subst. destruct T as (ts & ts' & L1 & L2 & Tq). cbn [snd] in L1, L2. rewrite Lx in L1. injection L1 as <-.
    destruct (reaccounted_tiles L E En rn Kt id file c toks c' ts' R Tq Lx L2 Px _ _ _ _ _ V Ar Tl) as (ds' & ws1' & r2' & Tl' & Fd & W1 & V2 & Ar2).
    destruct (IH Pr _ _ _ _ _ V2 Ar2 Tr) as (fs' & ws2' & r3' & Tr' & Ff & W2 & Ar3).
    exists ((file, ds') :: fs'), (ws1' ++ ws2'), r3'. split; [change (@nil report) with (@nil report ++ []); econstructor; eassumption|].
    split; [cbn [map]; constructor; [split; [reflexivity|exact Fd]|exact Ff]|]. split; [rewrite !map_app, W1, W2; reflexivity|exact Ar3].
Qed.
Lemma reaccounted_fine L E rn id c c' : reaccounted rn L c c' -> fine_content L E id c -> fine_content L E id c'.
Proof.
  intros (ts & ts' & Lx & Lx' & Q) (t & X & C & O). rewrite Lx in X. injection X as <-.
  set (tj := map (fun x => (rename_token rn (fst x), snd x)) ts). set (I := input_of id c ts) in *. set (J0 := input_of id c tj).
  assert (Tk : in_tokens J0 = map (fun x => (rename_token rn (fst x), snd x)) (in_tokens I)) by reflexivity.
  assert (Same : map fst (in_tokens J0) = map fst (in_tokens (input_of id c' ts'))) by (cbn; rewrite Q; unfold tj; rewrite !map_map; reflexivity).
  exists ts'. split; [exact Lx'|]. split.
  - eapply same_computable; [exact Same|]. exact (computable_J E rn I J0 Tk C).
  - eapply same_fine_options; [exact Same|]. exact (fine_options_J rn I J0 Tk O).
Qed.

Section Files.
  Context (L : lexer_env) (E : grammar_env) (En : environment_ok E) (U : unicode_ok (le_unicode L)).
  Context (glob_with : str -> result (list glob_item) str) (canonicalize : path -> option path).
  Context (Cano : forall p q c d, same_path p q -> canonicalize p = Some c -> canonicalize q = Some d -> same_path c d).
  Context (canonicalize' : path -> option path) (root : option path).
  Context (Root : forall p, root = Some p -> canonicalize p <> None).

  (** Replace each file by another one with the accounts renamed: the ledger is the
      same with them renamed. *)
  Theorem C85_files : forall rename read read' fuel content content' s ds opts ps ws,
    keeps_types rename (g_unicode E) -> same_reading (reaccounted rename L) read read' -> reaccounted rename L content content' ->
    read_with_includes (includes_of L) glob_with canonicalize read fuel root content = Some s ->
    (forall id f c, In (id, f, c) (content_iter s) -> fine_content L E id c) ->
    parsed_from L E canonicalize' s = Fine (Some (Success ds opts ps ws)) ->
    exists s' ds' opts' ps' ws',
      read_with_includes (includes_of L) glob_with canonicalize read' fuel root content' = Some s' /\
      parsed_from L E canonicalize' s' = Fine (Some (Success ds' opts' ps' ws')) /\
      Forall2 (fun d d' => alike (rename_directive rename (item d)) (item d')) ds ds' /\
      alike_options opts opts' /\ Forall2 alike_plugin ps ps' /\ map rp_problem ws = map rp_problem ws'.
  Proof.
    intros rename read read' fuel content content' s ds opts ps ws Fa Same Rn Rd Fi Pf.
    pose proof (alike_read L glob_with canonicalize read read' (reaccounted rename L) (fun c c' H => reaccounted_includes L rename c c' H) Same fuel root content content' Rn) as H.
    rewrite Rd in H. destruct (read_with_includes (includes_of L) glob_with canonicalize read' fuel root content') as [s'|] eqn:Rd'; [|contradiction].
    destruct H as [[Sr Sg Se Sc] _]. exists s'.
    unfold parsed_from in Pf. destruct (parser_new L s) as [[toks|]|] eqn:Pn; try discriminate.
    pose proof (reads_itself L glob_with canonicalize root _ _ _ _ Rd) as Reads.
    destruct (success_all L E En U glob_with canonicalize read Cano canonicalize' fuel root content s Reads Root toks ds opts ps ws Pn Fi Pf)
      as (rootds & others & rE & po & es & rest & yielded & Ti & Nd & W & Du & Le & Y & So & Ob & -> & ->).
    set (K := fun sp sp' => exists x y, In (x, y) (combine (content_iter s) (content_iter s')) /\ token_place L x y sp sp').
    assert (Kin : forall a b a' b', K a a' -> K b b' -> a = b -> a' = b').
    { assert (Si : forall x y, In (x, y) (combine (content_iter s) (content_iter s')) -> fst (fst x) = fst (fst y)).
      { clear - Sc. intros x y Hin. induction Sc as [|u v l l' [Q _] F IH]; [destruct Hin|]. destruct Hin as [Z|Hin]; [injection Z as <- <-; now rewrite Q|auto]. }
      intros a b a' b' (x & y & Hin & P) (x' & y' & Hin' & P'). apply (token_place_functional L x y x' y'); auto; [intros c ts; apply lexed_separate; exact U|].
      intro Q. pose proof (proj1 (C05_ids _ _ _ _ _ _ _ _ Reads)) as Nd'.
      clear - Nd' Hin Hin' Q. revert Nd' Hin Hin'. generalize (content_iter s') as m. induction (content_iter s) as [|u l IH]; intros m Nd' Hin Hin'; [destruct Hin|].
      destruct m as [|v m]; [destruct Hin|]. cbn in Nd'. apply NoDup_cons_iff in Nd'. destruct Nd' as [Nu Nd']. cbn in Hin, Hin'.
      destruct Hin as [Z|Hin], Hin' as [Z'|Hin'].
      - injection Z as <- <-. injection Z' as <- <-. auto.
      - exfalso. injection Z as <- <-. apply Nu. rewrite Q. apply (in_map (fun x => fst (fst x))). eapply in_combine_l. exact Hin'.
      - exfalso. injection Z' as <- <-. apply Nu. rewrite <- Q. apply (in_map (fun x => fst (fst x))). eapply in_combine_l. exact Hin.
      - exact (IH m Nd' Hin Hin'). }
    assert (Pl : Forall2 (fun x y => forall sp sp', token_place L x y sp sp' -> K sp sp') (content_iter s) (content_iter s')).
    { assert (In1 : forall x y, In (x, y) (combine (content_iter s) (content_iter s')) -> forall sp sp', token_place L x y sp sp' -> K sp sp') by (intros x y Hin sp sp' P; exists x, y; auto).
      clearbody K. clear - Sc In1. induction Sc as [|x y l l' A F IH]; constructor; [apply In1; left; reflexivity|]. apply IH. intros u v Hin. apply In1. right. exact Hin. }
    destruct (reaccounted_files_tiled L E En rename Fa K _ _ Sc Pl initial_rules initial_rules _ _ _ (fun t => default_names_valid _ t (env_unicode _ En)) (conj eq_refl eq_refl) Ti) as (fs' & ws' & r1' & Ti' & Ff & Qw & Ar).
    cbn [map] in Ff. inversion Ff as [|? [root' rootds'] ? others' [Qr Fr] Fo]; subst. cbn [fst snd rename_file] in Qr, Fr. subst root'.
    pose proof (proj1 (any_walk rename (included_globs s)) _ _ _ _ _ W) as Wn.
    destruct (proj1 (alike_walk K (included_globs s)) _ _ _ _ _ Wn _ _ Fo Fr) as (es' & rest' & W' & Ae & _).
    pose proof (any_dues rename _ _ _ _ _ Du) as Dn. cbn [map] in Dn.
    pose proof (alike_dues K Kin _ _ _ _ _ Dn [] es' (Forall2_nil _) Ae) as Du'.
    pose proof (alike_leftover K _ _ Ae (any_leftover rename _ Le)) as Le'.
    assert (Fi' : forall id f c, In (id, f, c) (content_iter s') -> fine_content L E id c).
    { intros id f c Hin. destruct (forall2_in_r _ _ _ Sc _ Hin) as ([[id0 f0] c0] & Hin' & Q & A). cbn in Q, A. injection Q as -> ->. eapply reaccounted_fine; [exact A|]. apply (Fi id f). exact Hin'. }
    rewrite Sg in W', Du'. rewrite Se in Du'.
    destruct (all_parses L E En U glob_with canonicalize Cano canonicalize' root Root read' fuel content' s' rootds' others' r1' ws' es' rest' Rd' Fi' Ti' W' Du' Le') as (po2 & y2 & sorted & Y2 & So2 & Ob2 & Ps).
    exists sorted, (fst (assimilate_all (options_new po2) (options_of es'))), (plugins_of es'), ws'.
    split; [reflexivity|]. split; [exact Ps|]. split; [|split; [|split; [|exact Qw]]].
    - pose proof (any_yields rename _ _ _ Y) as Yn. cbn [map] in Yn.
      assert (X : Forall2 (fun d d' => alike (item d) (item d')) (map (in_place (rename_directive rename)) ds) sorted).
      { eapply alike_sorted; [|exact (renamed_sorted rename _ _ So)|exact So2]. eapply (alike_yields K); [exact Yn|apply Forall2_nil|exact Ae|exact Y2]. }
      clear - X. remember (map (in_place (rename_directive rename)) ds) as l eqn:Q. revert ds Q.
      induction X as [|x y l l' A Al IH]; intros [|d ds] Q; try discriminate; constructor; cbn in Q; injection Q as -> Q; auto.
    - apply (ruled_opts E _ _ rE r1'); auto. rewrite <- (any_options rename es). eapply alike_options_of. exact Ae.
    - pose proof (alike_plugins_of K _ _ Ae) as X. rewrite (any_plugins rename) in X. exact X.
  Qed.
  (** If the one can be changed back into the other, one is parsed successfully just
      when the other one is. *)
  Theorem C85_exactly : forall rename back read read' fuel content content' s s',
    keeps_types rename (g_unicode E) -> keeps_types back (g_unicode E) ->
    same_reading (reaccounted rename L) read read' -> reaccounted rename L content content' -> same_reading (reaccounted back L) read' read -> reaccounted back L content' content ->
    read_with_includes (includes_of L) glob_with canonicalize read fuel root content = Some s ->
    read_with_includes (includes_of L) glob_with canonicalize read' fuel root content' = Some s' ->
    (forall id f c, In (id, f, c) (content_iter s) -> fine_content L E id c) ->
    (exists ds opts ps ws, parsed_from L E canonicalize' s = Fine (Some (Success ds opts ps ws))) <->
    (exists ds opts ps ws, parsed_from L E canonicalize' s' = Fine (Some (Success ds opts ps ws))).
  Proof.
    intros rename back read read' fuel content content' s s' Fa Fb Sr Rc Sr' Rc' Rd Rd' Fi.
    pose proof (alike_read L glob_with canonicalize read read' (reaccounted rename L) (fun c c' H => reaccounted_includes L rename c c' H) Sr fuel root content content' Rc) as H.
    rewrite Rd, Rd' in H. destruct H as [[_ _ _ Sc] _].
    assert (Fi' : forall id f c, In (id, f, c) (content_iter s') -> fine_content L E id c).
    { intros id f c Hin. destruct (forall2_in_r _ _ _ Sc _ Hin) as ([[id0 f0] c0] & Hin' & Q & A). cbn in Q, A. injection Q as -> ->. eapply reaccounted_fine; [exact A|]. apply (Fi id f). exact Hin'. }
    split; intros (ds & opts & ps & ws & P).
    - destruct (C85_files rename read read' fuel content content' s ds opts ps ws Fa Sr Rc Rd Fi P) as (s2 & ds' & opts' & ps' & ws' & R2 & P2 & _). rewrite Rd' in R2. injection R2 as <-. eauto.
    - destruct (C85_files back read' read fuel content' content s' ds opts ps ws Fb Sr' Rc' Rd' Fi' P) as (s2 & ds' & opts' & ps' & ws' & R2 & P2 & _). rewrite Rd in R2. injection R2 as <-. eauto.
  Qed.
End Files.

(** ** A case: two files, the second included twice, where assets are called
    otherwise by an option *)
(** What follows the first colon changes. *)
Definition below (from to : str) (s : str) : str :=
  if str_eqb (skipn (List.length (before_colon s)) s) (58%N :: from) then before_colon s ++ 58%N :: to else s.
Lemma before_colon_app x s : ~ In 58%N x -> before_colon (x ++ 58%N :: s) = x.
Proof.
  induction x as [|c x IH]; intro H; [reflexivity|]. cbn. destruct (N.eqb c 58) eqn:Q; [apply N.eqb_eq in Q; subst; exfalso; apply H; left; reflexivity|].
  rewrite IH; [reflexivity|]. intro X. apply H. right. exact X.
Qed.
Lemma below_keeps U from to : unicode_ok U -> (exists ws, ws <> [] /\ Forall (account_name_lang U) ws /\ join_colon ws = to) -> keeps_types (below from to) U.
Proof.
  intros Uo (to' & Nt & Ft & Qt) type ws V F. unfold below.
  assert (Nc : ~ In 58%N type) by exact (account_type_name_no_colon U type Uo V).
  assert (J : forall x l, l <> [] -> join_colon (x :: l) = x ++ 58%N :: join_colon l) by (intros x [|y l] H; [contradiction|reflexivity]).
  destruct ws as [|w ws].
  - exists []. split; [constructor|]. change (join_colon [type]) with type.
    destruct (str_eqb _ _) eqn:Q; [|reflexivity]. exfalso. apply str_eqb_eq in Q. apply Nc. rewrite <- (firstn_skipn (List.length (before_colon type)) type), Q, in_app_iff. right. left. reflexivity.
  - rewrite (J type (w :: ws)) by discriminate. rewrite before_colon_app by exact Nc. rewrite skipn_app, skipn_all, Nat.sub_diag. cbn [app skipn].
    destruct (str_eqb _ _) eqn:Q; [|exists (w :: ws); split; [exact F|symmetry; apply J; discriminate]].
    exists to'. split; [exact Ft|]. rewrite J by exact Nt. rewrite Qt. reflexivity.
Qed.
Definition ex_below : str -> str := below (lit "Cash") (lit "Wallet:Small").
Definition ex_home : str :=
  lit "option ""name_assets"" ""Activa""" ++ [10%N] ++ lit "pushmeta from: Activa:Cash" ++ [10%N] ++ lit "include ""b.bean""" ++ [10%N] ++ lit "include ""b.bean""" ++ [10%N] ++
  lit "2024-01-02 txn ""x""" ++ [10%N] ++ lit "  Activa:Cash 1+2 USD" ++ [10%N] ++ lit "  Income:Gift" ++ [10%N] ++ lit "popmeta from:" ++ [10%N].
Definition ex_home_b : str := lit "2024-01-01 open Activa:Cash USD" ++ [10%N] ++ lit "2024-01-01 open Income:Gift" ++ [10%N].
Definition ex_moved : str :=
  lit "option ""name_assets"" ""Activa""" ++ [10%N] ++ lit "pushmeta from:  Activa:Wallet:Small" ++ [10%N] ++ lit "include ""b.bean""" ++ [10%N] ++ lit "include ""b.bean""" ++ [10%N] ++
  lit "2024-01-02 txn ""x""" ++ [10%N] ++ lit "  Activa:Wallet:Small  1+2 USD" ++ [10%N] ++ lit "  Income:Gift" ++ [10%N] ++ lit "popmeta from:" ++ [10%N].
Definition ex_moved_b : str := lit "2024-01-01 open Activa:Wallet:Small USD" ++ [10%N] ++ lit "2024-01-01 open Income:Gift" ++ [10%N].
Lemma check_reaccounted rn c c' : check_content P_Lexer.ex_env P_Grammar.ex_env 0 c = true -> check_content P_Lexer.ex_env P_Grammar.ex_env 0 c' = true ->
  map fst (ex_lexed c') = map (rename_token rn) (map fst (ex_lexed c)) -> reaccounted rn P_Lexer.ex_env c c'.
Proof. intros C C' Q. exists (ex_lexed c), (ex_lexed c'). auto using ex_lexes. Qed.
Example C85_files_ex : exists s ds opts ps ws,
  keeps_types ex_below (g_unicode P_Grammar.ex_env) /\
  same_reading (reaccounted ex_below P_Lexer.ex_env) (ex_read_b ex_home_b) (ex_read_b ex_moved_b) /\ reaccounted ex_below P_Lexer.ex_env ex_home ex_moved /\
  read_with_includes (includes_of P_Lexer.ex_env) ex_glob ex_canonicalize (ex_read_b ex_home_b) 5 ex_root ex_home = Some s /\
  (forall id f c, In (id, f, c) (content_iter s) -> fine_content P_Lexer.ex_env P_Grammar.ex_env id c) /\
  parsed_from P_Lexer.ex_env P_Grammar.ex_env ex_canonicalize s = Fine (Some (Success ds opts ps ws)) /\ List.length ds = 3 /\ num_sources s = 2.
Proof.
  destruct (ex_two ex_home ex_home_b) as [[s [ds opts ps ws|]]|] eqn:X; try (vm_compute in X; discriminate X).
  exists s, ds, opts, ps, ws. destruct (ex_two_is _ _ _ _ X) as [Rd Ps].
  split; [apply below_keeps; [exact (env_unicode _ P_File.ex_environment)|exists [lit "Wallet"; lit "Small"]; split; [discriminate|split; [apply check_account_names_ok; vm_compute; reflexivity|reflexivity]]]|].
  split; [intro p; unfold ex_read_b; destruct (path_eqb p (lit "/d/b.bean")); [|reflexivity]; apply check_reaccounted; vm_compute; reflexivity|].
  split; [apply check_reaccounted; vm_compute; reflexivity|]. split; [exact Rd|]. split.
  { assert (D : content_iter s = [(0, ex_root, ex_home); (1, Some (lit "/d/b.bean"), ex_home_b)]).
    { clear - Rd. vm_compute in Rd. injection Rd as <-. vm_compute. reflexivity. }
    rewrite D. intros id f c [Q|[Q|[]]]; injection Q as <- <- <-; apply check_content_ok; vm_compute; reflexivity. }
  split; [exact Ps|]. clear - X. vm_compute in X. injection X as <- <- _ _ _. split; reflexivity.
Qed.

(** And back. *)
Example C85_exactly_ex : exists back s s',
  keeps_types ex_below (g_unicode P_Grammar.ex_env) /\ keeps_types back (g_unicode P_Grammar.ex_env) /\
  same_reading (reaccounted ex_below P_Lexer.ex_env) (ex_read_b ex_home_b) (ex_read_b ex_moved_b) /\ reaccounted ex_below P_Lexer.ex_env ex_home ex_moved /\
  same_reading (reaccounted back P_Lexer.ex_env) (ex_read_b ex_moved_b) (ex_read_b ex_home_b) /\ reaccounted back P_Lexer.ex_env ex_moved ex_home /\
  read_with_includes (includes_of P_Lexer.ex_env) ex_glob ex_canonicalize (ex_read_b ex_home_b) 5 ex_root ex_home = Some s /\
  read_with_includes (includes_of P_Lexer.ex_env) ex_glob ex_canonicalize (ex_read_b ex_moved_b) 5 ex_root ex_moved = Some s' /\
  (forall id f c, In (id, f, c) (content_iter s) -> fine_content P_Lexer.ex_env P_Grammar.ex_env id c).
Proof.
  destruct C85_files_ex as (s & _ & _ & _ & _ & Kt & Sr & Rc & Rd & Fi & _).
  destruct (ex_two ex_moved ex_moved_b) as [[s' x]|] eqn:X; try (vm_compute in X; discriminate X). destruct (ex_two_is _ _ _ _ X) as [Rd' _].
  exists (below (lit "Wallet:Small") (lit "Cash")), s, s'. split; [exact Kt|].
  split; [apply below_keeps; [exact (env_unicode _ P_File.ex_environment)|exists [lit "Cash"]; split; [discriminate|split; [apply check_account_names_ok; vm_compute; reflexivity|reflexivity]]]|].
  split; [exact Sr|]. split; [exact Rc|].
  split; [intro p; unfold ex_read_b; destruct (path_eqb p (lit "/d/b.bean")); [|reflexivity]; apply check_reaccounted; vm_compute; reflexivity|].
  split; [apply check_reaccounted; vm_compute; reflexivity|]. auto.
Qed.

(** It is not enough to keep the types that there are without options. *)
Theorem C85_types_refuted : exists L E rename glob_with canonicalize read root fuel a c s s' ds opts ps ws es ws',
  unicode_ok (le_unicode L) /\ environment_ok E /\ carries rename (g_unicode E) default_names default_names /\ reaccounted rename L a c /\
  read_with_includes (includes_of L) glob_with canonicalize read fuel root a = Some s /\ parsed_from L E canonicalize s = Fine (Some (Success ds opts ps ws)) /\
  read_with_includes (includes_of L) glob_with canonicalize read fuel root c = Some s' /\ parsed_from L E canonicalize s' = Fine (Some (Failure es ws')).
Proof.
  pose (rn := fun s => if str_eqb s (lit "Activa:Cash") then lit "Assets:Cash" else s).
  pose (a := lit "option ""name_assets"" ""Activa""" ++ [10%N] ++ lit "2024-01-02 open Activa:Cash" ++ [10%N]).
  pose (c := lit "option ""name_assets"" ""Activa""" ++ [10%N] ++ lit "2024-01-02 open Assets:Cash" ++ [10%N]).
  destruct (ex_two a []) as [[s [ds opts ps ws|]]|] eqn:X; try (vm_compute in X; discriminate X).
  destruct (ex_two c []) as [[s' [|es ws']]|] eqn:Y; try (vm_compute in Y; discriminate Y).
  exists P_Lexer.ex_env, P_Grammar.ex_env, rn, ex_glob, ex_canonicalize, (ex_read_b []), ex_root, 5, a, c, s, s', ds, opts, ps, ws, es, ws'.
  destruct (ex_two_is _ _ _ _ X), (ex_two_is _ _ _ _ Y).
  split; [exact P_Lexer.arabic_ok|]. split; [exact P_File.ex_environment|]. split.
  { intros t l F. exists l. split; [exact F|]. unfold rn. destruct (str_eqb _ _) eqn:Q; [|reflexivity]. apply str_eqb_eq in Q. exfalso. destruct t, l; discriminate. }
  split; [apply check_reaccounted; vm_compute; reflexivity|]. auto.
Qed.

Print Assumptions C85_files.
Print Assumptions C85_types_refuted.
Print Assumptions C85_exactly.
