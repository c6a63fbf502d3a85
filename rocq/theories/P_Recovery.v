(** * C66: what is wrong in one place does not hide the rest *)
From Coq Require Import String Ascii.
From Coq Require Import List NArith ZArith Arith Bool Lia Permutation.
From Verif Require Import Base BaseFacts Text Path Sources Types SpecTypes TypesFacts P_Types SortM SpecSort P_Sort Options SpecOptions OptionsFacts P_Options
  Pragma SpecPragma PragmaRun P_Pragma Read SpecRead ReadFacts P_Read
  Token Lexer SpecLexer P_Lexer Peg PegFacts Grammar SpecExpr SpecGrammar SpecDirective P_Grammar
  Parse SpecParse SpecWhole ParseFacts ParseOnce ParseFile P_File P_Includes P_Parse SpecRecovery.
Import SpecPragma Read.
Import ListNotations.
Local Open Scope nat_scope.

Section File.
  Context (E : grammar_env) (I : input) (path_ : option path).
  Local Notation declares := (declares E I path_).
  Local Notation barren := (barren E I path_).

  Lemma directive_starts names i j d es : directive_at E I names i j d es -> exists x, tok I i (T_Date x) /\
    (exists t, tok I (S i) t /\ follows_date t).
  Proof.
    destruct 1 as [a b c d e f j date flag strings payee narration marks md md' postings es1 es2 es3 es4 D T _ _ _ _ _ _ _
      |a b c d j k date v marks md md' es1 es2 es3 es4 D T _ _ _ _ _|a b c d j date type_ values md es D T _ _ _ _].
    - destruct D as [D _]. inversion D as [x Hx Ea Ex]. subst a. exists (item date). split; [first [exact Hx|rewrite Ex in Hx; exact Hx]|]. destruct T as [T _]. unfold follows_date.
      inversion T as [K Eb Ef|? ? F Eb Ef]; [eauto 8|]. inversion F; eauto 8.
    - destruct D as [D _]. inversion D as [x Hx Ea Ex]. subst a. exists (item date). split; [first [exact Hx|rewrite Ex in Hx; exact Hx]|]. exists (T_Keyword k). split; [exact T|]. left. eauto.
    - destruct D as [D _]. inversion D as [x Hx Ea Ex]. subst a. exists (item date). split; [first [exact Hx|rewrite Ex in Hx; exact Hx]|]. exists (T_Keyword K_Custom). split; [exact T|]. left. eauto.
  Qed.

  (** ** Where no declaration starts *)

  Lemma tok_fun i t t' : tok I i t -> tok I i t' -> t = t'.
  Proof. intros [r H] [r' H']. congruence. Qed.

  (** Not at a token which is neither a date nor the keyword of a pragma ... *)
  Theorem C66_elsewhere : forall i, (forall t, tok I i t -> ~ begins_declaration t) -> barren i.
  Proof.
    intros i H. split; [intro T; apply (H _ T); right; cbn; tauto|]. intros r j d es r' D.
    destruct D as [d es W|k p P _|k o es r' O _].
    - destruct W as [W _]. destruct (directive_starts _ _ _ _ _ W) as (x & T & _). apply (H _ T). left. eauto.
    - destruct P as [? ? T _|? ? T _|? ? T _|? ? T _ _|? ? T _|? ? ? ? T _ _]; apply (H _ T); right; cbn; tauto.
    - destruct O as [? ? ? ? ? ? ? T _ _ _]. apply (H _ T). right. cbn. tauto.
  Qed.
  (** ... nor at a date which is not followed by a keyword or a flag. *)
  Theorem C66_bad_date : forall i x, tok I i (T_Date x) -> (forall t, tok I (S i) t -> ~ follows_date t) -> barren i.
  Proof.
    intros i x Tx H. split; [intro T; pose proof (tok_fun _ _ _ Tx T); discriminate|]. intros r j d es r' D.
    destruct D as [d es W|k p P _|k o es r' O _].
    - destruct W as [W _]. destruct (directive_starts _ _ _ _ _ W) as (y & _ & t & T & F). exact (H _ T F).
    - destruct P as [? ? T _|? ? T _|? ? T _|? ? T _ _|? ? T _|? ? ? ? T _ _]; pose proof (tok_fun _ _ _ Tx T); discriminate.
    - destruct O as [? ? ? ? ? ? ? T _ _ _]. pose proof (tok_fun _ _ _ Tx T); discriminate.
  Qed.

  (** ** Rubbish *)

  Lemma barren_leaves r i : barren i -> leaves E I path_ r i r.
  Proof. intros [No _]. apply leaves_alone. intros k o es r' [? ? ? ? ? ? ? T _ _ _]. exact (No T). Qed.
  Lemma not_finished i : i < List.length (in_tokens I) -> ~ finished I i.
  Proof. intros H F. apply nth_error_Some in H. exact (H F). Qed.
  Lemma rubbish_seeks r m j d r1 : declares r m j d [] r1 -> forall n i, m = S (i + n) -> m <= List.length (in_tokens I) ->
    (forall k, i <= k < m -> barren k) -> seeks E I path_ r i (Some (m, j, d, long_strings (rl_limit r) I m j)) r1.
  Proof.
    intro D. induction n as [|n IH]; intros i -> L B.
    - rewrite Nat.add_0_r in *. apply seeks_found; [apply not_finished; lia|exact D].
    - eapply seeks_on; [apply not_finished; lia| |apply barren_leaves, B; lia|].
      + intros j' d' r2 D'. exact (proj2 (B (S i) ltac:(lia)) _ _ _ _ _ D').
      + replace (i + S n) with (S i + n) in * by lia. apply IH; [reflexivity|exact L|intros k Hk; apply B; lia].
  Qed.
  Lemma rubbish_to_end r : forall n i, List.length (in_tokens I) = i + n -> (forall k, i <= k < List.length (in_tokens I) -> barren k) ->
    seeks E I path_ r i None r.
  Proof.
    induction n as [|n IH]; intros i L B.
    - apply seeks_end. apply nth_error_None. lia.
    - eapply seeks_on; [apply not_finished; lia| | |apply IH; [lia|intros k Hk; apply B; lia]].
      + intros j' d' r2 D'. destruct (Nat.lt_ge_cases (S i) (List.length (in_tokens I))) as [Lt|Ge].
        * exact (proj2 (B (S i) ltac:(lia)) _ _ _ _ _ D').
        * assert (X : barren (S i)) by (apply C66_elsewhere; intros t [x T]; assert (S i < List.length (in_tokens I)) by (apply nth_error_Some; congruence); lia).
          exact (proj2 X _ _ _ _ _ D').
      + destruct (Nat.lt_ge_cases (S i) (List.length (in_tokens I))) as [Lt|Ge]; [apply barren_leaves, B; lia|].
        apply barren_leaves, C66_elsewhere. intros t [x T]. assert (S i < List.length (in_tokens I)) by (apply nth_error_Some; congruence). lia.
  Qed.

  Lemma interspersed_declared r i ds es ws k r' : interspersed E I path_ r i ds es ws k r' ->
    (forall q, k <= q < List.length (in_tokens I) -> barren q) -> k <= List.length (in_tokens I) ->
    exists pds, declared E I path_ r i pds es ws k r' /\ map snd pds = ds.
  Proof.
    induction 1 as [r i|r i j d es r1 ds es' ws k r' D Ind IH|r i m j d r1 ds es' ws k r' [Lt B] D Ind IH]; intros End Le.
    - assert (Bi : barren i).
      { destruct (Nat.lt_ge_cases i (List.length (in_tokens I))) as [X|X]; [apply End; lia|].
        apply C66_elsewhere. intros t [x T]. assert (i < List.length (in_tokens I)) by (apply nth_error_Some; congruence). lia. }
      exists []. split; [|reflexivity]. eapply declared_stop; [apply Bi|apply barren_leaves; exact Bi|].
      apply (rubbish_to_end r (List.length (in_tokens I) - i)); [lia|exact End].
    - destruct (IH End Le) as (pds & Dd & M). exists ((i, j, d) :: pds). split; [|cbn; congruence]. eapply declared_next; eassumption.
    - destruct (IH End Le) as (pds & Dd & M). exists ((m, j, d) :: pds). split; [|cbn; congruence].
      eapply declared_skip; [apply B; lia|apply barren_leaves, B; lia| |exact Dd].
      apply (rubbish_seeks r m j d r1 D (m - S i)); [lia|lia|exact B].
  Qed.

  Context (En : environment_ok E) (Comp : computable E I) (Fo : fine_options I).

  Lemma interspersed_positions r i ds es ws k r' : interspersed E I path_ r i ds es ws k r' -> (exists po, obeys E po r) ->
    i <= List.length (in_tokens I) -> k <= List.length (in_tokens I).
  Proof.
    induction 1 as [r i|r i j d es r1 ds es' ws k r' D Ind IH|r i m j d r1 ds es' ws k r' Ru D Ind IH]; intros Ob Le; [exact Le| |].
    - apply IH; [exact (declares_obeys E I path_ En Comp Fo _ _ _ _ _ _ Ob D)|apply (declares_positions E I path_ En Comp Fo _ _ _ _ _ _ D Ob)].
    - apply IH; [exact (declares_obeys E I path_ En Comp Fo _ _ _ _ _ _ Ob D)|apply (declares_positions E I path_ En Comp Fo _ _ _ _ _ _ D Ob)].
  Qed.

  (** Where there is rubbish in between declarations, all the declarations are
      returned, with one error for each piece of rubbish, in order, beside
      those of the declarations.  Rubbish at the end is one more error, but
      then no declaration is returned. *)
  Theorem C66_file : forall st r ds es ws k r', obeys E (ps_options st) r ->
    interspersed E I path_ r 0 ds es ws k r' -> (forall q, k <= q < List.length (in_tokens I) -> barren q) ->
    exists st' all,
      parse_file E I path_ st = Fine (Some
        (if k =? List.length (in_tokens I) then (Some ds, es, st') else (None, es ++ [C_Syntax (in_source I) k], st'))) /\
      obeys E (ps_options st') r' /\ ps_warnings st' = ps_warnings st ++ all /\ within ws all.
  Proof.
    intros st r ds es ws k r' Ob Int End.
    pose proof (interspersed_positions _ _ _ _ _ _ _ Int (ex_intro _ _ Ob) (Nat.le_0_l _)) as Le.
    destruct (interspersed_declared _ _ _ _ _ _ _ Int End Le) as (pds & Dd & M).
    destruct (C39_file E I path_ En Comp Fo st r Ob) as (out & es' & ws' & r2 & st' & Run & Fr & Ob' & all & Hw & Wi & _).
    exists st', all. destruct (Nat.eqb_spec k (List.length (in_tokens I))) as [Q|Q].
    - assert (F : finished I k) by (apply nth_error_None; lia).
      destruct (C39_unambiguous E I path_ En Comp Fo _ _ _ _ _ _ _ _ _ (ex_intro _ _ Ob) Fr (file_whole _ _ _ _ _ _ _ _ _ Dd F)) as (-> & -> & -> & ->).
      rewrite M in Run. auto.
    - assert (F : ~ finished I k) by (apply not_finished; lia).
      destruct (C39_unambiguous E I path_ En Comp Fo _ _ _ _ _ _ _ _ _ (ex_intro _ _ Ob) Fr (file_cut _ _ _ _ _ _ _ _ _ Dd F)) as (-> & -> & -> & ->).
      auto.
  Qed.
End File.

(** ** All the files *)
Section Whole.
  Context (L : lexer_env) (E : grammar_env) (En : environment_ok E) (U : unicode_ok (le_unicode L)).
  Context (glob_with : str -> result (list glob_item) str) (canonicalize : path -> option path) (read : path -> result str str).
  Context (Cano : forall p q c d, same_path p q -> canonicalize p = Some c -> canonicalize q = Some d -> same_path c d).
  Context (canonicalize' : path -> option path).
  Context (fuel : nat) (root : option path) (content : str) (s : sources).
  Context (Reads : reads_to (includes_of L) glob_with canonicalize read fuel root content s).
  Context (Root : forall p, root = Some p -> canonicalize p <> None).

  Lemma interspersed_read : forall cs r fs es, files_interspersed L E r cs fs es -> (exists po, obeys E po r) ->
    (forall id f c, In (id, f, c) cs -> fine_content L E id c) -> forall xs r2, files_read L E r cs xs r2 ->
    map returned xs = fs /\ flat_map fr_errors xs = es.
  Proof.
    intros cs r fs es H.
    induction H as [r|r id f c toks cs ds es ws r1 fs es' Lx T Ti IH|r id f c toks cs ds es ws k r1 fs es' Lx T Ru Ti IH]; intros Ob Fi xs r2 Fs.
    - inversion Fs; subst. auto.
    - inversion Fs as [|a id' c' toks' cs' x r3 xs' b Lx' Ok Fs']; subst. rewrite Lx in Lx'. injection Lx' as <-.
      destruct (Fi id (fr_file x) c (or_introl eq_refl)) as (ts & Lx'' & Comp & Fo). rewrite Lx in Lx''. injection Lx'' as <-.
      destruct (interspersed_declared E (input_of id c toks) _ _ _ _ _ _ _ _ T) as (pds & Dd & M); [cbn; lia|cbn; lia|].
      assert (F : finished (input_of id c toks) (List.length toks)) by (apply nth_error_None; cbn; lia).
      destruct Ok as (w & Fr & _ & _ & Ex).
      destruct (C39_unambiguous E _ _ En Comp Fo _ _ _ _ _ _ _ _ _ Ob Fr (file_whole _ _ _ _ _ _ _ _ _ Dd F)) as (Xd & Xe & -> & ->).
      destruct (IH (file_obeys E En _ _ _ _ _ _ _ Comp Fo Ob Fr) (fun i f c H => Fi i f c (or_intror H)) _ _ Fs') as (A & B).
      cbn [map flat_map]. unfold returned at 1. rewrite Xd, Xe, A, B, M. auto.
    - inversion Fs as [|a id' c' toks' cs' x r3 xs' b Lx' Ok Fs']; subst. rewrite Lx in Lx'. injection Lx' as <-.
      destruct (Fi id (fr_file x) c (or_introl eq_refl)) as (ts & Lx'' & Comp & Fo). rewrite Lx in Lx''. injection Lx'' as <-.
      destruct Ru as [Lt Ru]. cbn in Lt.
      destruct (interspersed_declared E (input_of id c toks) _ _ _ _ _ _ _ _ T) as (pds & Dd & M); [exact Ru|cbn; lia|].
      assert (F : ~ finished (input_of id c toks) k) by (apply not_finished; cbn; lia).
      destruct Ok as (w & Fr & _ & _ & Ex).
      destruct (C39_unambiguous E _ _ En Comp Fo _ _ _ _ _ _ _ _ _ Ob Fr (file_cut _ _ _ _ _ _ _ _ _ Dd F)) as (Xd & Xe & -> & ->).
      destruct (IH (file_obeys E En _ _ _ _ _ _ _ Comp Fo Ob Fr) (fun i f c H => Fi i f c (or_intror H)) _ _ Fs') as (A & B).
      cbn [map flat_map]. unfold returned at 1. rewrite Xd, Xe, A, B. cbn [in_source input_of]. rewrite <- app_assoc. auto.
  Qed.

  (** Parsing goes over all of the declarations: the errors are those of the
      files, and those of the pragmas of the declarations of all the files. *)
  Theorem C66_parse : forall toks rootds others es,
    parser_new L s = Fine (Some toks) -> (forall id f c, In (id, f, c) (content_iter s) -> fine_content L E id c) ->
    files_interspersed L E initial_rules (content_iter s) ((root, rootds) :: others) es -> es <> [] ->
    exists events rest dues_ left warnings,
      walk (included_globs s) others root rootds events rest /\
      dues canonicalize' (included_globs s) (error_paths s) [] events dues_ /\ leftover events left /\
      parse E canonicalize' s toks = Fine (Some (Failure (es ++ map C_Report (dues_ ++ left)) warnings)).
  Proof.
    intros toks rootds others es Pn Fi Int Ne.
    destruct (C03_parse L E En U glob_with canonicalize read Cano canonicalize' fuel root content s Reads Root toks Pn Fi)
      as (xs & r' & po & ds & opts & plugins & reports & sorted & Fs & Ob & Pp & So & X).
    assert (Ob0 : exists po, obeys E po initial_rules).
    { exists default_parser_options. split; cbn; [exact named_default| |reflexivity]. intro t. apply default_names_valid. apply En. }
    destruct (interspersed_read _ _ _ _ Int Ob0 Fi _ _ Fs) as [A B].
    destruct (shape_of L E glob_with canonicalize read Cano canonicalize' fuel root content s Reads Root _ _ Fs) as (rootds' & b & Sh & Nd).
    rewrite A in Sh. cbn [app] in Sh. injection Sh as <- <-. rewrite A in Pp.
    pose proof (pass_spec canonicalize' (included_globs s) (error_paths s) po root [] rootds others Nd) as Z.
    cbn zeta in Z. cbn [app] in Z, Pp. rewrite Pp in Z. destruct Z as (es2 & rest2 & rs & left & W2 & _ & Du2 & Le2 & _ & _ & ->).
    exists es2, rest2, rs, left, (flat_map fr_warnings xs). split; [exact W2|]. split; [exact Du2|]. split; [exact Le2|].
    cbn zeta in X. rewrite B in X. rewrite X. destruct es as [|e es]; [contradiction|reflexivity].
  Qed.
End Whole.

(** ** A case *)

Definition ex_line (s : str) : str := s ++ [10%N].
Definition ex_good1 : str := ex_line (lit "2024-02-29 open Assets:Cash").
Definition ex_bad : str := ex_line (lit "open Assets:Bank").
Definition ex_good2 : str := ex_line (lit "2024-03-01 * ""rent"" #a") ++ ex_line (lit "  Assets:Cash -1 USD").
Definition ex_twice : str := ex_line (lit "2024-03-02 * ""rent"" #a #a").
Definition ex_pop : str := ex_line (lit "poptag #x").
Definition ex_errors (content : str) : list (problem + nat) := match ex_run content with
  | Fine (Some (Failure es _)) => map (fun e => match e with C_Report r => inl (rp_problem r) | C_Syntax _ k => inr k end) es
  | _ => []
  end.
(** Two lines without their dates, and a pragma which is wrong: all three are reported. *)
Example C66_ex_errors : ex_errors (ex_good1 ++ ex_bad ++ ex_good2 ++ ex_bad ++ ex_good1 ++ ex_pop) = [inr 4; inr 18; inl InvalidPoptag].
Proof. vm_compute. reflexivity. Qed.

(** The hypotheses are met. *)
Definition ex_between : input := ex_tokens
  [T_Date (mk_date 2024 2 29); T_Keyword K_Close; T_Account (lit "Assets:A"); T_Eol; T_Keyword K_Open; T_Account (lit "Assets:A"); T_Eol;
   T_Date (mk_date 2024 3 1); T_Keyword K_Close; T_Account (lit "Assets:A"); T_Eol].
Example C66_ex : computable ex_env ex_between /\ fine_options ex_between /\
  exists d1 d2, interspersed ex_env ex_between None initial_rules 0 [d1; d2] [C_Syntax 7 4] [] 11 initial_rules.
Proof.
  assert (Co : computable ex_env ex_between) by (apply check_computable_ok; vm_compute; reflexivity).
  assert (Fo : fine_options ex_between) by (apply check_options_ok; vm_compute; reflexivity).
  split; [exact Co|]. split; [exact Fo|].
  assert (D : forall i j, (match p_once ex_env ex_between None default_pstate i with SGot (mk_spanned (D_Directive _) _) j' [] _ => j' =? j | _ => false end) = true -> i <= 11 ->
    exists d, declares ex_env ex_between None initial_rules i j d [] initial_rules).
  { intros i j X Hi. pose proof (p_once_run ex_env ex_between None ex_environment Co Fo default_pstate initial_rules i ex_obeys Hi) as R.
    destruct (p_once ex_env ex_between None default_pstate i) as [d j' es st'|st'| |]; try discriminate. destruct R as (es' & r' & Q & R & _).
    destruct d as [[d|p] sp]; [|discriminate]. destruct es; [|discriminate]. apply Nat.eqb_eq in X. subst j'. destruct es'; [|discriminate].
    exists (mk_spanned (D_Directive d) sp). inversion R; subst; assumption. }
  destruct (D 0 4 eq_refl ltac:(lia)) as [d1 D1]. destruct (D 7 11 eq_refl ltac:(lia)) as [d2 D2]. exists d1, d2.
  apply (inter_next _ _ _ _ _ _ _ _ _ _ _ _ _ _ D1). apply (inter_rubbish ex_env ex_between None initial_rules 4 7 11 d2 initial_rules [] [] [] 11 initial_rules); [|exact D2|constructor].
  split; [cbn; lia|]. intros k Hk. apply C66_elsewhere. intros t [x T].
  assert (k = 4 \/ k = 5 \/ k = 6) as [->|[->| ->]] by lia; cbn in T; injection T as <- <-;
    (intros [[y Y]|Y]; [discriminate|cbn in Y; repeat (destruct Y as [Y|Y]; [discriminate|]); exact Y]).
Qed.

(** ** What is lost *)

(** After rubbish, a declaration which has an error of its own is skipped too,
    so its error is not reported. *)
Theorem C66_next_error_refuted : exists bad rest p, ex_errors bad = [inr 0] /\ In (inl p) (ex_errors rest) /\ ~ In (inl p) (ex_errors (bad ++ rest)).
Proof.
  exists ex_bad, (ex_twice ++ ex_good2), (DuplicateTag (lit "a")). split; [vm_compute; reflexivity|]. split; [vm_compute; auto|].
  vm_compute. intros [X|[]]. discriminate.
Qed.
(** Rubbish at the end of a file hides what is wrong with the pragmas in it. *)
Theorem C66_last_refuted : exists bad rest p, ex_errors bad = [inr 0] /\ In (inl p) (ex_errors rest) /\ ~ In (inl p) (ex_errors (rest ++ bad)).
Proof.
  exists ex_bad, (ex_good1 ++ ex_pop), InvalidPoptag. split; [vm_compute; reflexivity|]. split; [vm_compute; auto|].
  vm_compute. intros [X|[]]. discriminate.
Qed.

Print Assumptions C66_elsewhere.
Print Assumptions C66_bad_date.
Print Assumptions C66_file.
Print Assumptions C66_parse.
Print Assumptions C66_next_error_refuted.
Print Assumptions C66_last_refuted.
