(** * C40: the order of the included files *)
From Coq Require Import String Ascii.
From Coq Require Import List NArith ZArith Arith Bool Lia Permutation.
From Verif Require Import Base BaseFacts Text Path SpecPath PathFacts Sources Types SpecTypes TypesFacts P_Types SortM SpecSort P_Sort Options SpecOptions OptionsFacts P_Options
  Pragma SpecPragma PragmaRun P_Pragma Read SpecRead ReadFacts P_Read
  Token Lexer SpecLexer P_Lexer Peg Grammar SpecGrammar SpecDirective P_Grammar
  Parse SpecParse SpecWhole ParseFacts ParseOnce ParseFile P_File P_Includes P_Parse.
Import ListNotations.
Local Open Scope nat_scope.

(** ** Files which set nothing *)

Section Nothing.
  Context (E : grammar_env) (I : input) (source_path : option path) (No : ~ sets_rules I).

  Lemma nothing_option r i k o es r' : option_at E I source_path r i k o es r' -> r' = r.
  Proof.
    intros [a b name value o' es' r2 T [W _] [W' _] Ef]. inversion W as [x T1 Y]; subst. inversion W' as [x' T2 Y']; subst.
    destruct Ef as [t s R _|t t' s R _ _|m R|v R _|_|_ _]; try reflexivity; exfalso; apply No; exists i, (item name), (item value).
    - split; [exact T|]. split; [exact T1|]. split; [exact T2|]. inversion R; subst. destruct t; cbn; tauto.
    - split; [exact T|]. split; [exact T1|]. split; [exact T2|]. inversion R; subst. cbn; tauto.
  Qed.
  Lemma nothing_declares r i j d es r' : declares E I source_path r i j d es r' -> r' = r.
  Proof. intros [d' es' _|k p _ _|k o es' r2 O _]; try reflexivity. exact (nothing_option _ _ _ _ _ _ O). Qed.
  Lemma nothing_leaves r i r' : leaves E I source_path r i r' -> r' = r.
  Proof. intros [k o es r2 O|_]; [exact (nothing_option _ _ _ _ _ _ O)|reflexivity]. Qed.
  Lemma nothing_seeks r i found r' : seeks E I source_path r i found r' -> r' = r.
  Proof.
    intro H. induction H as [r i F|r i j d r' F D|r i found r1 r' F N Le Sk IH]; [reflexivity|exact (nothing_declares _ _ _ _ _ _ D)|].
    rewrite IH. exact (nothing_leaves _ _ _ Le).
  Qed.
  Lemma nothing_declared r i ds es ws k r' : declared E I source_path r i ds es ws k r' -> r' = r.
  Proof.
    intro H. induction H as [r i r1 r' No' Le Sk|r i j d es r1 ds es' ws k r' D Dd IH|r i i' j d w r1 r2 ds es' ws k r' No' Le Sk Dd IH].
    - rewrite (nothing_seeks _ _ _ _ Sk). exact (nothing_leaves _ _ _ Le).
    - rewrite IH. exact (nothing_declares _ _ _ _ _ _ D).
    - rewrite IH, (nothing_seeks _ _ _ _ Sk). exact (nothing_leaves _ _ _ Le).
  Qed.
  (** What is in force at the end of such a file was so at its start. *)
  Theorem C40_nothing_set r out es ws r' : file_reads E I source_path r out es ws r' -> r' = r.
  Proof. intros [ds e w k r1 D _|ds e w k r1 D _]; exact (nothing_declared _ _ _ _ _ _ _ D). Qed.
End Nothing.

(** ** Files in any order *)

Section Orders.
  Context (L : lexer_env) (E : grammar_env).

  Lemma sets_nothing_file cs id f c ts : sets_nothing L cs -> In (id, f, c) cs -> lex L c = Fine (Some ts) -> ~ sets_rules (input_of id c ts).
  Proof. intros H. apply H. Qed.

  Lemma files_read_constant : forall cs r xs r', files_read L E r cs xs r' -> sets_nothing L cs -> r' = r.
  Proof.
    intros cs r xs r' H. induction H as [r|r id c toks cs x r1 xs r' Lx (ws & Fr & _) Fs IH]; intro No; [reflexivity|].
    rewrite IH by (intros i f c' t Hin; exact (No i f c' t (or_intror Hin))).
    eapply C40_nothing_set; [|exact Fr]. apply (No id (fr_file x) c toks); [left; reflexivity|exact Lx].
  Qed.

  (** One file after the other, all from the same state. *)
  Lemma files_read_each : forall cs r xs, sets_nothing L cs ->
    (files_read L E r cs xs r <-> 
     Forall2 (fun '(id, f, c) x => f = fr_file x /\ exists toks, lex L c = Fine (Some toks) /\ file_result_ok E (input_of id c toks) r x r) cs xs).
  Proof.
    induction cs as [|[[id f] c] cs IH]; intros r xs No; (split; intro H).
    - inversion H; subst. constructor.
    - inversion H; subst. constructor.
    - inversion H as [|a id' c' toks cs' x r1 xs' r' Lx Ok Fs]; subst. assert (r1 = r) as ->.
      { destruct Ok as (ws & Fr & _). eapply C40_nothing_set; [|exact Fr]. apply (No id (fr_file x) c toks); [left; reflexivity|exact Lx]. }
      constructor; [split; [reflexivity|eauto]|]. apply IH; [|exact Fs]. intros i f' c' t Hin. exact (No i f' c' t (or_intror Hin)).
    - inversion H as [|a x cs' xs' Hx Fs]; subst. destruct Hx as (-> & toks & Lx & Ok). econstructor; [exact Lx|exact Ok|].
      apply IH; [|assumption]. intros i f' c' t Hin. exact (No i f' c' t (or_intror Hin)).
  Qed.

  Lemma Forall2_perm {A B} (R : A -> B -> Prop) l l' : Permutation l l' -> forall m, Forall2 R l m ->
    exists m', Forall2 R l' m' /\ Permutation (combine l m) (combine l' m').
  Proof.
    induction 1 as [|x l l' P IH|x y l|l l' l'' P IH P' IH']; intros m F.
    - inversion F; subst. exists []. auto.
    - inversion F as [|? b ? m1 Rx F1]; subst. destruct (IH _ F1) as (m' & F' & Q). exists (b :: m'). split; [constructor; auto|]. cbn. constructor. exact Q.
    - inversion F as [|? b ? m1 Rx F1]; subst. inversion F1 as [|? b' ? m2 Ry F2]; subst. exists (b' :: b :: m2). split; [repeat constructor; auto|].
      cbn. constructor.
    - destruct (IH _ F) as (m1 & F1 & Q1), (IH' _ F1) as (m2 & F2 & Q2). exists m2. split; [exact F2|]. etransitivity; eassumption.
  Qed.

  (** What is returned for each of several files does not depend on their
      order. *)
  Theorem C40_files : forall first cs cs' r x xs r',
    sets_nothing L cs -> Permutation cs cs' -> files_read L E r (first :: cs) (x :: xs) r' ->
    exists xs', files_read L E r (first :: cs') (x :: xs') r' /\ Permutation (combine cs xs) (combine cs' xs').
  Proof.
    intros first cs cs' r x xs r' No P H. inversion H as [|a id' c' toks cs0 x0 r1 xs' b Lx Ok Fs]; subst.
    pose proof (files_read_constant _ _ _ _ Fs No) as ->. apply (files_read_each cs) in Fs; [|exact No].
    destruct (Forall2_perm _ _ _ P _ Fs) as (xs' & Fs' & Q). exists xs'. split; [|exact Q].
    econstructor; [exact Lx|exact Ok|]. apply files_read_each; [|exact Fs'].
    intros i f c t Hin. apply (No i f c t). eapply Permutation_in; [symmetry; exact P|exact Hin].
  Qed.
End Orders.

(** What is returned for files is one thing only; so are the warnings where
    there is no error of syntax. *)
Lemma files_read_same (L : lexer_env) (E : grammar_env) (En : environment_ok E) : forall cs r xs r',
  files_read L E r cs xs r' -> (exists po, obeys E po r) -> (forall id f c, In (id, f, c) cs -> fine_content L E id c) ->
  forall xs2 r2, files_read L E r cs xs2 r2 ->
  r' = r2 /\ Forall2 (fun x y => fr_file x = fr_file y /\ fr_declarations x = fr_declarations y /\ fr_errors x = fr_errors y /\
    (no_syntax_error (fr_errors x) -> fr_warnings x = fr_warnings y)) xs xs2.
Proof.
  intros cs r xs r' H. induction H as [r|r id c toks cs x r1 xs r' Lx (ws & Fr & _ & _ & Ex) Fs IH]; intros Ob Fi xs2 r2 H2.
  - inversion H2; subst. split; [reflexivity|constructor].
  - inversion H2 as [|a id' c' toks' cs' y r3 ys b Lx' (ws' & Fr' & _ & _ & Ex') Fs'].
    assert (toks' = toks) by congruence. subst toks'.
    match goal with H : fr_file y = fr_file x |- _ => rewrite H in Fr' end.
    destruct (Fi id (fr_file x) c (or_introl eq_refl)) as (ts & Lx'' & Comp & Fo). rewrite Lx in Lx''. injection Lx'' as <-.
    destruct (C39_unambiguous E _ _ En Comp Fo _ _ _ _ _ _ _ _ _ Ob Fr Fr') as (A & B & -> & <-).
    destruct (IH (file_obeys E En _ _ _ _ _ _ _ Comp Fo Ob Fr) (fun i f c H => Fi i f c (or_intror H)) _ _ Fs') as (-> & F2).
    split; [reflexivity|]. constructor; [|exact F2]. repeat split; auto. intro NS. rewrite (Ex NS). rewrite B in NS. symmetry. exact (Ex' NS).
Qed.

(** ** The walk, when the table is in another order *)

Lemma takes_any t p k ds t1 t' : takes t p k ds t1 -> Permutation t t' -> exists t1', takes t' p k ds t1' /\ Permutation t1 t1'.
Proof.
  intros (a & b & -> & -> & S) P. assert (Hin : In (Some k, ds) t') by (eapply Permutation_in; [exact P|apply in_or_app; right; left; reflexivity]).
  apply in_split in Hin. destruct Hin as (a' & b' & ->). exists (a' ++ b'). split; [exists a', b'; auto|].
  eapply Permutation_app_inv. exact P.
Qed.
Lemma offers_any sp t ps es fs t1 : offers sp t ps es fs t1 -> forall t', Permutation t t' -> exists t1', offers sp t' ps es fs t1' /\ Permutation t1 t1'.
Proof.
  induction 1 as [t|t p ps k ds t1 es fs t2 Ta O IH|t p ps es fs t1 Ab O IH]; intros t' P.
  - exists t'. split; [constructor|exact P].
  - destruct (takes_any _ _ _ _ _ _ Ta P) as (t1' & Ta' & P1). destruct (IH _ P1) as (t2' & O' & P2). exists t2'. split; [econstructor; eassumption|exact P2].
  - destruct (IH _ P) as (t1' & O' & P1). exists t1'. split; [|exact P1]. constructor; [|exact O'].
    intros k ds Hin. apply (Ab k ds). eapply Permutation_in; [symmetry; exact P|exact Hin].
Qed.
Lemma walk_any globs :
  (forall t f ds es t1, walk globs t f ds es t1 -> forall t', Permutation t t' -> exists t1', walk globs t' f ds es t1' /\ Permutation t1 t1') /\
  (forall t fs es t1, walks globs t fs es t1 -> forall t', Permutation t t' -> exists t1', walks globs t' fs es t1' /\ Permutation t1 t1').
Proof.
  apply walk_walks_ind.
  - intros t f t' P. exists t'. split; [constructor|exact P].
  - intros t f d ds es t1 Ni W IH t' P. destruct (IH _ P) as (t1' & W' & P1). exists t1'. split; [constructor; assumption|exact P1].
  - intros t f d text ds g offered fs t1 es1 t2 es2 t3 It Gl Of W1 IH1 W2 IH2 t' P.
    destruct (offers_any _ _ _ _ _ _ Of _ P) as (t1' & Of' & P1). destruct (IH1 _ P1) as (t2' & W1' & P2). destruct (IH2 _ P2) as (t3' & W2' & P3).
    exists t3'. split; [eapply walk_include; eassumption|exact P3].
  - intros t t' P. exists t'. split; [constructor|exact P].
  - intros t f ds fs es1 t1 es2 t2 W IH W' IH' t' P. destruct (IH _ P) as (t1' & A & P1). destruct (IH' _ P1) as (t2' & B & P2).
    exists t2'. split; [econstructor; eassumption|exact P2].
Qed.

Lemma dues_errors canonicalize globs ep ep' : (forall p, lookup opt_path_eqb p ep = lookup opt_path_eqb p ep') ->
  forall seen es rs, dues canonicalize globs ep seen es rs -> dues canonicalize globs ep' seen es rs.
Proof.
  intros Eq seen es rs H. induction H as [seen|seen e es rs rs' D H IH]; constructor; [|exact IH].
  destruct e as [f d|sp p [k|]]; cbn in D |- *; auto.
  destruct D as [x X|c sp0 before X Ca La Sa|c sp0 before here first X Ca La Sa Lh Lf|here X Ca Lh]; rewrite Eq in X.
  - now constructor.
  - eapply due_harmless; eassumption.
  - eapply due_other_context; eassumption.
  - now apply due_root.
Qed.

Lemma leftover_any es left left' : leftover es left -> leftover es left' -> Permutation left left'.
Proof.
  intros (ks & ts & Nk & K & Nt & T & ->) (ks' & ts' & Nk' & K' & Nt' & T' & ->). apply Permutation_app; apply Permutation_flat_map.
  - apply NoDup_Permutation; auto. intro x. rewrite K, K'. tauto.
  - apply NoDup_Permutation; auto. intro x. rewrite T, T'. tauto.
Qed.

(** ** Options *)

Lemma assimilate_parser po o l : assimilate_all (with_parser_options po o) l = (with_parser_options po (fst (assimilate_all o l)), snd (assimilate_all o l)).
Proof.
  revert o. induction l as [|x l IH]; intro o; [reflexivity|]. cbn [assimilate_all].
  assert (H : options_assimilate (with_parser_options po o) x = (with_parser_options po (fst (options_assimilate o x)), snd (options_assimilate o x))).
  { clear IH. unfold options_assimilate, assimilate_field. destruct o as [ti su cc td tm tc doc oc rc bm pm po0]. cbn.
    destruct (opt_variant x); cbn; try reflexivity;
      match goal with |- context [assign _ _ ?u] => destruct u; reflexivity end. }
  rewrite H. destruct (options_assimilate o x) as [o1 r1]. cbn [fst snd]. rewrite IH. destruct (assimilate_all o1 l). reflexivity.
Qed.

(** ** The whole *)

Section Whole.
  Context (L : lexer_env) (E : grammar_env) (En : environment_ok E) (U : unicode_ok (le_unicode L)).
  Context (glob_with : str -> result (list glob_item) str) (canonicalize : path -> option path) (read : path -> result str str).
  Context (Cano : forall p q c d, same_path p q -> canonicalize p = Some c -> canonicalize q = Some d -> same_path c d).
  Context (canonicalize' : path -> option path).
  Context (fuel : nat) (root : option path) (content : str) (s s' : sources).
  (** The same files, in some order and in another one. *)
  Context (Reads : reads_to (includes_of L) glob_with canonicalize read fuel root content s).
  Context (Reads' : reads_to (includes_of L) glob_with canonicalize read fuel root content s').
  Context (Root : forall p, root = Some p -> canonicalize p <> None).

  Lemma any_order : root_path s = root_path s' /\ root_content s = root_content s' /\ included_globs s = included_globs s' /\
    Permutation (included_content s) (included_content s').
  Proof.
    destruct Reads as (s0 & R & A & B & C & D & F & P), Reads' as (s1 & R' & A' & B' & C' & D' & F' & P').
    rewrite R in R'. injection R' as <-. rewrite A, A', B, B', D, D'. repeat split; auto. rewrite <- P. exact P'.
  Qed.
  Lemma error_paths_any p : lookup opt_path_eqb p (error_paths s) = lookup opt_path_eqb p (error_paths s').
  Proof.
    destruct any_order as (_ & _ & _ & P). apply (lookup_perm _ opt_path_equiv).
    - destruct (read_any_spec _ _ _ _ _ _ _ _ Reads) as (log & H). pose proof (ra_distinct _ _ _ _ _ _ _ _ H) as Di.
      unfold error_paths. clear - Di. induction Di as [|[q src] l Fa Di IH]; cbn; [exact I|].
      destruct src as [id c ci|e|]; cbn; auto. split; [|exact IH]. rewrite lookup_None by apply opt_path_equiv.
      intros f v Hf. apply in_flat_map in Hf. destruct Hf as ([q' src'] & Hp & Hf). rewrite Forall_forall in Fa.
      destruct src'; [destruct Hf| |destruct Hf]. destruct Hf as [X|[]]. injection X as <- _.
      destruct (opt_path_eqb (Some q) (Some q')) eqn:Eq; [|reflexivity]. exfalso. apply (Fa _ Hp). apply (same_file_eqb (Some q) (Some q')). exact Eq.
    - unfold error_paths. apply Permutation_flat_map. exact P.
  Qed.

  (** Parsing the one and the other gives the same result: if it is a success,
      the same directives, options and plugins, and the same warnings but for
      their order; otherwise the same errors but for their order. *)
  Theorem C40_parse : forall toks toks',
    parser_new L s = Fine (Some toks) -> parser_new L s' = Fine (Some toks') ->
    (forall id f c, In (id, f, c) (content_iter s) -> fine_content L E id c) ->
    sets_nothing L (tl (content_iter s)) ->
    exists result result',
      parse E canonicalize' s toks = Fine (Some result) /\ parse E canonicalize' s' toks' = Fine (Some result') /\ 
      same_result result result'.
  Proof.
    intros toks toks' Pn Pn' Fi No.
    destruct any_order as (Rp & Rc & Gl & Pc).
    assert (Pi : Permutation (tl (content_iter s)) (tl (content_iter s'))) by (cbn; apply Permutation_flat_map; exact Pc).
    assert (Hd : content_iter s = (root_source_id, root_path s, root_content s) :: tl (content_iter s)) by reflexivity.
    assert (Hd' : content_iter s' = (root_source_id, root_path s, root_content s) :: tl (content_iter s')) by (unfold content_iter; rewrite Rp, Rc; reflexivity).
    assert (Fi' : forall id f c, In (id, f, c) (content_iter s') -> fine_content L E id c).
    { intros id f c Hin. apply (Fi id f c). rewrite Hd' in Hin. rewrite Hd. destruct Hin as [X|Hin]; [left; exact X|right].
      eapply Permutation_in; [symmetry; exact Pi|exact Hin]. }
    destruct (C03_parse L E En U glob_with canonicalize read Cano canonicalize' fuel root content s Reads Root toks Pn Fi)
      as (xs & r' & po & ds & opts & plugins & reports & sorted & Fs & Ob & Pp & So & X).
    destruct (C03_parse L E En U glob_with canonicalize read Cano canonicalize' fuel root content s' Reads' Root toks' Pn' Fi')
      as (xs2 & r2 & po2 & ds2 & opts2 & plugins2 & reports2 & sorted2 & Fs2 & Ob2 & Pp2 & So2 & X2).
    cbn zeta in X, X2. do 2 eexists. split; [exact X|]. split; [exact X2|].
    assert (Ob0 : exists po, obeys E po initial_rules).
    { exists default_parser_options. split; cbn; [exact named_default| |reflexivity]. intro t. apply default_names_valid. apply En. }
    (* the files *)
    destruct xs as [|x xs]; [inversion Fs|]. rewrite Hd in Fs.
    destruct (C40_files L E _ _ _ _ _ _ _ No Pi Fs) as (xs' & Fs' & Pm). rewrite Hd' in Fs2.
    destruct (files_read_same L E En _ _ _ _ Fs' Ob0 ltac:(rewrite <- Hd'; exact Fi') _ _ Fs2) as (<- & Same).
    assert (Px : Permutation (x :: xs) (x :: xs')).
    { constructor. assert (Ln : forall cs r xs r', files_read L E r cs xs r' -> List.length cs = List.length xs) by (clear; induction 1; cbn; congruence).
      apply Ln in Fs. apply Ln in Fs'. apply (f_equal pred) in Fs, Fs'. cbn [List.length pred] in Fs, Fs'. rename Fs into Le. rename Fs' into Le'. apply (Permutation_map snd) in Pm. revert Pm.
      clear - Le Le'. assert (C : forall (l : list (nat * option path * str)) (m : list file_result), List.length l = List.length m -> map snd (combine l m) = m).
      { induction l as [|? l IH]; intros [|? m] Q; try discriminate; [reflexivity|]. cbn. f_equal. apply IH. injection Q. auto. }
      rewrite (C _ _ Le), (C _ _ Le'). auto. }
    assert (Re : map returned xs2 = map returned (x :: xs')).
    { clear - Same. induction Same as [|? ? ? ? (A & B & _) F IH]; cbn [map]; [reflexivity|]. rewrite IH. unfold returned at 1 3. rewrite A, B. reflexivity. }
    assert (Er : flat_map fr_errors xs2 = flat_map fr_errors (x :: xs')).
    { clear - Same. induction Same as [|? ? ? ? (_ & _ & B & _) F IH]; cbn [flat_map]; [reflexivity|]. rewrite IH, B. reflexivity. }
    assert (Wa : flat_map fr_errors xs2 = [] -> flat_map fr_warnings xs2 = flat_map fr_warnings (x :: xs')).
    { clear - Same. induction Same as [|? y ? ? (_ & _ & B & W) F IH]; cbn [flat_map]; [reflexivity|]. intro Ne. apply app_eq_nil in Ne. destruct Ne as [Ne Ne'].
      rewrite <- B in Ne. rewrite W, IH; auto. intros ? ? Q. rewrite Ne in Q. destruct Q. }
    (* the walk *)
    rewrite <- Hd in Fs. rewrite <- Hd' in Fs'.
    destruct (shape_of L E glob_with canonicalize read Cano canonicalize' fuel root content s Reads Root _ _ Fs) as (rootds & b & Sh & Nd).
    destruct (shape_of L E glob_with canonicalize read Cano canonicalize' fuel root content s' Reads' Root _ _ Fs') as (rootds' & b' & Sh' & Nd').
    cbn [app] in Sh, Nd, Sh', Nd'.
    assert (rootds' = rootds) by (cbn in Sh, Sh'; congruence). subst rootds'.
    assert (Pb : Permutation b b').
    { apply (Permutation_map returned) in Px. rewrite Sh, Sh' in Px. eapply Permutation_cons_inv. exact Px. }
    rewrite Re, Sh' in Pp2. rewrite Sh in Pp. rewrite <- Gl in Pp2.
    pose proof (pass_spec canonicalize' (included_globs s) (error_paths s) po root [] rootds b Nd) as Z.
    cbn zeta in Z. cbn [app] in Z. rewrite Pp in Z. destruct Z as (es & rest & rs & left & W & Y & Du & Le & -> & -> & ->).
    pose proof (pass_spec canonicalize' (included_globs s) (error_paths s') po2 root [] rootds b' Nd') as Z.
    cbn zeta in Z. cbn [app] in Z. rewrite Pp2 in Z. destruct Z as (es2 & rest2 & rs2 & left2 & W2 & Y2 & Du2 & Le2 & -> & -> & ->).
    destruct (proj1 (walk_any (included_globs s)) _ _ _ _ _ W _ Pb) as (rest' & W' & _).
    assert (Nb' : names_distinct b') by (apply (names_distinct_app_r [(root, rootds)]); exact Nd').
    destruct (proj1 (walk_unique (included_globs s)) _ _ _ _ _ W' Nb' _ _ W2) as [<- _].
    apply (dues_errors _ _ _ _ error_paths_any) in Du. pose proof (dues_unique _ _ _ _ _ _ _ Du Du2) as Al. clear Du Du2.
    pose proof (leftover_any _ _ _ Le Le2) as Pl.
    assert (Pe : Permutation (flat_map fr_errors (x :: xs) ++ map C_Report (rs ++ left)) (flat_map fr_errors xs2 ++ map C_Report (rs ++ left2))).
    { rewrite Er. apply Permutation_app; [apply Permutation_flat_map; exact Px|]. rewrite !map_app. apply Permutation_app_head. apply Permutation_map. exact Pl. }
    assert (Ae : Forall2 alike_complaint (flat_map fr_errors xs2 ++ map C_Report (rs ++ left2)) (flat_map fr_errors xs2 ++ map C_Report (rs2 ++ left2))).
    { assert (Rf : forall l, Forall2 alike_complaint l l) by (induction l as [|[r|i j] l IH]; constructor; auto; constructor; reflexivity).
      apply Forall2_app; [apply Rf|]. rewrite !map_app. apply Forall2_app; [|apply Rf].
      clear - Al. induction Al; constructor; auto. }
    destruct (flat_map fr_errors (x :: xs) ++ map C_Report (rs ++ left)) as [|e errors] eqn:Ne.
    2:{ destruct (flat_map fr_errors xs2 ++ map C_Report (rs2 ++ left2)) eqn:Ne2; [|exists (flat_map fr_errors xs2 ++ map C_Report (rs ++ left2)); split; [exact Pe|exact Ae]].
        inversion Ae as [Q|]. rewrite <- Q in Pe. symmetry in Pe. apply Permutation_nil in Pe. discriminate. }
    apply Permutation_nil in Pe. rewrite Pe in *. inversion Ae as [Q0|]. clear Ae. cbn [same_result].
    split; [|split; [|split; [reflexivity|]]].
    - apply sort_sorted in So. apply sort_sorted in So2. eapply sorted_from_same; [|exact So|exact So2]. eapply yields_same; eassumption.
    - assert (Po : forall po, os_parser_options (fst (assimilate_all (options_new po) (options_of es))) = po).
      { intro p. pose proof (C12_first_wins p (options_of es)) as Q. cbn zeta in Q. tauto. }
      split; [|split].
      + rewrite Po. change (options_new po2) with (with_parser_options po2 (options_new po)). now rewrite assimilate_parser.
      + intro t. unfold options_account_type_name. rewrite !Po. rewrite (proj1 (ob_named _ _ _ Ob)), (proj1 (ob_named _ _ _ Ob2)). reflexivity.
      + unfold options_long_string_maxlines. rewrite !Po. pose proof (ob_limit _ _ _ Ob) as Q. rewrite <- (ob_limit _ _ _ Ob2) in Q. unfold line_limit in Q.
        destruct (po_maxlines po), (po_maxlines po2); try discriminate; [|reflexivity]. cbn. congruence.
    - apply app_eq_nil in Pe. rewrite (Wa (proj1 Pe)). apply Permutation_flat_map. exact Px.
  Qed.
End Whole.

(** ** Cases: a file which includes two others *)

Definition ex_two : str := lit "include ""b.bean""" ++ [10%N] ++ lit "include ""c.bean""" ++ [10%N].
Definition ex_read_two (b c : str) (p : path) : result str str :=
  if path_eqb p (lit "/d/b.bean") then Ok b else if path_eqb p (lit "/d/c.bean") then Ok c else Err (lit "none").
Definition ex_name : option path := Some (lit "/d/a.bean").
Definition ex_sources_two (b c : str) : option sources :=
  read_with_includes (includes_of P_Lexer.ex_env) ex_glob ex_canonicalize (ex_read_two b c) 5 ex_name ex_two.
(** The same, the other way round. *)
Definition other_way (s : sources) : sources :=
  mk_sources (root_path s) (root_content s) (root_char_indices s) (included_globs s) (rev (included_content s)) (source_id_strings s).
Definition ex_parse (s : sources) : option parsed_as :=
  match parser_new P_Lexer.ex_env s with
  | Fine (Some toks) => match parse ex_env ex_canonicalize s toks with Fine r => r | Panic => None end
  | _ => None
  end.

Lemma ex_reads_to b c s : ex_sources_two b c = Some s ->
  reads_to (includes_of P_Lexer.ex_env) ex_glob ex_canonicalize (ex_read_two b c) 5 ex_name ex_two s /\
  reads_to (includes_of P_Lexer.ex_env) ex_glob ex_canonicalize (ex_read_two b c) 5 ex_name ex_two (other_way s).
Proof.
  unfold ex_sources_two. intro H. assert (P := Permutation_rev (included_content s)).
  split; exists s; (split; [exact H|]); do 5 (split; [reflexivity|]); [apply Permutation_refl|exact P].
Qed.

(** A name which is set in one included file and used in another is known or
    not, depending on the order in which they are parsed. *)
Definition ex_b : str := lit "option ""name_assets"" ""Actifs""" ++ [10%N].
Definition ex_c : str := lit "2024-01-02 open Actifs:Cash" ++ [10%N].
Theorem C40_order_matters_refuted : exists read content s s' toks toks' ds opts plugins ws es ws',
  reads_to (includes_of P_Lexer.ex_env) ex_glob ex_canonicalize read 5 ex_name content s /\
  reads_to (includes_of P_Lexer.ex_env) ex_glob ex_canonicalize read 5 ex_name content s' /\
  parser_new P_Lexer.ex_env s = Fine (Some toks) /\ parser_new P_Lexer.ex_env s' = Fine (Some toks') /\
  (forall id f c, In (id, f, c) (content_iter s) -> fine_content P_Lexer.ex_env ex_env id c) /\
  parse ex_env ex_canonicalize s toks = Fine (Some (Success ds opts plugins ws)) /\
  parse ex_env ex_canonicalize s' toks' = Fine (Some (Failure es ws')).
Proof.
  destruct (ex_sources_two ex_b ex_c) as [s|] eqn:S; [|vm_compute in S; discriminate].
  destruct (ex_reads_to _ _ _ S) as [R R'].
  assert (X : match ex_parse s, ex_parse (other_way s) with Some (Success _ _ _ _), Some (Failure _ _) => True | _, _ => False end).
  { vm_compute in S. injection S as <-. vm_compute. exact I. }
  unfold ex_parse in X. destruct (parser_new P_Lexer.ex_env s) as [[toks|]|] eqn:P; [|destruct X|destruct X].
  destruct (parse ex_env ex_canonicalize s toks) as [[[ds opts plugins ws|]|]|] eqn:Q; [|destruct X|destruct X|destruct X].
  destruct (parser_new P_Lexer.ex_env (other_way s)) as [[toks'|]|] eqn:P'; [|destruct X|destruct X].
  destruct (parse ex_env ex_canonicalize (other_way s) toks') as [[[|es ws']|]|] eqn:Q'; [destruct X| |destruct X|destruct X].
  exists (ex_read_two ex_b ex_c), ex_two, s, (other_way s), toks, toks', ds, opts, plugins, ws, es, ws'.
  split; [exact R|]. split; [exact R'|]. split; [exact P|]. split; [exact P'|]. split; [|split; [exact Q|exact Q']].
  vm_compute in S. injection S as <-.
  intros id f c H. apply check_content_ok. destruct H as [Y|[Y|[Y|[]]]]; injection Y as <- <- <-; vm_compute; reflexivity.
Qed.

(** The hypotheses of [C40_parse] are met; the files have other options. *)
Definition check_rules (I : input) : bool :=
  forallb (fun i => negb match nth_error (in_tokens I) i, nth_error (in_tokens I) (S i) with
    | Some (T_Keyword K_Option, _), Some (T_String name, _) =>
        existsb (str_eqb name) (map lit ["name_assets"; "name_liabilities"; "name_equity"; "name_income"; "name_expenses"; "long_string_maxlines"]%string)
    | _, _ => false
    end) (seq 0 (List.length (in_tokens I))).
Lemma check_rules_ok I : check_rules I = true -> ~ sets_rules I.
Proof.
  intros H (i & name & value & [r T] & [r1 T1] & _ & Hin). unfold check_rules in H. rewrite forallb_forall in H.
  assert (Lt : i < List.length (in_tokens I)) by (apply nth_error_Some; congruence).
  specialize (H i ltac:(apply in_seq; lia)). rewrite T, T1 in H. apply negb_true_iff in H.
  enough (existsb (str_eqb name) (map lit ["name_assets"; "name_liabilities"; "name_equity"; "name_income"; "name_expenses"; "long_string_maxlines"]%string) = true) by congruence.
  apply existsb_exists. exists name. split; [exact Hin|]. apply str_eqb_refl.
Qed.

Definition ex_b' : str := lit "option ""title"" ""Test""" ++ [10%N] ++ lit "2024-01-03 open Assets:B" ++ [10%N].
Definition ex_c' : str := lit "2024-01-02 open Assets:C" ++ [10%N].
Example ex_order : exists s toks toks',
  reads_to (includes_of P_Lexer.ex_env) ex_glob ex_canonicalize (ex_read_two ex_b' ex_c') 5 ex_name ex_two s /\
  reads_to (includes_of P_Lexer.ex_env) ex_glob ex_canonicalize (ex_read_two ex_b' ex_c') 5 ex_name ex_two (other_way s) /\
  content_iter s <> content_iter (other_way s) /\
  parser_new P_Lexer.ex_env s = Fine (Some toks) /\ parser_new P_Lexer.ex_env (other_way s) = Fine (Some toks') /\
  (forall id f c, In (id, f, c) (content_iter s) -> fine_content P_Lexer.ex_env ex_env id c) /\
  sets_nothing P_Lexer.ex_env (tl (content_iter s)).
Proof.
  destruct (ex_sources_two ex_b' ex_c') as [s|] eqn:S; [|vm_compute in S; discriminate].
  destruct (ex_reads_to _ _ _ S) as [R R'].
  assert (X : match parser_new P_Lexer.ex_env s, parser_new P_Lexer.ex_env (other_way s) with Fine (Some _), Fine (Some _) => True | _, _ => False end).
  { vm_compute in S. injection S as <-. vm_compute. exact I. }
  destruct (parser_new P_Lexer.ex_env s) as [[toks|]|] eqn:P; [|destruct X|destruct X].
  destruct (parser_new P_Lexer.ex_env (other_way s)) as [[toks'|]|] eqn:P'; [|destruct X|destruct X].
  exists s, toks, toks'. split; [exact R|]. split; [exact R'|]. split.
  { vm_compute in S. injection S as <-. intro Y. vm_compute in Y. discriminate. }
  split; [exact P|]. split; [exact P'|]. vm_compute in S. injection S as <-. split.
  - intros id f c H. apply check_content_ok. destruct H as [Y|[Y|[Y|[]]]]; injection Y as <- <- <-; vm_compute; reflexivity.
  - intros id f c ts H Lx. apply check_rules_ok. destruct H as [Y|[Y|[]]]; injection Y as <- <- <-; vm_compute in Lx; injection Lx as <-; vm_compute; reflexivity.
Qed.

Print Assumptions C40_nothing_set.
Print Assumptions C40_files.
Print Assumptions C40_parse.
Print Assumptions C40_order_matters_refuted.
