(** * C52: what has been parsed can be displayed and parsed again *)
From Coq Require Import String Ascii.
From Coq Require Import List NArith ZArith Arith Bool Lia Permutation.
From Verif Require Import Base BaseFacts Text Path SpecPath PathFacts Sources Types SpecTypes TypesFacts P_Types SortM SpecSort P_Sort Options SpecOptions P_Options
  Pragma SpecPragma PragmaFacts PragmaRun P_Pragma Read SpecRead ReadFacts P_Read Decimal SpecDecimal
  Token LexPost SpecLex LexFacts P_Lex Lexer SpecLexer LexerFacts P_Lexer Peg Grammar SpecExpr Display SpecDisplay
  PegFacts ExprFacts P_Arith DisplayLex DisplayText DisplayDirective DisplayLexed SpecGrammar SpecDirective GrammarSafe DisplayRead DisplayLaid DisplayParsed P_Grammar
  Parse SpecParse SpecWhole ParseFacts ParseOnce ParseFile P_File P_Includes P_Parse P_Display.
Import ListNotations.
Local Open Scope nat_scope.

(** ** The names of the account types are the default ones *)
Section Names.
  Context (E : grammar_env) (I : input) (source_path : option path) (No : ~ sets_names I).

  Lemma names_option r i j o es r' : option_at E I source_path r i j o es r' -> rl_names r' = rl_names r.
  Proof.
    intros [a b name value o' es' r2 T [W _] [W' _] Ef]. inversion W as [x T1 Y]; subst. inversion W' as [x' T2 Y']; subst.
    destruct Ef as [t s R _|t t' s R _ _|m R|v R _|_|_ _]; try reflexivity. exfalso; apply No; exists i, (item name), (item value).
    split; [exact T|]. split; [exact T1|]. split; [exact T2|]. inversion R; subst. destruct t; cbn; tauto.
  Qed.
  Lemma names_declares r i j d es r' : declares E I source_path r i j d es r' -> rl_names r' = rl_names r.
  Proof. intros [d' es' _|k p _ _|k o es' r2 O _]; try reflexivity. exact (names_option _ _ _ _ _ _ O). Qed.
End Names.

(** ** Declarations *)
Definition declared_ok (L : lexer_env) (E : grammar_env) (d : declaration) : Prop :=
  match d with
  | D_Directive d => common_date (item (dir_date d)) /\ parts_ok L E default_names (item (dir_metadata d)) /\
      (showable_variant (dir_variant d) -> common_variant L E default_names (dir_variant d))
  | D_Pragma (P_Pushtag t) => common_label E (item t)
  | D_Pragma (P_Pushmeta kv) => common_key E (item (mkv_key kv)) /\
      (showable_meta_value (item (mkv_value kv)) -> common_meta_value L E default_names (item (mkv_value kv)))
  | _ => True
  end.

Section Ok.
  Context (L : lexer_env) (E : grammar_env) (En : environment_ok E) (UO : unicode_ok (le_unicode L)) (DF : decimals_fit (le_decimal L)).

  Lemma default_set : well_set E default_parser_options default_names.
  Proof. split; [apply En|exact named_default| |apply En]. intro t. apply default_names_valid. apply En. Qed.

  Lemma declares_ok I f r i j d es r' : (forall i t, tok I i t -> sane L t) -> computable E I -> rl_names r = default_names ->
    declares E I f r i j d es r' -> declared_ok L E (item d).
  Proof.
    intros Sn Com Rn [d' es' [Da _]|k p Pr _|k o es' r2 O _]; cbn [item declared_ok]; [| |exact Logic.I].
    - rewrite Rn in Da. eapply c_directive; [exact Sn|exact default_set|exact Com|exact Da].
    - rewrite Rn in Pr. destruct Pr as [m t _ T|m t _ T|m kv _ K| | |]; cbn; try exact Logic.I; [exact (c_tag L E I Sn _ _ _ T)|exact (c_key_value L E I default_names Sn _ _ _ K)].
  Qed.
  Lemma tiles_ok I f : (forall i t, tok I i t -> sane L t) -> computable E I -> ~ sets_names I -> forall r i ds es ws r',
    tiles E I f r i ds es ws r' -> rl_names r = default_names -> Forall (fun d => declared_ok L E (item d)) ds /\ rl_names r' = default_names.
  Proof.
    intros Sn Com No r i ds es ws r' T. induction T as [r i _|r i j d es r1 ds es' ws r' De T IH]; intro Rn; [split; [constructor|exact Rn]|].
    destruct IH as [F Q]; [rewrite (names_declares _ _ _ No _ _ _ _ _ _ De); exact Rn|]. split; [|exact Q]. constructor; [|exact F]. exact (declares_ok _ _ _ _ _ _ _ _ Sn Com Rn De).
  Qed.
  Lemma input_sane id c ts i t : lex L c = Fine (Some ts) -> tok (input_of id c ts) i t -> sane L t.
  Proof. intros H [r T]. eapply lexed_sane; [exact UO|exact DF|exact H|]. eapply nth_error_In. exact T. Qed.
  Lemma files_ok : forall r cs fs es ws r', files_tiled L E r cs fs es ws r' ->
    (forall id f c, In (id, f, c) cs -> fine_content L E id c) ->
    (forall id f c ts, In (id, f, c) cs -> lex L c = Fine (Some ts) -> ~ sets_names (input_of id c ts)) ->
    rl_names r = default_names -> Forall (fun x => Forall (fun d => declared_ok L E (item d)) (snd x)) fs.
  Proof.
    intros r cs fs es ws r' T. induction T as [r|r id file content toks cs ds es ws r1 fs es' ws' r' Lx T _ IH]; intros Fi No Rn; [constructor|].
    assert (Com : computable E (input_of id content toks)).
    { destruct (Fi id file content (or_introl eq_refl)) as (ts & Lx' & C & _). rewrite Lx in Lx'. injection Lx' as <-. exact C. }
    destruct (tiles_ok _ _ (fun i t => input_sane id content toks i t Lx) Com (No id file content toks (or_introl eq_refl) Lx) _ _ _ _ _ _ T Rn) as [F Q].
    constructor; [exact F|]. apply IH; [|intros a b c ts Hin; apply (No a b c ts); right; exact Hin|exact Q]. intros a b c Hin. apply (Fi a b c). right. exact Hin.
  Qed.
End Ok.

(** *** On the walk *)
Section Walk.
  Context (globs : list (path * included_glob)) (P : declaration -> Prop).
  Let all (t : table) : Prop := Forall (fun x => Forall (fun d => P (item d)) (snd x)) t.
  Definition event_ok (e : event) : Prop := match e with Declared _ d => P (item d) | Offered _ _ _ => True end.

  Lemma offers_ok sp t ps es fs t' : offers sp t ps es fs t' -> all t -> all fs /\ all t' /\ Forall event_ok es.
  Proof.
    induction 1 as [t|t p ps k ds t1 es fs t2 (a & b & -> & -> & _) _ IH|t p ps es fs t1 _ _ IH]; intro F.
    - repeat split; try constructor. exact F.
    - apply Forall_app in F. destruct F as [Fa Fb]. inversion Fb as [|? ? Fd Fb']; subst. destruct IH as (A & B & C); [apply Forall_app; split; assumption|].
      split; [constructor; assumption|]. split; [exact B|]. constructor; [exact Logic.I|exact C].
    - destruct (IH F) as (A & B & C). split; [exact A|]. split; [exact B|]. constructor; [exact Logic.I|exact C].
  Qed.
  Lemma walk_ok :
    (forall t f ds es t', walk globs t f ds es t' -> all t -> Forall (fun d => P (item d)) ds -> Forall event_ok es /\ all t') /\
    (forall t fs es t', walks globs t fs es t' -> all t -> all fs -> Forall event_ok es /\ all t').
  Proof.
    apply walk_walks_ind.
    - intros t f F _. split; [constructor|exact F].
    - intros t f d ds es t' _ _ IH F Fd. inversion Fd; subst. destruct IH as [A B]; auto.
    - intros t f d text ds g offered fs t1 es1 t2 es2 t3 _ _ Of _ IH1 _ IH2 F Fd. inversion Fd; subst.
      destruct (offers_ok _ _ _ _ _ _ Of F) as (Fs & F1 & Eo). destruct IH1 as [A B]; [exact F1|apply Forall_rev; exact Fs|].
      destruct IH2 as [A2 B2]; auto. split; [|exact B2]. constructor; [assumption|]. apply Forall_app. split; [exact Eo|]. apply Forall_app. split; assumption.
    - intros t F _. split; [constructor|exact F].
    - intros t f ds fs es1 t1 es2 t2 _ IH1 _ IH2 F Ff. inversion Ff; subst. destruct IH1 as [A B]; auto. destruct IH2 as [A2 B2]; auto. split; [|exact B2]. apply Forall_app. split; assumption.
  Qed.
End Walk.

(** *** With what was pushed *)
Section Pushed.
  Context (L : lexer_env) (E : grammar_env).

  Lemma tag_stack_ok t seen : Forall (event_ok (declared_ok L E)) seen -> Forall (fun x => common_label E (item x)) (tag_stack t seen).
  Proof.
    induction seen as [|e seen IH] using rev_ind; intro F; [constructor|]. apply Forall_app in F. destruct F as [F Fe]. inversion Fe as [|? ? He _]; subst. rewrite tag_stack_snoc.
    specialize (IH F). unfold tag_effect. destruct e as [f d|]; [|exact IH]. cbn in He. destruct (item d) as [|p]; [exact IH|]. destruct p; try exact IH.
    - destruct (str_eqb _ _); [constructor; [exact He|exact IH]|exact IH].
    - destruct (str_eqb _ _); [|exact IH]. destruct (tag_stack t seen); [exact IH|inversion IH; assumption].
  Qed.
  Lemma meta_stack_ok k seen : Forall (event_ok (declared_ok L E)) seen ->
    Forall (fun x => common_key E k /\ (showable_meta_value (item (snd x)) -> common_meta_value L E default_names (item (snd x)))) (meta_stack k seen).
  Proof.
    induction seen as [|e seen IH] using rev_ind; intro F; [constructor|]. apply Forall_app in F. destruct F as [F Fe]. inversion Fe as [|? ? He _]; subst. rewrite meta_stack_snoc.
    specialize (IH F). unfold meta_effect. destruct e as [f d|]; [|exact IH]. cbn in He. destruct (item d) as [|p]; [exact IH|]. destruct p; try exact IH.
    - destruct (str_eqb _ _) eqn:Q; [|exact IH]. apply str_eqb_eq in Q. subst k. constructor; [exact He|exact IH].
    - destruct (str_eqb _ _); [|exact IH]. destruct (meta_stack k seen); [exact IH|inversion IH; assumption].
  Qed.
  Lemma augmented_ok seen d d' : Forall (event_ok (declared_ok L E)) seen -> augmented seen d d' -> declared_ok L E (D_Directive d) -> declared_ok L E (D_Directive d').
  Proof.
    intros Fs [Ad Av _ Al At Ak To Ko] (Cd & [Pk Pt Pl Nk Nt Nl] & Cv). cbn. rewrite Ad, Av. split; [exact Cd|]. split; [|exact Cv].
    split.
    - apply Forall_forall. intros [k v] Hin. apply Ak in Hin. cbn [fst snd]. destruct Hin as [Hin|[_ Hd]].
      + rewrite Forall_forall in Pk. exact (Pk _ Hin).
      + pose proof (meta_stack_ok (item k) seen Fs) as X. destruct (meta_stack (item k) seen) as [|y l]; [discriminate|]. injection Hd as ->. inversion X; subst. assumption.
    - apply Forall_forall. intros t Hin. apply At in Hin. destruct Hin as [Hin|[_ Hd]].
      + rewrite Forall_forall in Pt. exact (Pt _ Hin).
      + pose proof (tag_stack_ok (item t) seen Fs) as X. destruct (tag_stack (item t) seen) as [|y l]; [discriminate|]. injection Hd as ->. inversion X; subst. assumption.
    - rewrite Al. exact Pl.
    - apply Ko. exact Nk.
    - apply To. exact Nt.
    - rewrite Al. exact Nl.
  Qed.
  Lemma yields_ok : forall seen es ds, yields seen es ds -> Forall (event_ok (declared_ok L E)) seen -> Forall (event_ok (declared_ok L E)) es ->
    Forall (fun d => declared_ok L E (D_Directive (item d))) ds.
  Proof.
    intros seen es ds Y. induction Y as [seen|seen e es d d' ds Ad Au _ _ IH|seen e es ds _ _ IH]; intros Fs Fe; [constructor| |].
    - inversion Fe as [|? ? He Fe']; subst. constructor; [|apply IH; [apply Forall_app; split; [exact Fs|constructor; [exact He|constructor]]|exact Fe']].
      eapply augmented_ok; [exact Fs|exact Au|]. destruct e as [f x|]; [|discriminate]. cbn in Ad, He. destruct (item x); [|discriminate]. injection Ad as <-. exact He.
    - inversion Fe as [|? ? He Fe']; subst. apply IH; [apply Forall_app; split; [exact Fs|constructor; [exact He|constructor]]|exact Fe'].
  Qed.
End Pushed.

Lemma sorted_permutation l out : sorted_from l out -> Permutation l out.
Proof.
  intros (places & P & M & _). assert (X : Permutation (map (nth_error l) (seq 0 (List.length l))) (map Some out)) by (rewrite <- M; apply Permutation_map, Permutation_sym; exact P).
  assert (Y : map (nth_error l) (seq 0 (List.length l)) = map Some l).
  { clear. induction l as [|x l IH]; [reflexivity|]. cbn [List.length seq map]. f_equal. rewrite <- seq_shift, map_map. exact IH. }
  rewrite Y in X. clear - X. apply Permutation_map_inv in X. destruct X as (l' & Q & P).
  assert (l = l') as ->; [|apply Permutation_sym; exact P]. clear - Q. revert l' Q. induction l as [|x l IH]; intros [|y l'] Q; try discriminate; [reflexivity|]. injection Q as -> Q. f_equal. auto.
Qed.
Lemma sorted_ordered l out : sorted_from l out -> ForallOrdPairs (fun x y => ~ must_precede y x) (map item out).
Proof.
  intros (places & _ & _ & O). assert (H : forall i j x y, occurs_before out i j x y -> ~ must_precede (item y) (item x)) by (intros i j x y X; exact (proj1 (O i j x y X))). clear O places l.
  induction out as [|x out IH]; [constructor|]. cbn. constructor.
  - apply Forall_map, Forall_forall. intros y Hy. apply In_nth_error in Hy. destruct Hy as [j Hy]. apply (H 0 (S j)). split; [lia|]. split; [reflexivity|exact Hy].
  - apply IH. intros i j a b (Lt & A & B). apply (H (S i) (S j)). split; [lia|]. split; assumption.
Qed.

Section RoundTrip.
  Context (L : lexer_env) (E : grammar_env) (En : environment_ok E) (UO : unicode_ok (le_unicode L)) (RD : reads_decimals (le_decimal L)) (DF : decimals_fit (le_decimal L)).
  Context (ND : forall c, u_Nd (le_unicode L) c = true -> u_Lu (le_unicode L) c = false /\ u_Lo (le_unicode L) c = false).
  Context (D : display_env) (Dok : display_ok D).

  (** An expression which has been parsed: its text is read as the same, to its end. *)
  Theorem C46_parsed : forall id content ts i e j ws es, lex L content = Fine (Some ts) -> p_expr (input_of id content ts) i = Got e j ws es ->
    forall id', exists toks n, lex L (display_expr D e) = Fine (Some toks) /\
      p_expr (input_of id' (display_expr D e) toks) 0 = Got e n [] [] /\ map fst (skipn n toks) = [T_Eol].
  Proof.
    intros id content ts i e j ws es Lx P id'. apply p_expr_sound in P. apply (C46_read_back L UO RD ND D Dok).
    - exact (proj1 (shapes _) _ _ _ P).
    - eapply (proj1 (n_expr L _ (fun i t => input_sane L UO DF id content ts i t Lx))). exact P.
  Qed.

  (** *** Directives *)
  Context (glob_with : str -> result (list glob_item) str) (canonicalize : path -> option path) (read : path -> result str str).
  Context (Cano : forall p q c d, same_path p q -> canonicalize p = Some c -> canonicalize q = Some d -> same_path c d).
  Context (canonicalize' : path -> option path) (fuel : nat) (root : option path) (content : str) (s : sources).
  Context (Reads : reads_to (includes_of L) glob_with canonicalize read fuel root content s).
  Context (Root : forall p, root = Some p -> canonicalize p <> None).
  Context (toks : list (list rtoken)) (directives : list (spanned directive)) (opts : options) (plugins : list plugin) (warnings : list report).
  Context (Pn : parser_new L s = Fine (Some toks)) (Fi : forall id f c, In (id, f, c) (content_iter s) -> fine_content L E id c).
  Context (Ps : parse E canonicalize' s toks = Fine (Some (Success directives opts plugins warnings))).

  (** Files have been read and parsed, without an error.  No option names an
      account type, and in the directives there is nothing of what is not
      displayed as it is written.  The directives, displayed one after the
      other... *)
  Context (No : forall id f c ts, In (id, f, c) (content_iter s) -> lex L c = Fine (Some ts) -> ~ sets_names (input_of id c ts)).
  Context (Sh : Forall (fun d => showable (item d)) directives).

  Theorem C52_common : Forall (common L E default_names) (map item directives).
  Proof.
    destruct (C50_success_sound L E En UO _ _ _ Cano canonicalize' _ _ _ _ Reads Root _ _ _ _ _ Pn Fi Ps) as [rootds others r' po es rest yielded directives warnings Ti Wa _ _ Y So _].
    pose proof (files_ok L E En UO DF _ _ _ _ _ _ Ti Fi No eq_refl) as F. inversion F as [|? ? Fr Fo]; subst.
    destruct (proj1 (walk_ok _ (declared_ok L E)) _ _ _ _ _ Wa Fo Fr) as [Fe _].
    pose proof (yields_ok L E _ _ _ Y (Forall_nil _) Fe) as Fy. apply (Permutation_Forall (sorted_permutation _ _ So)) in Fy.
    apply Forall_map. rewrite Forall_forall in *. intros d Hd. destruct (Fy d Hd) as (A & B & C). destruct (Sh d Hd) as [Sm Sv].
    split; [exact A|apply parts_common; assumption|apply C; exact Sv].
  Qed.

  (** ... can be read, with or without a name for the file they are put into... *)
  Theorem C52_can_be_read : forall glob_with canonicalize read fuel root, exists s',
    reads_to (includes_of L) glob_with canonicalize read fuel root (document D (map item directives)) s'.
  Proof. intros. apply (document_can_be_read L E UO RD ND D Dok). exact C52_common. Qed.

  (** ... and are parsed, without an error, to the same directives in the same
      order. *)
  Theorem C52_round_trip : forall glob_with canonicalize read canonicalize' fuel root s',
    (forall p q c d, same_path p q -> canonicalize p = Some c -> canonicalize q = Some d -> same_path c d) ->
    (forall p, root = Some p -> canonicalize p <> None) ->
    reads_to (includes_of L) glob_with canonicalize read fuel root (document D (map item directives)) s' ->
    exists toks' directives' opts' warnings', parser_new L s' = Fine (Some toks') /\
      parse E canonicalize' s' toks' = Fine (Some (Success directives' opts' [] warnings')) /\
      Forall2 (fun d d' => alike (item d) (item d')) directives directives'.
  Proof.
    intros glob2 cano2 read2 cano3 fuel2 root2 s' Cano2 Root2 Reads2.
    destruct (C51_in_order L E En UO RD ND D Dok glob2 cano2 read2 Cano2 cano3 fuel2 root2 Root2 (map item directives) s' C52_common) as (toks' & directives' & opts' & warnings' & A & B & C); [|exact Reads2|].
    - destruct (C50_success_sound L E En UO _ _ _ Cano canonicalize' _ _ _ _ Reads Root _ _ _ _ _ Pn Fi Ps) as [rootds others r' po es rest yielded directives warnings Ti Wa _ _ Y So _].
      eapply sorted_ordered. exact So.
    - exists toks', directives', opts', warnings'. split; [exact A|]. split; [exact B|].
      clear - C. revert directives' C. induction directives as [|d ds IH]; intros ds' C; inversion C; subst; constructor; auto.
  Qed.
End RoundTrip.

Print Assumptions C46_parsed.
Print Assumptions C52_common.
Print Assumptions C52_can_be_read.
Print Assumptions C52_round_trip.

(** ** Cases *)

(** The hypotheses are met. *)
Definition check_clean (s : str) : bool := forallb (fun c => negb (N.eqb c 34) && negb (N.eqb c 92)) s.
Lemma check_clean_ok s : check_clean s = true -> clean s.
Proof.
  unfold check_clean. rewrite forallb_forall. intro H. split; intro X; apply H in X; discriminate.
Qed.
Definition check_option {A} (p : A -> bool) (o : option A) : bool := match o with Some x => p x | None => true end.
Lemma check_option_ok {A} (p : A -> bool) (P : A -> Prop) o : (forall x, p x = true -> P x) -> check_option p o = true -> optional P o.
Proof. destruct o; cbn; auto. Qed.
Definition check_meta_value (v : meta_value) : bool := match v with MV_Simple (SV_String s) => check_clean s | _ => true end.
Lemma check_meta_value_ok v : check_meta_value v = true -> showable_meta_value v.
Proof. destruct v as [[]|]; cbn; auto using check_clean_ok. Qed.
Definition check_metadata (m : metadata) : bool := forallb (fun kv => check_meta_value (item (snd kv))) (md_key_values m).
Lemma check_metadata_ok m : check_metadata m = true -> showable_metadata m.
Proof. unfold check_metadata, showable_metadata. rewrite forallb_forall, Forall_forall. intros H kv Hin. apply check_meta_value_ok, H, Hin. Qed.
Definition check_price (p : price_spec) : bool := match p with PS_Amount (SE_Total _) | PS_CurrencyAmount (SE_Total _) _ => false | _ => true end.
Lemma check_price_ok p : check_price p = true -> showable_price p.
Proof. destruct p as [|c|[]|[] c]; cbn; auto; discriminate. Qed.
Definition check_posting (p : posting) : bool :=
  check_option (fun c => check_option (fun s => check_clean (item s)) (cs_label (item c))) (po_cost_spec p) &&
  check_option (fun c => check_price (item c)) (po_price p) && check_metadata (item (po_metadata p)).
Lemma check_posting_ok p : check_posting p = true -> showable_posting p.
Proof.
  unfold check_posting. rewrite !andb_true_iff. intros [[A B] C]. split.
  - eapply check_option_ok; [|exact A]. intros x X. eapply check_option_ok; [|exact X]. intros y. apply check_clean_ok.
  - eapply check_option_ok; [|exact B]. intros x. apply check_price_ok.
  - apply check_metadata_ok. exact C.
Qed.
Definition check_variant (v : variant) : bool :=
  match v with
  | V_Transaction _ p n ps => check_option (fun s => check_clean (item s)) p && check_option (fun s => check_clean (item s)) n && forallb (fun p => check_posting (item p)) ps
  | V_Balance _ t => match at_tolerance (item t) with None => true | Some _ => false end
  | V_Document _ s | V_Note _ s => check_clean (item s)
  | V_Event a s | V_Query a s => check_clean (item a) && check_clean (item s)
  | V_Custom t vs => check_clean (item t) && forallb (fun v => check_meta_value (item v)) vs
  | _ => true
  end.
Definition check_showable (d : directive) : bool := check_metadata (item (dir_metadata d)) && check_variant (dir_variant d).
Lemma check_showable_ok d : check_showable d = true -> showable d.
Proof.
  unfold check_showable. rewrite andb_true_iff. intros [A B]. split; [apply check_metadata_ok; exact A|].
  destruct (dir_variant d); cbn in *; auto using check_clean_ok; try (apply andb_true_iff in B; destruct B as [B1 B2]).
  - apply andb_true_iff in B1. destruct B1 as [B0 B1]. split; [|split].
    + eapply check_option_ok; [|exact B0]. intros y. apply check_clean_ok.
    + eapply check_option_ok; [|exact B1]. intros y. apply check_clean_ok.
    + rewrite forallb_forall in B2. apply Forall_forall. intros p Hp. apply check_posting_ok, B2, Hp.
  - destruct (at_tolerance _); [discriminate|reflexivity].
  - auto using check_clean_ok.
  - auto using check_clean_ok.
  - split; [apply check_clean_ok; exact B1|]. rewrite forallb_forall in B2. apply Forall_forall. intros p Hp. apply check_meta_value_ok, B2, Hp.
Qed.
Definition check_names (I : input) : bool :=
  forallb (fun i => negb match nth_error (in_tokens I) i, nth_error (in_tokens I) (S i) with
    | Some (T_Keyword K_Option, _), Some (T_String name, _) =>
        existsb (str_eqb name) (map lit ["name_assets"; "name_liabilities"; "name_equity"; "name_income"; "name_expenses"]%string)
    | _, _ => false
    end) (seq 0 (List.length (in_tokens I))).
Lemma check_names_ok I : check_names I = true -> ~ sets_names I.
Proof.
  intros H (i & name & value & [r T] & [r1 T1] & _ & Hin). unfold check_names in H. rewrite forallb_forall in H.
  assert (Lt : i < List.length (in_tokens I)) by (apply nth_error_Some; congruence).
  specialize (H i ltac:(apply in_seq; lia)). rewrite T, T1 in H. apply negb_true_iff in H.
  enough (existsb (str_eqb name) (map lit ["name_assets"; "name_liabilities"; "name_equity"; "name_income"; "name_expenses"]%string) = true) by congruence.
  apply existsb_exists. exists name. split; [exact Hin|]. apply str_eqb_refl.
Qed.
Lemma ex_decimals_fit : decimals_fit ex_from_str.
Proof.
  intros s d H _. unfold ex_from_str in H. destruct (until_point s) as [i f]. destruct (negb _); [discriminate|].
  destruct (N.ltb_spec (decimal_value (i ++ f)) (2 ^ 96)) as [Lt|]; [|discriminate]. destruct (Nat.leb_spec (List.length f) 28); [|discriminate].
  injection H as <-. split; [reflexivity|]. split; assumption.
Qed.

Definition ex_pushed : str :=
  ex_line "option ""title"" ""A \""title\""""" ++ ex_line "pushtag #trip" ++ ex_line "pushmeta source: ""paper""" ++ ex_ledger ++ ex_line "popmeta source:" ++ ex_line "poptag #trip".
Definition ex_is_showable : bool :=
  match ex_directives (ex_parse ex_pushed) with Some ds => forallb check_showable ds && (List.length ds =? 4) | None => false end.
Example ex_round_trip : exists s toks directives opts plugins warnings,
  reads_to (includes_of P_Lexer.ex_env) ex_glob ex_canonicalize ex_read 5 None ex_pushed s /\ parser_new P_Lexer.ex_env s = Fine (Some toks) /\
  (forall id f c, In (id, f, c) (content_iter s) -> fine_content P_Lexer.ex_env P_Grammar.ex_env id c) /\
  parse P_Grammar.ex_env ex_canonicalize s toks = Fine (Some (Success directives opts plugins warnings)) /\
  (forall id f c ts, In (id, f, c) (content_iter s) -> lex P_Lexer.ex_env c = Fine (Some ts) -> ~ sets_names (input_of id c ts)) /\
  Forall (fun d => showable (item d)) directives /\ List.length directives = 4.
Proof.
  assert (X : ex_is_showable = true) by (vm_compute; reflexivity). unfold ex_is_showable, ex_parse in X.
  destruct (read_with_includes _ _ _ _ _ _ ex_pushed) as [s|] eqn:Rd; [|discriminate].
  destruct (parser_new P_Lexer.ex_env s) as [[toks|]|] eqn:Pn; [|discriminate|discriminate].
  destruct (parse P_Grammar.ex_env ex_canonicalize s toks) as [[[ds opts plugins ws|]|]|] eqn:Ps; [|discriminate|discriminate|discriminate].
  cbn [ex_directives] in X. apply andb_true_iff in X. destruct X as [X Y]. rewrite map_length in Y. apply Nat.eqb_eq in Y.
  exists s, toks, ds, opts, plugins, ws. split; [exists s; repeat split; [exact Rd|reflexivity]|]. split; [exact Pn|].
  assert (Ci : forall id f c, In (id, f, c) (content_iter s) -> check_content P_Lexer.ex_env P_Grammar.ex_env id c = true /\
    match lex P_Lexer.ex_env c with Fine (Some ts) => check_names (input_of id c ts) = true | _ => True end).
  { clear - Rd. vm_compute in Rd. injection Rd as <-. intros id f c [H|[]]. injection H as <- <- <-. vm_compute. auto. }
  split; [intros id f c H; apply check_content_ok; apply (Ci id f c H)|]. split; [exact Ps|]. split; [|split; [|exact Y]].
  - intros id f c ts H Lx. apply check_names_ok. destruct (Ci id f c H) as [_ Z]. rewrite Lx in Z. exact Z.
  - rewrite forallb_forall in X. apply Forall_forall. intros d Hd. apply check_showable_ok, X. apply in_map. exact Hd.
Qed.
Example ex_pushed_shown : ex_text (ex_parse (ex_text (ex_parse ex_pushed))) <> [].
Proof. vm_compute. discriminate. Qed.

(** Where an option names an account type, the directives alone cannot be read. *)
Theorem C52_names_refuted : not_read_again (ex_line "option ""name_assets"" ""Actifs""" ++ ex_line "2024-01-01 open Actifs:Cash").
Proof. apply ex_not_read_again. vm_compute. exact Logic.I. Qed.
Print Assumptions C52_names_refuted.
