(** * Facts for C73: a directive stands for itself *)
From Coq Require Import String Ascii.
From Coq Require Import List NArith ZArith Arith Bool Lia Permutation Sorted.
From Verif Require Import Base BaseFacts Text Path PathFacts Sources Types SpecTypes TypesFacts P_Types SortM SpecSort SortFacts P_Sort Options SpecOptions OptionsFacts P_Options
  Pragma SpecPragma PragmaRun P_Pragma Read SpecRead ReadFacts P_Read
  Token Lexer SpecLexer P_Lexer Peg PegFacts Grammar SpecExpr SpecGrammar SpecDirective SpecDisplay SpecLedger SpecAlike P_Grammar
  Parse SpecParse SpecWhole ParseFacts ParseOnce ParseFile P_File P_Includes P_Parse IncludeTokens P_Order P_Complete AlikeRead AlikeFile AlikeWalk AlikeOptions
  Sim SimValues SimGrammar SimFile SimCopy SpecPaste Paste P_Paste P_Total SpecAppend Append SpecLocal.
Import SpecPragma Read.
Import ListNotations.
Local Open Scope nat_scope.
Local Notation tok := SpecGrammar.tok.

(** ** Sorting without one *)
Lemma filter_split {A} (f : A -> bool) x : forall l F1 F2, filter f l = F1 ++ x :: F2 -> exists b a, l = b ++ x :: a /\ filter f b = F1 /\ filter f a = F2.
Proof.
  induction l as [|y l IH]; intros F1 F2 H; cbn in H; [destruct F1; discriminate|]. destruct (f y) eqn:Fy.
  - destruct F1 as [|z F1]; cbn in H.
    + injection H as -> H. exists [], l. auto.
    + injection H as -> H. destruct (IH _ _ H) as (b & a & -> & B & C). exists (z :: b), a. cbn. rewrite Fy, B. auto.
  - destruct (IH _ _ H) as (b & a & -> & B & C). exists (y :: b), a. cbn. rewrite Fy. auto.
Qed.
Lemma strongly_without {A} (R : A -> A -> Prop) x : forall b a, StronglySorted R (b ++ x :: a) -> StronglySorted R (b ++ a).
Proof.
  induction b as [|y b IH]; intros a H; cbn in *; inversion H as [|? ? S F]; subst; [exact S|]. constructor; [apply IH; exact S|].
  apply Forall_app in F. destruct F as [F1 F2]. inversion F2; subst. apply Forall_app. auto.
Qed.
Lemma sorted_without y1 x y2 ds : sorted_from (y1 ++ x :: y2) ds -> exists before after, ds = before ++ x :: after /\ sorted_from (y1 ++ y2) (before ++ after).
Proof.
  intro H. pose proof key_compare_laws as (CE & CO & CT). assert (Rf : forall k, key_compare k k = Eq) by (intro; apply CE; reflexivity).
  apply sorted_keyed in H. destruct H as [So K]. pose proof (K (directive_key x)) as Kx. rewrite filter_app in Kx. cbn [filter] in Kx. rewrite Rf in Kx.
  destruct (filter_split _ _ _ _ _ Kx) as (b & a & -> & Fb & Fa). exists b, a. split; [reflexivity|].
  destruct (sorted_exists (y1 ++ y2)) as (m & Sm). replace (b ++ a) with m; [exact Sm|]. apply sorted_keyed in Sm. destruct Sm as [Sm Km].
  apply keyed_unique; [exact Sm|eapply strongly_without; exact So|]. intro k. rewrite Km. specialize (K k). rewrite !filter_app in *. cbn [filter] in K.
  destruct (key_compare (directive_key x) k) eqn:C; [|symmetry; exact K|symmetry; exact K]. apply CE in C. subst k. rewrite Fb, Fa. reflexivity.
Qed.

(** ** The events without a directive *)
Definition level (s s' : list event) : Prop := (forall t, tag_stack t s = tag_stack t s') /\ (forall k, meta_stack k s = meta_stack k s') /\ options_of s = options_of s'.
Lemma level_snoc s s' es : level s s' -> level (s ++ es) (s' ++ es).
Proof.
  intros (A & B & C). unfold level, tag_stack, meta_stack, options_of in *. split; [|split]; intros; rewrite ?fold_left_app, ?flat_map_app; [rewrite A|rewrite B|rewrite C]; reflexivity.
Qed.
Lemma level_directive s d f x sp : d = mk_spanned (D_Directive x) sp -> level s (s ++ [Declared f d]).
Proof. intros ->. unfold level, tag_stack, meta_stack, options_of. split; [|split]; intros; rewrite ?fold_left_app, ?flat_map_app; cbn; rewrite ?app_nil_r; reflexivity. Qed.
Lemma level_sym s s' : level s s' -> level s' s.
Proof. intros (A & B & C). repeat split; auto. Qed.
Lemma level_yields s es ds : yields s es ds -> forall s', level s s' -> yields s' es ds.
Proof.
  intro Y. induction Y as [seen|seen e es d d' ds As Au Sp Y IH|seen e es ds As Y IH]; intros s' Le; [constructor| |].
  - econstructor; [exact As| |exact Sp|apply IH; apply level_snoc; exact Le]. destruct Au as [a b c d0 F G H K]. destruct Le as (T & M & _). constructor; auto.
    + intro t. rewrite <- T. apply F.
    + intros k v. rewrite <- M. apply G.
  - apply yields_other; auto. apply IH. apply level_snoc. exact Le.
Qed.
Lemma level_dues canonicalize root ds : Forall (fun d => is_include (item d) = false) ds ->
  forall s s' rs, level s s' -> dues canonicalize [] [] s (map (here root) ds) rs -> dues canonicalize [] [] s' (map (here root) ds) rs.
Proof.
  intro F. induction F as [|d ds Ni F IH]; intros s s' rs Le D; inversion D as [|? ? ? rs1 rs2 De Dr]; subst; constructor.
  - destruct Le as (T & M & O). cbn in De |- *. destruct (item d) as [x|[]] eqn:It; auto; try discriminate.
    + rewrite <- T. exact De.
    + rewrite <- M. exact De.
    + rewrite <- O. exact De.
  - apply IH with (s := s ++ [here root d]); [apply level_snoc; exact Le|exact Dr].
Qed.
Lemma yields_split a : forall seen b ds, yields seen (a ++ b) ds -> exists d1 d2, ds = d1 ++ d2 /\ yields seen a d1 /\ yields (seen ++ a) b d2.
Proof.
  induction a as [|e a IH]; intros seen b ds H; cbn in H.
  - exists [], ds. rewrite app_nil_r. repeat split; [constructor|exact H].
  - inversion H; subst.
    + match goal with X : yields _ (a ++ b) _ |- _ => destruct (IH _ _ _ X) as (d1 & d2 & -> & A & B) end. exists (d' :: d1), d2. rewrite <- app_assoc in B. repeat split; [econstructor; eauto|exact B].
    + match goal with X : yields _ (a ++ b) _ |- _ => destruct (IH _ _ _ X) as (d1 & d2 & -> & A & B) end. exists d1, d2. rewrite <- app_assoc in B. repeat split; [apply yields_other; auto|exact B].
Qed.
Lemma dues_split canonicalize globs errors a : forall seen b, dues canonicalize globs errors seen (a ++ b) [] -> dues canonicalize globs errors seen a [] /\ dues canonicalize globs errors (seen ++ a) b [].
Proof.
  induction a as [|e a IH]; intros seen b H; cbn in H; [rewrite app_nil_r; split; [constructor|exact H]|].
  inversion H as [|? ? ? rs rs' D Ds Q1 Q2]; subst. match goal with Q : _ ++ _ = [] |- _ => apply app_eq_nil in Q; destruct Q as [-> ->] end. apply IH in Ds. destruct Ds as [A B]. rewrite <- app_assoc in B. split; [|exact B].
  change (@nil report) with (@nil report ++ []). constructor; assumption.
Qed.

(** ** Lines *)
Lemma nth_firstn {A} (l : list A) : forall n a, a < n -> nth_error (firstn n l) a = nth_error l a.
Proof. induction l as [|x l IH]; intros [|n] [|a] H; try reflexivity; try lia. cbn. apply IH. lia. Qed.
Section Lines.
  Context (E : grammar_env) (En : environment_ok E).

  (** A declaration does not go on after a line which is ended and not followed
      by an indented one. *)
  Lemma declares_stops I f r i j d r1 p : computable E I -> fine_options I -> (exists po, obeys E po r) -> declares E I f r i j d [] r1 ->
    i < p -> (exists k, p = S k /\ tok I k T_Eol) -> ~ tok I p T_Indent -> j <= p.
  Proof.
    intros Ci Fi (po & Ob) D Lt (k & -> & Tk) Ni.
    destruct (p_once_reads E I f En Ci Fi (mk_pstate po []) r i j d [] r1 Ob D) as (st1 & more & Rd & Ob1 & B & _).
    set (J := mk_input (in_source I) (firstn (S k) (in_tokens I)) (in_len I)).
    assert (Bk : S k <= List.length (in_tokens I)) by (destruct Tk as [x Tk]; assert (nth_error (in_tokens I) k <> None) as H by congruence; apply nth_error_Some in H; exact H).
    assert (Nj : forall a, a < S k -> nth_error (in_tokens J) a = nth_error (in_tokens I) a) by (intros a La; exact (nth_firstn (in_tokens I) (S k) a La)).
    set (P := fun a a' : nat => a = a' /\ a < S k). set (Q := fun a a' : nat => a = a' /\ a <= S k).
    assert (Step : in_step I J P Q any).
    { constructor.
      - intros a a' [<- La]. destruct (Nat.eq_dec a (S k)) as [->|Ne]; [right|left; split; lia]. split; [exact Ni|]. intros [x X].
        assert (nth_error (in_tokens J) (S k) <> None) as H by congruence. apply nth_error_Some in H. unfold J in H. cbn [in_tokens] in H. rewrite firstn_length in H. lia.
      - intros a a' [<- La]. rewrite Nj by exact La. destruct (nth_error (in_tokens I) a) as [[t x]|] eqn:X; [|apply nth_error_None in X; lia].
        split; [reflexivity|]. split; [|intros _; split; lia]. intro Ne. split; [reflexivity|]. destruct (Nat.eq_dec a k) as [->|]; [|lia]. destruct Tk as [y Tk]. congruence.
      - intros; exact Logic.I. }
    assert (As : alike_state (mk_pstate po []) (mk_pstate po [])) by (split; [split; reflexivity|reflexivity]).
    pose proof (ssim_once E (env_order _ En) I J P Q any Step f _ _ i i As (conj eq_refl Lt)) as H. rewrite Rd in H. cbn [map srsim] in H.
    pose proof (p_once_ssteps E J f (mk_pstate po []) i) as Sf.
    destruct (p_once E J f (mk_pstate po []) i) as [d' x es' st1'|st1'| |]; cbn in H; try contradiction.
    2: { exfalso. apply Sf. unfold J. cbn [in_tokens]. rewrite firstn_length. lia. }
    destruct H as (_ & [_ H] & _). exact H.
  Qed.

  (** Where a line starts which is not indented. *)
  Definition line_start (I : input) (p : nat) : Prop := (p = 0 \/ exists k, p = S k /\ tok I k T_Eol) /\ ~ tok I p T_Indent.
  Lemma obeys_after I f r i j d r1 : computable E I -> fine_options I -> (exists po, obeys E po r) -> declares E I f r i j d [] r1 -> (exists po, obeys E po r1) /\ i < j <= List.length (in_tokens I).
  Proof.
    intros Ci Fi (po & Ob) D. destruct (p_once_reads E I f En Ci Fi (mk_pstate po []) r i j d [] r1 Ob D) as (st1 & more & Rd & Ob1 & B & _). eauto.
  Qed.
  Lemma tiles_at I f r i ds es ws r' p : computable E I -> fine_options I -> (exists po, obeys E po r) -> tiles E I f r i ds es ws r' -> es = [] ->
    i <= p <= List.length (in_tokens I) -> line_start I p ->
    exists d1 d2 w1 w2 r1, ds = d1 ++ d2 /\ ws = w1 ++ w2 /\ runs E I f r i d1 w1 p r1 /\ tiles E I f r1 p d2 [] w2 r' /\ exists po, obeys E po r1.
  Proof.
    intros Ci Fi Ob T. induction T as [r i F|r i j d es r1 ds es' ws r' D T IH]; intros Qe B Ls.
    - assert (p = i) as -> by (unfold finished in F; apply nth_error_None in F; lia). exists [], [], [], [], r. repeat split; auto; constructor; exact F.
    - apply app_eq_nil in Qe. destruct Qe as [-> ->]. destruct (Nat.eq_dec p i) as [->|Ne].
      + exists [], (d :: ds), [], (long_strings (rl_limit r) I i j ++ ws), r. split; [reflexivity|]. split; [reflexivity|]. split; [constructor|]. split; [|exact Ob].
        change (@nil report) with (@nil report ++ []). econstructor; eassumption.
      + destruct (obeys_after _ _ _ _ _ _ _ Ci Fi Ob D) as [Ob1 Bj]. destruct Ls as [[->|Le] Ni]; [lia|].
        pose proof (declares_stops _ _ _ _ _ _ _ p Ci Fi Ob D ltac:(lia) Le Ni) as Hj.
        destruct (IH Ob1 eq_refl ltac:(lia) (conj (or_intror Le) Ni)) as (d1 & d2 & w1 & w2 & r2 & -> & -> & R1 & T2 & O2).
        exists (d :: d1), d2, (long_strings (rl_limit r) I i j ++ w1), w2, r2. split; [reflexivity|]. split; [apply app_assoc|]. split; [econstructor; eassumption|]. auto.
  Qed.
  Lemma tiles_runs I f r i ds es ws r' : tiles E I f r i ds es ws r' -> es = [] -> i <= List.length (in_tokens I) -> computable E I -> fine_options I -> (exists po, obeys E po r) ->
    runs E I f r i ds ws (List.length (in_tokens I)) r'.
  Proof.
    intros T. induction T as [r i F|r i j d es r1 ds es' ws r' D T IH]; intros Qe B Ci Fi Ob.
    - unfold finished in F. apply nth_error_None in F. replace (List.length (in_tokens I)) with i by lia. constructor.
    - apply app_eq_nil in Qe. destruct Qe as [-> ->]. destruct (obeys_after _ _ _ _ _ _ _ Ci Fi Ob D) as [Ob1 Bj]. econstructor; [exact D|]. apply IH; auto. lia.
  Qed.
  Lemma runs_le I f r i ds ws k r' : computable E I -> fine_options I -> (exists po, obeys E po r) -> runs E I f r i ds ws k r' -> i <= k.
  Proof.
    intros Ci Fi Ob R. induction R as [|r i j d r1 ds ws k r' D R IH]; [lia|]. destruct (obeys_after _ _ _ _ _ _ _ Ci Fi Ob D) as [Ob1 B]. specialize (IH Ob1). lia.
  Qed.
  (** Where no rule is set, the rules stay. *)
  Lemma declares_settled I f r i j d es r1 : declares E I f r i j d es r1 -> ~ sets_rule_at I i -> r1 = r.
  Proof.
    intros D N. destruct D as [x e W|k q H Lb|k o' e r2 [a b name value o2 e' r3 Tk [W _] [W' _] Ef] Lb]; try reflexivity.
    inversion W as [x T1 Y]; subst. inversion W' as [x' T2 Y']; subst.
    destruct Ef as [t s R _|t t' s R _ _|m R|v R _|_|_ _]; try reflexivity; exfalso; apply N; exists (item name), (item value).
    - split; [exact Tk|]. split; [exact T1|]. split; [exact T2|]. inversion R; subst. destruct t; cbn; tauto.
    - split; [exact Tk|]. split; [exact T1|]. split; [exact T2|]. inversion R; subst. cbn; tauto.
  Qed.
  Lemma runs_settled I f r i ds ws k r' : computable E I -> fine_options I -> (exists po, obeys E po r) ->
    (forall b, i <= b < k -> ~ sets_rule_at I b) -> runs E I f r i ds ws k r' -> r' = r.
  Proof.
    intros Ci Fi Ob N R. induction R as [r i|r i j d r1 ds ws k r2 D R IH]; [reflexivity|].
    destruct (obeys_after _ _ _ _ _ _ _ Ci Fi Ob D) as [Ob1 B]. pose proof (runs_le _ _ _ _ _ _ _ _ Ci Fi Ob1 R) as Le.
    assert (r1 = r) as -> by (eapply declares_settled; [exact D|apply N; lia]). apply IH; auto. intros b Hb. apply N. lia.
  Qed.
  Lemma runs_next_start I f r i ds ws k r' : runs E I f r i ds ws k r' -> ds <> [] -> ~ tok I i T_Indent.
  Proof. intros [r0 i0|r0 i0 j d r1 ds0 ws0 k0 r2 D R] H; [contradiction|]. eapply not_indented. left. eauto. Qed.

  (** The lines of one directive are read as one declaration. *)
  Lemma runs_entry I f r i ds ws k r' ts : computable E I -> fine_options I -> (exists po, obeys E po r) -> runs E I f r i ds ws k r' ->
    entry ts -> List.length ts = k - i -> i <= k -> (forall x, x < k - i -> option_map fst (nth_error (in_tokens I) (i + x)) = nth_error ts x) ->
    exists d, ds = [mk_spanned (D_Directive d) (text I i k)] /\ declares E I f r i k (mk_spanned (D_Directive d) (text I i k)) [] r' /\ r' = r /\ ws = long_strings (rl_limit r) I i k.
  Proof.
    intros Ci Fi Ob R [(dt & rest & Q1) (us & Q2) El] Ln Le Tk.
    destruct R as [r0 i0|r0 i j d r1 ds0 ws0 k r2 D R].
    { rewrite Q1 in Ln. cbn in Ln. lia. }
    destruct (obeys_after _ _ _ _ _ _ _ Ci Fi Ob D) as [Ob1 Bj].
    assert (Sj : j <= k /\ (j <> k -> ~ tok I j T_Indent)).
    { pose proof (runs_le _ _ _ _ _ _ _ _ Ci Fi Ob1 R) as X. split; [lia|]. intro Ne. apply (runs_next_start _ _ _ _ _ _ _ _ R). intros ->. inversion R. congruence. }
    destruct Sj as [Bk Nk].
    assert (j = k) as ->.
    { destruct (Nat.eq_dec j k) as [|Ne]; [assumption|]. exfalso. specialize (Nk Ne).
      destruct (ended_declares _ _ _ _ _ _ _ _ _ D) as [(x & -> & T)|F]; [|unfold finished in F; apply nth_error_None in F; specialize (Tk (j - i) ltac:(lia)); replace (i + (j - i)) with j in Tk by lia;
        assert (nth_error ts (j - i) <> None) as Y by (apply nth_error_Some; lia); apply nth_error_None in F; rewrite F in Tk; cbn in Tk; congruence].
      pose proof (Tk (x - i) ltac:(lia)) as T1. replace (i + (x - i)) with x in T1 by lia. destruct T as [y T]. rewrite T in T1. cbn in T1. symmetry in T1.
      apply nth_error_split in T1. destruct T1 as (u & v & Qs & Lu). destruct (El _ _ Qs) as [->|(v' & ->)].
      - rewrite Qs, app_length in Ln. cbn in Ln. lia.
      - apply Nk. specialize (Tk (S x - i) ltac:(lia)). replace (i + (S x - i)) with (S x) in Tk by lia.
        rewrite Qs, nth_error_app2 in Tk by lia. replace (S x - i - List.length u) with 1 in Tk by lia. destruct (nth_error (in_tokens I) (S x)) as [[t z]|] eqn:Z; [|discriminate Tk]. cbn in Tk. injection Tk as ->. exists z. exact Z. }
    assert (ds0 = [] /\ ws0 = [] /\ r2 = r1) as (-> & -> & ->).
    { clear - R En Ci Fi Ob1. inversion R as [|? ? ? ? ? ? ? ? ? D R']; subst; [auto|]. exfalso. destruct (obeys_after _ _ _ _ _ _ _ Ci Fi Ob1 D) as [Ob2 B]. pose proof (runs_le _ _ _ _ _ _ _ _ Ci Fi Ob2 R'). lia. }
    assert (Td : tok I i (T_Date dt)).
    { specialize (Tk 0 ltac:(lia)). rewrite Nat.add_0_r, Q1 in Tk. destruct (nth_error (in_tokens I) i) as [[t z]|] eqn:Z; [|discriminate Tk]. cbn in Tk. injection Tk as ->. exists z. exact Z. }
    pose proof D as D0. inversion D as [x e W|x p H Hl|x o e r3 H Hl]; subst.
    - exists x. rewrite app_nil_r. auto.
    - exfalso. destruct H; match goal with T : tok I i (T_Keyword _) |- _ => destruct T as [? T], Td as [? Td]; congruence end.
    - exfalso. destruct H. match goal with T : tok I i (T_Keyword _) |- _ => destruct T as [? T], Td as [? Td]; congruence end.
  Qed.

  (** A run, copied to where the same tokens are. *)
  Lemma runs_copied I J f r i ds ws k r1 : computable E I -> fine_options I -> computable E J -> fine_options J ->
    runs E I f r i ds ws k r1 -> forall r' i', kin E r r' -> k <= List.length (in_tokens I) ->
    (forall x t, x < k - i -> tok I (i + x) t -> tok J (i' + x) t) -> ~ tok I k T_Indent -> ~ tok J (i' + (k - i)) T_Indent ->
    (k = i \/ (exists y, k = S y /\ tok I y T_Eol) \/ finished I k /\ finished J (i' + (k - i))) ->
    exists ds' ws' r1', runs E J f r' i' ds' ws' (i' + (k - i)) r1' /\ Forall2 (alike_declaration any) ds ds' /\ map rp_problem ws = map rp_problem ws' /\ kin E r1 r1'.
  Proof.
    intros Ci Fi Cj Fj R. induction R as [r i|r i j d r1 ds ws k r2 D R IH]; intros r' i' Ki Bk Tk Nk Nk' En'.
    - replace (i' + (i - i)) with i' by lia. exists [], [], r'. repeat split; auto; constructor.
    - assert (Ob : exists po, obeys E po r) by (destruct Ki as (po & po' & Ob & _); eauto).
      destruct (obeys_after _ _ _ _ _ _ _ Ci Fi Ob D) as [Ob1 B]. pose proof (runs_le _ _ _ _ _ _ _ _ Ci Fi Ob1 R) as Bj.
      assert (Nj : ~ tok I j T_Indent).
      { destruct (Nat.eq_dec j k) as [->|Ne]; [exact Nk|]. eapply runs_next_start; [exact R|]. intros ->. inversion R. congruence. }
      assert (Same : forall x t, i <= x < k -> tok J (i' + (x - i)) t -> tok I x t).
      { intros x t Hx [z Z]. destruct (nth_error (in_tokens I) x) as [[t' z']|] eqn:Y; [|apply nth_error_None in Y; lia].
        assert (tok J (i' + (x - i)) t') as [z2 Z2] by (apply Tk; [lia|]; replace (i + (x - i)) with x by lia; exists z'; exact Y). assert (t = t') as -> by congruence. exists z'. exact Y. }
      assert (Nj' : ~ tok J (i' + (j - i)) T_Indent).
      { destruct (Nat.eq_dec j k) as [->|Ne]; [exact Nk'|]. intro T. apply Nj. apply (Same j); [lia|exact T]. }
      assert (Cp : copied I J i j i' (i' + (j - i))).
      { assert (Tj : forall x t, x < j - i -> tok I (i + x) t -> tok J (i' + x) t) by (intros; apply Tk; [lia|assumption]).
        destruct (ended_declares _ _ _ _ _ _ _ _ _ D) as [El|F]; [apply copied_line; [exact Tj|exact El]|].
        assert (j = k) as -> by (unfold finished in F; apply nth_error_None in F; lia).
        destruct En' as [->|[El|[_ F']]]; [lia|apply copied_line; assumption|]. destruct (nth_error (in_tokens I) (k - 1)) as [[t z]|] eqn:Y; [|apply nth_error_None in Y; lia].
        destruct (token_eol_dec t) as [->|Nt].
        - apply copied_line; [exact Tj|]. exists (k - 1). split; [lia|exists z; exact Y].
        - apply copied_end; auto. intros q -> [z' Y']. replace (S q - 1) with q in Y by lia. congruence. }
      destruct (declares_copied E En I J f r r' i j i' (i' + (j - i)) d r1 Ci Fi Cj Fj Ki D Cp Nj Nj') as (d' & r1' & D' & Ad & K1).
      destruct (IH r1' (i' + (j - i)) K1 Bk) as (ds' & ws' & r2' & R' & Al & W & K2); auto.
      + intros x t Hx T. replace (i' + (j - i) + x) with (i' + (j - i + x)) by lia. apply Tk; [lia|]. replace (i + (j - i + x)) with (j + x) by lia. exact T.
      + replace (i' + (j - i) + (k - j)) with (i' + (k - i)) by lia. exact Nk'.
      + destruct En' as [->|[El|[F F']]]; [left; lia|right; left; exact El|right; right]. replace (i' + (j - i) + (k - j)) with (i' + (k - i)) by lia. auto.
      + replace (i' + (j - i) + (k - j)) with (i' + (k - i)) in R' by lia.
        exists (d' :: ds'), (long_strings (rl_limit r') J i' (i' + (j - i)) ++ ws'), r2'. split; [econstructor; [exact D'|exact R']|]. split; [constructor; assumption|]. split; [|exact K2].
        rewrite !map_app, W. f_equal. apply copied_strings; [apply kin_limit in Ki; exact Ki|lia|]. intros x t Hx T. apply Tk; [lia|exact T].
  Qed.
End Lines.
