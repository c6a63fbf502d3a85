(** * C03, C04, C39, C50: from the content of the files to the result of parsing *)
From Coq Require Import String Ascii.
From Coq Require Import List NArith ZArith Arith Bool Lia Permutation.
From Verif Require Import Base BaseFacts Text Path SpecPath PathFacts Sources Types SpecTypes TypesFacts P_Types SortM SpecSort P_Sort Options SpecOptions P_Options
  Pragma SpecPragma PragmaRun P_Pragma Read SpecRead ReadFacts P_Read
  Token Lexer SpecLexer P_Lexer Peg Grammar SpecGrammar SpecDirective P_Grammar
  Parse SpecParse SpecWhole ParseFacts ParseOnce ParseFile P_File P_Includes.
Import ListNotations.
Local Open Scope nat_scope.

(** ** The tokens of the files *)

Lemma set_nth_length {A} (x : A) : forall l n l', set_nth n x l = Fine l' -> List.length l' = List.length l.
Proof.
  induction l as [|y l IH]; intros [|n] l' H; cbn in H; try discriminate; [injection H as <-; reflexivity|].
  destruct (set_nth n x l) eqn:X; [|discriminate]. injection H as <-. cbn. f_equal. eauto.
Qed.
Lemma set_nth_total {A} (x : A) : forall l n, n < List.length l -> exists l', set_nth n x l = Fine l'.
Proof.
  induction l as [|y l IH]; intros [|n] H; cbn in *; try lia; [eauto|]. destruct (IH n ltac:(lia)) as [l' ->]. eauto.
Qed.
Lemma set_nth_at {A} (x : A) : forall l n l' k, set_nth n x l = Fine l' -> nth_error l' k = if k =? n then Some x else nth_error l k.
Proof.
  induction l as [|y l IH]; intros [|n] l' k H; cbn in H; try discriminate.
  - injection H as <-. destruct k; reflexivity.
  - destruct (set_nth n x l) eqn:X; [|discriminate]. injection H as <-. destruct k; cbn; [reflexivity|]. eauto.
Qed.

Lemma tokenize_all_spec L (U : unicode_ok (le_unicode L)) : forall cs acc, NoDup (map (fun x => fst (fst x)) cs) ->
  (forall id f c, In (id, f, c) cs -> id < List.length acc) ->
  match tokenize_all L cs acc with
  | Panic => exists id f c, In (id, f, c) cs /\ lex L c = Panic
  | Fine None => False
  | Fine (Some toks) => forall k, 
      (forall f c, In (k, f, c) cs -> exists ts, lex L c = Fine (Some ts) /\ nth_error toks k = Some ts) /\
      (~ In k (map (fun x => fst (fst x)) cs) -> nth_error toks k = nth_error acc k)
  end.
Proof.
  induction cs as [|[[id f] c] cs IH]; intros acc Nd Lt; cbn [tokenize_all].
  - intro k. split; [intros f c []|auto].
  - pose proof (C30_lex L U c) as X. destruct (lex L c) as [[ts|]|] eqn:Lx; [|contradiction|exists id, f, c; split; [left; reflexivity|exact Lx]].
    destruct (set_nth_total ts acc id (Lt id f c (or_introl eq_refl))) as [acc' Sn]. rewrite Sn.
    cbn in Nd. inversion Nd as [|? ? Ni Nd']; subst. pose proof (set_nth_length _ _ _ _ Sn) as Le.
    specialize (IH acc' Nd'). rewrite Le in IH. specialize (IH (fun i f c H => Lt i f c (or_intror H))).
    destruct (tokenize_all L cs acc') as [[toks|]|]; [|contradiction|].
    + intro k. destruct (IH k) as [A B]. split.
      * intros f' c' [Y|Hin]; [|eauto]. injection Y as <- <- <-. exists ts. split; [exact Lx|].
        rewrite (B Ni), (set_nth_at _ _ _ _ id Sn), Nat.eqb_refl. reflexivity.
      * cbn. intro H. rewrite B by tauto. rewrite (set_nth_at _ _ _ _ k Sn). destruct (Nat.eqb_spec k id); [subst; tauto|reflexivity].
    + destruct IH as (i' & f' & c' & H & P). exists i', f', c'. split; [right; exact H|exact P].
Qed.

(** ** Files *)

Lemma pairs_app {A} (R : A -> A -> Prop) a x b : ForallOrdPairs R (a ++ x :: b) -> forall y, In y a -> R y x.
Proof.
  induction a as [|z a IH]; cbn; intros H y []; inversion H as [|? ? F H']; subst; [|eauto].
  rewrite Forall_forall in F. apply F. apply in_or_app. right. left. reflexivity.
Qed.

(** There is only one way to sort. *)
Lemma ordered_unique {A} (R : A -> A -> Prop) : (forall x y, R x y -> R y x -> False) ->
  forall l l', Permutation l l' -> ForallOrdPairs R l -> ForallOrdPairs R l' -> l = l'.
Proof.
  intros As. induction l as [|x l IH]; intros l' P F F'.
  - apply Permutation_nil in P. congruence.
  - destruct l' as [|y l']; [apply Permutation_sym, Permutation_nil in P; discriminate|].
    inversion F as [|? ? Fx Fl]; inversion F' as [|? ? Fy Fl']; subst.
    assert (x = y) as ->.
    { assert (Hx : In x (y :: l')) by (eapply Permutation_in; [exact P|left; reflexivity]).
      assert (Hy : In y (x :: l)) by (eapply Permutation_in; [symmetry; exact P|left; reflexivity]).
      destruct Hx as [->|Hx]; [reflexivity|]. destruct Hy as [->|Hy]; [reflexivity|]. exfalso.
      rewrite Forall_forall in Fx, Fy. exact (As _ _ (Fx _ Hy) (Fy _ Hx)). }
    f_equal. apply IH; auto. eapply Permutation_cons_inv; exact P.
Qed.
Lemma pairs_nth {A} (R : A -> A -> Prop) l : (forall i j x y, i < j -> nth_error l i = Some x -> nth_error l j = Some y -> R x y) -> ForallOrdPairs R l.
Proof.
  induction l as [|a l IH]; intro H; [constructor|]. constructor.
  - apply Forall_forall. intros y Hy. apply In_nth_error in Hy. destruct Hy as [j Hj]. apply (H 0 (S j) a y); [lia|reflexivity|exact Hj].
  - apply IH. intros i j x y Lt Hx Hy. apply (H (S i) (S j)); [lia|exact Hx|exact Hy].
Qed.
Lemma core_precede x x' y y' : core x = core x' -> core y = core y' -> must_precede (item x) (item y) -> must_precede (item x') (item y').
Proof.
  unfold core. intros X Y. injection X as Dx _ _ Vx _. injection Y as Dy _ _ Vy _.
  unfold must_precede, is_open, is_balance. rewrite Dx, Dy, Vx, Vy. auto.
Qed.
Lemma sorted_places (l out : list (spanned directive)) pi : map (nth_error l) pi = map Some out -> forall i p, nth_error pi i = Some p ->
  exists x, nth_error out i = Some x /\ nth_error l p = Some x.
Proof.
  intros M i p Hp. assert (X : nth_error (map (nth_error l) pi) i = Some (nth_error l p)) by (apply map_nth_error; exact Hp).
  rewrite M in X. destruct (nth_error out i) as [x|] eqn:Y.
  - rewrite (map_nth_error _ _ _ Y) in X. injection X as X. exists x. auto.
  - apply nth_error_None in Y. assert (nth_error (map (@Some (spanned directive)) out) i = None) by (apply nth_error_None; rewrite map_length; exact Y). congruence.
Qed.
Lemma sorted_from_same l l' out out' : Forall2 same_directive l l' -> sorted_from l out -> sorted_from l' out' -> Forall2 same_directive out out'.
Proof.
  intros Sm (pi & P & M & H) (pi' & P' & M' & H').
  assert (At : forall p x x', nth_error l p = Some x -> nth_error l' p = Some x' -> same_directive x x').
  { clear - Sm. induction Sm as [|a b l l' S Sm IH]; intros [|p] x x' X X'; try discriminate; cbn in *; [congruence|eauto]. }
  assert (Ln : List.length l = List.length l') by (clear - Sm; induction Sm; cbn; congruence).
  assert (Ord : forall (l out : list (spanned directive)) pi, map (nth_error l) pi = map Some out ->
    (forall i j x y, occurs_before out i j x y -> ~ must_precede (item y) (item x) /\
       (tied (item x) (item y) -> forall p q, nth_error pi i = Some p -> nth_error pi j = Some q -> p < q)) ->
    ForallOrdPairs (fun p q => exists x y, nth_error l p = Some x /\ nth_error l q = Some y /\ ~ must_precede (item y) (item x) /\
       (tied (item x) (item y) -> p < q)) pi).
  { clear. intros l out pi M H. apply pairs_nth. intros i j p q Lt Hp Hq.
    destruct (sorted_places _ _ _ M i p Hp) as (x & Ox & Lx), (sorted_places _ _ _ M j q Hq) as (y & Oy & Ly).
    exists x, y. destruct (H i j x y (conj Lt (conj Ox Oy))) as [A B]. repeat split; auto. }
  assert (pi = pi') as <-.
  { eapply (ordered_unique (fun p q => exists x y, nth_error l p = Some x /\ nth_error l q = Some y /\ ~ must_precede (item y) (item x) /\
       (tied (item x) (item y) -> p < q))); [|etransitivity; [exact P|rewrite Ln; symmetry; exact P']|exact (Ord _ _ _ M H)|].
    - intros p q (x & y & Hx & Hy & A & B) (y' & x' & Hy' & Hx' & A' & B'). assert (y' = y) by congruence. assert (x' = x) by congruence. subst.
      assert (T1 : tied (item x) (item y)) by (split; assumption). assert (T2 : tied (item y) (item x)) by (split; assumption).
      specialize (B T1). specialize (B' T2). lia.
    - pose proof (Ord _ _ _ M' H') as O. clear - O At Ln. induction O as [|p pi F O IH]; constructor; [|exact IH].
      eapply Forall_impl; [|exact F]. cbn. intros q (x & y & Hx & Hy & A & B).
      assert (Ex : forall p z, nth_error l' p = Some z -> exists z', nth_error l p = Some z' /\ core z' = core z).
      { intros p' z Hz. destruct (nth_error l p') as [z'|] eqn:Y; [exists z'; split; [reflexivity|apply (At _ _ _ Y Hz)]|].
        apply nth_error_None in Y. assert (p' < List.length l') by (apply nth_error_Some; congruence). lia. }
      destruct (Ex _ _ Hx) as (x' & Hx' & Cx), (Ex _ _ Hy) as (y' & Hy' & Cy). exists x', y'. split; [exact Hx'|]. split; [exact Hy'|].
      split; [intro Y; apply A; exact (core_precede _ _ _ _ Cy Cx Y)|]. intros [T1 T2]. apply B. split; intro Y; [apply T1|apply T2].
      + exact (core_precede _ _ _ _ (eq_sym Cx) (eq_sym Cy) Y).
      + exact (core_precede _ _ _ _ (eq_sym Cy) (eq_sym Cx) Y). }
  clear - M M' At. revert out out' M M'. induction pi as [|p pi IH]; intros [|x out] [|x' out'] M M'; try discriminate; [constructor|].
  cbn in M, M'. injection M as M0 M. injection M' as M0' M'. constructor; [exact (At _ _ _ M0 M0')|auto].
Qed.
Lemma same_directive_refl d : same_directive d d.
Proof. repeat split; auto. Qed.
Lemma sorted_from_unique l out out' : sorted_from l out -> sorted_from l out' -> out = out'.
Proof.
  intros (pi & P & M & H) (pi' & P' & M' & H').
  assert (pi = pi') as <-.
  { assert (Ord : forall out pi, map (nth_error l) pi = map Some out ->
      (forall i j x y, occurs_before out i j x y -> ~ must_precede (item y) (item x) /\
         (tied (item x) (item y) -> forall p q, nth_error pi i = Some p -> nth_error pi j = Some q -> p < q)) ->
      ForallOrdPairs (fun p q => exists x y, nth_error l p = Some x /\ nth_error l q = Some y /\ ~ must_precede (item y) (item x) /\
         (tied (item x) (item y) -> p < q)) pi).
    { clear. intros out pi M H. apply pairs_nth. intros i j p q Lt Hp Hq.
      destruct (sorted_places _ _ _ M i p Hp) as (x & Ox & Lx), (sorted_places _ _ _ M j q Hq) as (y & Oy & Ly).
      exists x, y. destruct (H i j x y (conj Lt (conj Ox Oy))) as [A B]. repeat split; auto. }
    eapply ordered_unique; [|etransitivity; [exact P|symmetry; exact P']|exact (Ord _ _ M H)|exact (Ord _ _ M' H')].
    intros p q (x & y & Hx & Hy & A & B) (y' & x' & Hy' & Hx' & A' & B'). assert (y' = y) by congruence. assert (x' = x) by congruence. subst.
    assert (T1 : tied (item x) (item y)) by (split; assumption). assert (T2 : tied (item y) (item x)) by (split; assumption).
    specialize (B T1). specialize (B' T2). lia. }
  rewrite M in M'. clear - M'. revert out' M'. induction out as [|x out IH]; intros [|y out'] M; try discriminate; [reflexivity|].
  injection M as -> M. f_equal. auto.
Qed.
Lemma yields_same seen es ds : yields seen es ds -> forall ds', yields seen es ds' -> Forall2 same_directive ds ds'.
Proof.
  induction 1 as [seen|seen e es d d' ds Ad Au Sp Y IH|seen e es ds Ad Y IH]; intros ds2 H2; inversion H2; subst; try congruence; [constructor| |auto].
  constructor; [|auto]. match goal with H : as_directive e = Some ?x |- _ => assert (x = d) by congruence; subst x end.
  match goal with H : augmented _ (item d) (item ?x) |- same_directive ?y ?x => rename x into d2; rename H into Au2 end.
  split; [|split].
  - unfold core. rewrite (aug_date _ _ _ Au), (aug_variant _ _ _ Au), (aug_md_span _ _ _ Au), (aug_links _ _ _ Au).
    rewrite (aug_date _ _ _ Au2), (aug_variant _ _ _ Au2), (aug_md_span _ _ _ Au2), (aug_links _ _ _ Au2). congruence.
  - intro t. rewrite (aug_tags _ _ _ Au), (aug_tags _ _ _ Au2). reflexivity.
  - intros [k v]. rewrite (aug_keys _ _ _ Au), (aug_keys _ _ _ Au2). reflexivity.
Qed.

Section Whole.
  Context (L : lexer_env) (E : grammar_env) (En : environment_ok E).

  (** Nothing panics in this content: see C20, C36, C43 and C49 for where something does. *)
  Definition fine_content (id : nat) (c : str) : Prop :=
    exists ts, lex L c = Fine (Some ts) /\ computable E (input_of id c ts) /\ fine_options (input_of id c ts).

  Definition file_names (cs : list (nat * option path * str)) : list (option path) := map (fun x => snd (fst x)) cs.

  Lemma parse_all_run : forall cs toks outputs errors st r,
    obeys E (ps_options st) r ->
    (forall id f c, In (id, f, c) cs -> fine_content id c) ->
    (forall id f c ts, In (id, f, c) cs -> lex L c = Fine (Some ts) -> nth_error toks id = Some ts) ->
    ForallOrdPairs (fun a b => ~ same_file a b) (map fst outputs ++ file_names cs) ->
    exists xs r' st', files_read L E r cs xs r' /\
      parse_all E toks cs outputs errors st = Fine (Some (outputs ++ map returned xs, errors ++ flat_map fr_errors xs, st')) /\
      obeys E (ps_options st') r' /\ ps_warnings st' = ps_warnings st ++ flat_map fr_warnings xs.
  Proof.
    induction cs as [|[[id f] c] cs IH]; intros toks outputs errors st r Ob Fi To Nd; cbn [parse_all].
    - exists [], r, st. cbn. rewrite !app_nil_r. split; [constructor|]. auto.
    - destruct (Fi id f c (or_introl eq_refl)) as (ts & Lx & Comp & Fo). rewrite (To id f c ts (or_introl eq_refl) Lx).
      destruct (C39_file E (input_of id c ts) f En Comp Fo st r Ob) as (out & es & ws & r1 & st1 & Run & Fr & Ob1 & all & Hw & Wi & Wa).
      rewrite Run. cbn [file_names map fst snd] in Nd.
      assert (Lk : lookup opt_path_eqb f outputs = None).
      { rewrite lookup_None by apply opt_path_equiv.
        intros k' v' Hin. destruct (opt_path_eqb f k') eqn:X; [|reflexivity]. exfalso.
        apply (pairs_app _ _ _ _ Nd k'); [apply in_map_iff; exists (k', v'); auto|].
        apply same_file_eqb. destruct opt_path_equiv as (_ & Sy & _). rewrite Sy. exact X. }
      unfold insert. rewrite Lk.
      destruct (IH toks (outputs ++ [(f, match out with Some ds => ds | None => [] end)]) (errors ++ es) st1 r1 Ob1) as (xs & r' & st' & Fs & Run' & Ob' & Hw').
      { intros id' f' c' Hin. apply (Fi id' f' c'). right. exact Hin. }
      { intros id' f' c' ts' Hin. apply (To id' f' c' ts'). right. exact Hin. }
      { rewrite map_app, <- app_assoc. exact Nd. }
      exists (mk_file_result f out es all :: xs), r', st'. split.
      { apply (files_cons L E r id c ts cs (mk_file_result f out es all) r1 xs r' Lx); [|exact Fs].
        exists ws. split; [exact Fr|]. split; [exact Wi|]. split; [exact Wa|]. cbn [fr_warnings fr_errors]. intro NS.
        destruct (C39_no_syntax_error E (input_of id c ts) f En Comp Fo st r _ _ _ Ob Run NS) as (ds & es' & ws' & r'' & -> & -> & T & Hw'').
        rewrite Hw in Hw''. apply app_inv_head in Hw''. subst ws'.
        destruct (tiles_declared E (input_of id c ts) f En Comp Fo _ _ _ _ _ _ T (ex_intro _ _ Ob)) as (pds & k & Dd & F & M).
        destruct (C39_unambiguous E (input_of id c ts) f En Comp Fo _ _ _ _ _ _ _ _ _ (ex_intro _ _ Ob) Fr
          (file_whole _ _ _ _ _ _ _ _ _ Dd F)) as (_ & _ & -> & _). reflexivity. }
      cbn [map returned fr_file fr_declarations fr_errors fr_warnings flat_map].
      rewrite Run', Hw', Hw, <- !app_assoc. auto.
  Qed.

  (** ** Reading and parsing *)

  Context (U : unicode_ok (le_unicode L)).
  (** The file system: names of a file are the same whenever they are equal as
      paths. *)
  Context (glob_with : str -> result (list glob_item) str) (canonicalize : path -> option path) (read : path -> result str str).
  Context (Cano : forall p q c d, same_path p q -> canonicalize p = Some c -> canonicalize q = Some d -> same_path c d).
  (** What is there when parsing may have changed. *)
  Context (canonicalize' : path -> option path).
  Context (fuel : nat) (root : option path) (content : str) (s : sources).
  (** The order of the files is any. *)
  Context (Reads : reads_to (includes_of L) glob_with canonicalize read fuel root content s).
  (** The file which was asked for has a canonical name. *)
  Context (Root : forall p, root = Some p -> canonicalize p <> None).

  Lemma content_names : ForallOrdPairs (fun a b => ~ same_file a b) (file_names (content_iter s)).
  Proof.
    destruct (read_any_spec _ _ _ _ _ _ _ _ Reads) as (log & H).
    destruct (ra_once _ _ _ _ _ _ _ _ H) as (cn & F2 & Dc). unfold content_iter, file_names. cbn [map fst snd]. constructor.
    - apply Forall_forall. intros f Hf. apply in_map_iff in Hf. destruct Hf as ([[id f'] c] & <- & Hf). cbn [fst snd] in *.
      apply in_flat_map in Hf. destruct Hf as ([p src] & Hp & Hf). destruct src as [id' c' ci| |]; [|destruct Hf|destruct Hf].
      destruct Hf as [X|[]]. injection X as -> <- ->.
      rewrite (ra_root _ _ _ _ _ _ _ _ H). destruct root as [rp|]; cbn; [|tauto]. intro Sp.
      pose proof (ra_distinct _ _ _ _ _ _ _ _ H) as Di. apply path_keys_distinct in Di.
      apply (keys_distinct_lookup path_eqb path_eqb_equiv) in Hp; [|exact Di].
      apply (ra_content _ _ _ _ _ _ _ _ H) in Hp. destruct Hp as (_ & Pos & p' & N & Sp' & _).
      rewrite (ra_names _ _ _ _ _ _ _ _ H) in N. destruct id as [|id]; [lia|]. cbn in N. apply nth_error_In in N.
      assert (X : exists c', canonicalize p' = Some c' /\ In c' cn).
      { clear - F2 N. induction F2 as [|x y l l' H F2 IH]; [destruct N|]. destruct N as [->|N]; [exists y; split; [exact H|left; reflexivity]|].
        destruct (IH N) as (z & Z & Hz). exists z. split; [exact Z|right; exact Hz]. }
      destruct X as (c' & Hc & Hin). unfold root_canonical in Dc. pose proof (Root rp eq_refl) as Rc.
      destruct (canonicalize rp) as [cr|] eqn:Cr; [|congruence]. cbn in Dc. inversion Dc as [|? ? Fa _]; subst.
      rewrite Forall_forall in Fa. apply (Fa c' Hin). eapply Cano; [|exact Cr|exact Hc]. unfold same_path in *. congruence.
    - pose proof (ra_distinct _ _ _ _ _ _ _ _ H) as Di. clear - Di. induction Di as [|[p src] l Fa Di IH]; cbn; [constructor|].
      destruct src as [id c ci| |]; cbn; auto. constructor; [|exact IH].
      apply Forall_forall. intros f Hf. apply in_map_iff in Hf. destruct Hf as ([[id' f'] c'] & <- & Hf). cbn [fst snd].
      apply in_flat_map in Hf. destruct Hf as ([p' src'] & Hp & Hf). destruct src' as [id'' c'' ci'| |]; [|destruct Hf|destruct Hf].
      destruct Hf as [X|[]]. injection X as _ <- _. rewrite Forall_forall in Fa. exact (Fa _ Hp).
  Qed.

  (** The tokens of each file are those of its content. *)
  Theorem C30_parser : match parser_new L s with
    | Panic => exists id f c, In (id, f, c) (content_iter s) /\ lex L c = Panic
    | Fine None => False
    | Fine (Some toks) => forall id f c, In (id, f, c) (content_iter s) -> exists ts, lex L c = Fine (Some ts) /\ nth_error toks id = Some ts
    end.
  Proof.
    destruct (C05_ids _ _ _ _ _ _ _ _ Reads) as [Nd Lt].
    assert (Lt' : forall id f c, In (id, f, c) (content_iter s) -> id < List.length (repeat (@nil rtoken) (num_sources s))).
    { intros id' f' c' Hin'. rewrite repeat_length. apply (Lt _ _ _ Hin'). }
    pose proof (tokenize_all_spec L U (content_iter s) (repeat [] (num_sources s)) Nd Lt') as X. unfold parser_new.
    destruct (tokenize_all L (content_iter s) (repeat [] (num_sources s))) as [[toks|]|]; [|exact X|exact X].
    intros id f c Hin. destruct (X id) as [X' _]. exact (X' f c Hin).
  Qed.

  (** The includes of what is returned for a file have been found when reading it. *)
  Lemma declared_include : forall I f r i ds es ws k r', declared E I f r i ds es ws k r' -> forall d text, In d (map snd ds) ->
    item d = D_Pragma (P_Include text) -> In (item text) (included_strings I).
  Proof.
    assert (Here : forall I f r i j d es r' text, declares E I f r i j d es r' -> item d = D_Pragma (P_Include text) -> In (item text) (included_strings I)).
    { intros I f r i j d es r' text [d' es' W|k p P _|k o es' r2 O _] X; cbn in X; try discriminate.
      injection X as ->. inversion P as [| | | |j' s' T [W _]|]; subst. inversion W as [X T' Y]. subst. eapply C38_complete; eassumption. }
    intros I f r i ds es ws k r' H.
    induction H as [r i r1 r' No Le Sk|r i j d es r1 ds es' ws k r' D Dd IH|r i i' j d w r1 r2 ds es' ws k r' No Le Sk Dd IH]; intros d' text Hin X; cbn in Hin.
    - destruct Hin.
    - destruct Hin as [->|Hin]; eauto.
    - destruct Hin as [->|Hin]; [|eauto]. clear - Here Sk X.
      remember (Some (i', j, d', w)) as fd eqn:F. revert F. induction Sk; intro F; [discriminate|injection F; intros; subst; eauto|eauto].
  Qed.
  Lemma files_read_in : forall cs r xs r', files_read L E r cs xs r' -> forall f ds, In (f, ds) (map returned xs) ->
    exists id c, In (id, f, c) cs /\ forall d text, In d ds -> item d = D_Pragma (P_Include text) -> In (item text) (includes_of L c).
  Proof.
    intros cs r xs r' H. induction H as [r|r id c toks cs x r1 xs r' Lx Ok Fs IH]; intros f ds Hin; cbn in Hin; [destruct Hin|].
    destruct Hin as [X|Hin].
    - injection X as <- <-. exists id, c. split; [left; reflexivity|]. intros d text Hd It.
      unfold includes_of. rewrite C38_includes, Lx. destruct Ok as (ws & Fr & _).
      destruct (fr_declarations x) as [ds|] eqn:Fd; [|destruct Hd]. inversion Fr as [pds es ws' k r2 D F|]; subst.
      exact (declared_include _ _ _ _ _ _ _ _ _ D _ _ Hd It).
    - destruct (IH f ds Hin) as (id' & c' & Hc & Z). exists id', c'. split; [right; exact Hc|exact Z].
  Qed.
  Lemma files_read_names : forall cs r xs r', files_read L E r cs xs r' -> map fst (map returned xs) = file_names cs.
  Proof. intros cs r xs r' H. induction H; cbn; [reflexivity|]. unfold file_names in IHfiles_read. f_equal. exact IHfiles_read. Qed.

  Lemma root_name : root_path s = root.
  Proof. destruct (read_any_spec _ _ _ _ _ _ _ _ Reads) as (log & H). apply (ra_root _ _ _ _ _ _ _ _ H). Qed.
  Lemma shape_of : forall xs r', files_read L E initial_rules (content_iter s) xs r' ->
    exists rootds b, map returned xs = [] ++ (root, rootds) :: b /\ names_distinct ([] ++ (root, rootds) :: b).
  Proof.
    intros xs r' Fs. pose proof (files_read_names _ _ _ _ Fs) as Nm.
    assert (Sh : exists rootds b, map returned xs = [] ++ (root, rootds) :: b).
    { unfold content_iter, file_names in Nm. cbn [map fst snd] in Nm.
      rewrite root_name in Nm. destruct (map returned xs) as [|[f ds] b]; [discriminate|]. injection Nm as -> _.
      exists ds, b. reflexivity. }
    destruct Sh as (rootds & b & Sh). exists rootds, b. split; [exact Sh|].
    rewrite <- Sh. unfold names_distinct. pose proof content_names as X. rewrite <- Nm in X. clear - X.
    induction (map returned xs) as [|y l IH]; [constructor|]. cbn in X. inversion X as [|? ? Fa X']; subst. constructor; [|auto].
    apply Forall_forall. intros z Hz. rewrite Forall_forall in Fa. apply Fa. apply in_map. exact Hz.
  Qed.

  (** ** The whole *)

  (** The files are read one after the other, the root first; the pragmas of
      what is returned for them are processed, and the directives are sorted.
      This always comes to an end without a panic.  It is a success if there
      are no errors, in the files or for pragmas; the warnings are all those
      of the files, in both cases. *)
  Theorem C03_parse : forall toks,
    parser_new L s = Fine (Some toks) -> (forall id f c, In (id, f, c) (content_iter s) -> fine_content id c) ->
    exists xs r' po ds opts plugins reports sorted,
      files_read L E initial_rules (content_iter s) xs r' /\ obeys E po r' /\
      pragma_pass canonicalize' (included_globs s) (error_paths s) root (map returned xs) (options_new po) = Fine (Some (ds, (opts, plugins, reports))) /\
      sort_directives ds = Fine (Some sorted) /\
      let errors := flat_map fr_errors xs ++ map C_Report reports in
      let warnings := flat_map fr_warnings xs in
      parse E canonicalize' s toks = Fine (Some match errors with [] => Success sorted opts plugins warnings | _ => Failure errors warnings end).
  Proof.
    intros toks Pn Fi.
    assert (Ob : obeys E (ps_options default_pstate) initial_rules).
    { split; cbn; [exact named_default| |reflexivity]. intro t. apply default_names_valid. apply En. }
    destruct (parse_all_run (content_iter s) toks [] [] default_pstate initial_rules Ob Fi) as (xs & r' & st' & Fs & Run & Ob' & Hw).
    { intros id f c ts Hin Lx. pose proof C30_parser as X. rewrite Pn in X. destruct (X id f c Hin) as (ts' & Lx' & Nt). congruence. }
    { cbn [map app]. exact content_names. }
    destruct (shape_of xs r' Fs) as (rootds & b & Sh & Nd).
    pose proof (C04_pass_does_not_panic _ _ _ _ fuel root content s canonicalize' (ps_options st') [] rootds b Reads Nd) as NP.
    pose proof (C06_terminates canonicalize' (included_globs s) (error_paths s) (ps_options st') root rootds [] b) as Te. cbn beta in Te.
    assert (NP' : pragma_pass canonicalize' (included_globs s) (error_paths s) root (map returned xs) (options_new (ps_options st')) <> Panic).
    { rewrite Sh. apply NP. intros f ds Hin. rewrite <- Sh in Hin. eapply files_read_in; eassumption. }
    rewrite <- Sh in Te.
    destruct (pragma_pass canonicalize' (included_globs s) (error_paths s) root (map returned xs) (options_new (ps_options st'))) as [[[ds [[opts plugins] reports]]|]|] eqn:Pp;
      [|exfalso; apply Te; reflexivity|congruence].
    destruct (C01_sort_stable ds) as (sorted & pi & So & _).
    exists xs, r', (ps_options st'), ds, opts, plugins, reports, sorted.
    split; [exact Fs|]. split; [exact Ob'|]. split; [exact Pp|]. split; [exact So|].
    cbn zeta. unfold parse, parse_declarations. rewrite Run. cbn [app] in *. 
    rewrite root_name, Pp, So, Hw. cbn [default_pstate ps_warnings app].
    destruct (flat_map fr_errors xs ++ map C_Report reports); reflexivity.
  Qed.

  (** ** Success *)

  Lemma file_obeys I f r out es ws r' : computable E I -> fine_options I -> (exists po, obeys E po r) -> file_reads E I f r out es ws r' -> exists po, obeys E po r'.
  Proof.
    intros Comp Fo [po Ob] Fr. destruct (C39_file E I f En Comp Fo (mk_pstate po []) r Ob) as (out' & es' & ws' & r2 & st' & _ & Fr' & Ob' & _).
    destruct (C39_unambiguous E I f En Comp Fo _ _ _ _ _ _ _ _ _ (ex_intro _ _ Ob) Fr Fr') as (_ & _ & _ & ->). eauto.
  Qed.
  Lemma files_read_tiled : forall cs r xs r', files_read L E r cs xs r' -> (exists po, obeys E po r) ->
    (forall id f c, In (id, f, c) cs -> fine_content id c) ->
    flat_map fr_errors xs = [] -> files_tiled L E r cs (map returned xs) [] (flat_map fr_warnings xs) r'.
  Proof.
    intros cs r xs r' H. induction H as [r|r id c toks cs x r1 xs r' Lx Ok Fs IH]; intros Ob Fi Ne; [constructor|].
    cbn in Ne. apply app_eq_nil in Ne. destruct Ne as [Ne Ne'].
    destruct (Fi id (fr_file x) c (or_introl eq_refl)) as (ts & Lx' & Comp & Fo). rewrite Lx in Lx'. injection Lx' as <-.
    destruct Ok as (ws & Fr & _ & _ & Ex). rewrite Ne in *. specialize (Ex (fun s p F => F)).
    assert (Ob1 := file_obeys _ _ _ _ _ _ _ Comp Fo Ob Fr).
    assert (IH' := IH Ob1 (fun i f c H => Fi i f c (or_intror H)) Ne').
    destruct x as [f out es all]. cbn [fr_file fr_declarations fr_errors fr_warnings] in *. subst es.
    remember [] as es eqn:Es in Fr. destruct Fr as [ds es ws k r2 D F|ds es ws k r2 D F].
    - subst es. destruct (declared_tiles E _ f En Comp Fo _ _ _ _ _ _ _ D Ob F) as (es' & X & T); [intros ? ? []|].
      symmetry in X. apply map_eq_nil in X. subst es'. cbn [map returned fr_file fr_declarations flat_map fr_warnings]. rewrite Ex.
      change (@nil report) with (@nil report ++ []). econstructor; eassumption.
    - apply app_eq_nil in Es. destruct Es. discriminate.
  Qed.
  Lemma files_tiled_read : forall cs r fs es ws r', files_tiled L E r cs fs es ws r' -> (exists po, obeys E po r) ->
    (forall id f c, In (id, f, c) cs -> fine_content id c) -> forall xs r2, files_read L E r cs xs r2 ->
    map returned xs = fs /\ flat_map fr_errors xs = map C_Report es /\ flat_map fr_warnings xs = ws /\ r2 = r'.
  Proof.
    intros cs r fs es ws r' H.
    induction H as [r|r id f c toks cs ds es ws r1 fs es' ws' r' Lx T Ti IH]; intros Ob Fi xs r2 Fs.
    - inversion Fs; subst. auto.
    - inversion Fs as [|a id' c' toks' cs' x r3 xs' b Lx' Ok Fs']; subst. rewrite Lx in Lx'. injection Lx' as <-.
      destruct (Fi id (fr_file x) c (or_introl eq_refl)) as (ts & Lx'' & Comp & Fo). rewrite Lx in Lx''. injection Lx'' as <-.
      destruct (tiles_declared E _ _ En Comp Fo _ _ _ _ _ _ T Ob) as (pds & k & Dd & F & M).
      destruct Ok as (w & Fr & _ & _ & Ex).
      destruct (C39_unambiguous E _ _ En Comp Fo _ _ _ _ _ _ _ _ _ Ob Fr (file_whole _ _ _ _ _ _ _ _ _ Dd F)) as (Xd & Xe & -> & ->).
      rewrite Xe in Ex. specialize (Ex ltac:(intros s' p' Y; apply in_map_iff in Y; destruct Y as (z & Z & _); discriminate)).
      destruct (IH (file_obeys _ _ _ _ _ _ _ Comp Fo Ob Fr) (fun i f c H => Fi i f c (or_intror H)) _ _ Fs') as (A & B & C & D).
      cbn [map flat_map]. unfold returned at 1. rewrite Xd, Xe, Ex, A, B, C, M, map_app. auto.
  Qed.

  Lemma sort_sorted ds out : sort_directives ds = Fine (Some out) <-> sorted_from ds out.
  Proof.
    destruct (C01_sort_stable ds) as (o & pi & X & P & M & H). assert (So : sorted_from ds o) by (exists pi; auto).
    split; intro Y; [congruence|]. rewrite (sorted_from_unique _ _ _ Y So). exact X.
  Qed.

  Lemma leftover_nil es left : leftover es [] -> leftover es left -> left = [].
  Proof.
    intros (ks & ts & _ & K & _ & T & X) (ks' & ts' & _ & K' & _ & T' & ->).
    symmetry in X. apply app_eq_nil in X. destruct X as [X Y].
    assert (ks' = []) as ->.
    { destruct ks' as [|k ks']; [reflexivity|]. exfalso. assert (Hk : meta_stack k es <> []) by (apply K'; left; reflexivity).
      apply K in Hk as Hin. apply in_split in Hin. destruct Hin as (a & b & ->). rewrite flat_map_app in X. apply app_eq_nil in X.
      destruct X as [_ X]. cbn in X. destruct (rev (meta_stack k es)) as [|[z z'] l] eqn:R; [|discriminate].
      apply Hk. rewrite <- (rev_involutive (meta_stack k es)), R. reflexivity. }
    assert (ts' = []) as ->; [|reflexivity].
    destruct ts' as [|t ts']; [reflexivity|]. exfalso. assert (Ht : tag_stack t es <> []) by (apply T'; left; reflexivity).
    apply T in Ht as Hin. apply in_split in Hin. destruct Hin as (a & b & ->). rewrite flat_map_app in Y. apply app_eq_nil in Y.
    destruct Y as [_ Y]. cbn in Y. apply app_eq_nil in Y. destruct Y as [Y _]. apply map_eq_nil in Y.
    apply Ht. rewrite <- (rev_involutive (tag_stack t es)), Y. reflexivity.
  Qed.

  (** A success is one in the sense of the specification... *)
  Theorem C50_success_sound : forall toks directives opts plugins warnings,
    parser_new L s = Fine (Some toks) -> (forall id f c, In (id, f, c) (content_iter s) -> fine_content id c) ->
    parse E canonicalize' s toks = Fine (Some (Success directives opts plugins warnings)) ->
    succeeds L E canonicalize' s directives opts plugins warnings.
  Proof.
    intros toks directives opts plugins warnings Pn Fi Ps.
    destruct (C03_parse toks Pn Fi) as (xs & r' & po & ds & opts' & plugins' & reports & sorted & Fs & Ob' & Pp & So & X).
    cbn zeta in X. rewrite Ps in X.
    destruct (flat_map fr_errors xs ++ map C_Report reports) eqn:Ne; [|discriminate]. injection X as -> -> -> ->.
    apply app_eq_nil in Ne. destruct Ne as [Ne Re]. apply map_eq_nil in Re. subst reports.
    assert (Ob : exists po, obeys E po initial_rules).
    { exists default_parser_options. split; cbn; [exact named_default| |reflexivity]. intro t. apply default_names_valid. apply En. }
    pose proof (files_read_tiled _ _ _ _ Fs Ob Fi Ne) as Ti.
    destruct (shape_of xs r' Fs) as (rootds & b & Sh & Nd).
    rewrite Sh in *. pose proof (pass_spec canonicalize' (included_globs s) (error_paths s) po root [] rootds b Nd) as S.
    cbn zeta in S. cbn [app] in S, Pp. rewrite Pp in S. destruct S as (es & rest & rs & left & W & Y & Du & Le & -> & -> & Z).
    symmetry in Z. apply app_eq_nil in Z. destruct Z as [-> ->]. apply sort_sorted in So.
    rewrite <- root_name in *. cbn [app] in *. econstructor; eassumption.
  Qed.

  (** ... and whenever the specification says so there is one.  The order of
      tags and metadata is open. *)
  Theorem C50_success_complete : forall toks directives opts plugins warnings,
    parser_new L s = Fine (Some toks) -> (forall id f c, In (id, f, c) (content_iter s) -> fine_content id c) ->
    succeeds L E canonicalize' s directives opts plugins warnings ->
    exists directives' opts', parse E canonicalize' s toks = Fine (Some (Success directives' opts' plugins warnings)) /\
      Forall2 same_directive directives directives' /\
      exists os r po po', opts = fst (assimilate_all (options_new po) os) /\ opts' = fst (assimilate_all (options_new po') os) /\
        obeys E po r /\ obeys E po' r.
  Proof.
    intros toks directives opts plugins warnings Pn Fi Su.
    destruct Su as [rootds b r' po es rest yielded directives warnings Ti W Du Le Y So Ob'].
    assert (Ob : exists po, obeys E po initial_rules).
    { exists default_parser_options. split; cbn; [exact named_default| |reflexivity]. intro t. apply default_names_valid. apply En. }
    destruct (C03_parse toks Pn Fi) as (xs & r2 & po2 & ds & opts' & plugins' & reports & sorted & Fs & Ob2 & Pp & So2 & X).
    destruct (files_tiled_read _ _ _ _ _ _ Ti Ob Fi _ _ Fs) as (A & B & C & ->).
    destruct (shape_of xs r' Fs) as (rootds' & b' & Sh & Nd). rewrite A in Sh. cbn [app] in Sh. rewrite root_name in *.
    injection Sh as <- <-. rewrite A in Pp.
    pose proof (pass_spec canonicalize' (included_globs s) (error_paths s) po2 root [] rootds b Nd) as S.
    cbn zeta in S. cbn [app] in S, Pp. rewrite Pp in S. destruct S as (es2 & rest2 & rs & left & W2 & Y2 & Du2 & Le2 & -> & -> & ->).
    assert (Nb : names_distinct b) by (apply (names_distinct_app_r [(root, rootds)]); exact Nd).
    destruct (proj1 (walk_unique (included_globs s)) _ _ _ _ _ W Nb _ _ W2) as [<- <-].
    pose proof (dues_unique _ _ _ _ _ _ _ Du Du2) as Al. inversion Al as [Q0 Q1|]. rewrite <- Q1 in *. clear Al Q1. rewrite (leftover_nil _ _ Le Le2) in *.
    cbn zeta in X. rewrite B, C in X. cbn in X. do 2 eexists. split; [exact X|]. split.
    - apply sort_sorted in So2. eapply sorted_from_same; [|exact So|exact So2]. eapply yields_same; eassumption.
    - exists (options_of es), r', po, po2. auto.
  Qed.

  (** The options which were processed when the files were parsed. *)
  Theorem C50_parser_options : forall directives opts plugins warnings, succeeds L E canonicalize' s directives opts plugins warnings ->
    exists fs ws r', files_tiled L E initial_rules (content_iter s) fs [] ws r' /\
      (forall t, options_account_type_name opts t = Fine (rl_names r' t)) /\
      option_map item (options_long_string_maxlines opts) = option_map fst (rl_limit r').
  Proof.
    intros directives opts plugins warnings [rootds b r' po es rest yielded directives' warnings' Ti W Du Le Y So Ob'].
    exists ((root_path s, rootds) :: b), warnings', r'. split; [exact Ti|].
    pose proof (C12_first_wins po (options_of es)) as X. cbn zeta in X.
    assert (Po : os_parser_options (fst (assimilate_all (options_new po) (options_of es))) = po) by tauto.
    unfold options_account_type_name, options_long_string_maxlines. rewrite Po. split; [intro t; apply (proj1 (ob_named _ _ _ Ob'))|].
    rewrite <- (ob_limit _ _ _ Ob'). unfold line_limit. destruct (po_maxlines po) as [m|]; reflexivity.
  Qed.

  (** ** C04, C39: consequences *)

  (** Parsing does not panic, and comes to an end. *)
  Theorem C04_parse_does_not_panic : forall toks,
    parser_new L s = Fine (Some toks) -> (forall id f c, In (id, f, c) (content_iter s) -> fine_content id c) ->
    exists result, parse E canonicalize' s toks = Fine (Some result).
  Proof. intros toks Pn Fi. destruct (C03_parse toks Pn Fi) as (xs & r' & po & ds & opts & plugins & reports & sorted & _ & _ & _ & _ & X). eauto. Qed.

  (** If there is a file which is not one declaration after the other, whatever
      is in force at its start, then parsing fails. *)
  Theorem C39_parse : forall toks id f c ts,
    parser_new L s = Fine (Some toks) -> (forall id f c, In (id, f, c) (content_iter s) -> fine_content id c) ->
    In (id, f, c) (content_iter s) -> lex L c = Fine (Some ts) ->
    (forall r ds es ws r', ~ tiles E (input_of id c ts) f r 0 ds es ws r') ->
    exists e errors warnings, parse E canonicalize' s toks = Fine (Some (Failure (e :: errors) warnings)).
  Proof.
    intros toks id f c ts Pn Fi Hin Lx No.
    destruct (C03_parse toks Pn Fi) as (xs & r' & po & ds & opts & plugins & reports & sorted & Fs & _ & _ & _ & X). cbn zeta in X.
    destruct (flat_map fr_errors xs ++ map C_Report reports) as [|e errors] eqn:Ne; [|eauto]. exfalso.
    apply app_eq_nil in Ne. destruct Ne as [Ne _].
    assert (Ob : exists po, obeys E po initial_rules).
    { exists default_parser_options. split; cbn; [exact named_default| |reflexivity]. intro t. apply default_names_valid. apply En. }
    pose proof (files_read_tiled _ _ _ _ Fs Ob Fi Ne) as Ti. clear - Ti Hin Lx No.
    induction Ti as [r|r id' f' c' toks' cs ds es ws r1 fs es' ws' r' Lx' T Ti IH]; [destruct Hin|].
    destruct Hin as [X|Hin]; [|auto]. injection X as -> -> ->. rewrite Lx in Lx'. injection Lx' as <-. exact (No _ _ _ _ _ T).
  Qed.
End Whole.

(** ** A case: a file which includes another, whose option for a name is in
    force in it; the tag pushed in the first is on the directives of the other *)

Definition ex_glob (p : path) : result (list glob_item) str := Ok [G_Ok p].
Definition ex_canonicalize (p : path) : option path := Some p.
Definition ex_root : str :=
  lit "option ""name_assets"" ""Actifs""" ++ [10%N] ++ lit "pushtag #trip" ++ [10%N] ++ lit "include ""b.bean""" ++ [10%N] ++
  lit "poptag #trip" ++ [10%N] ++ lit "2024-01-02 open Actifs:Cash" ++ [10%N].
Definition ex_other : str := lit "2024-01-03 close Actifs:Cash" ++ [10%N] ++ lit "2023-12-31 * ""a""" ++ [10%N].
Definition ex_read (p : path) : result str str := if path_eqb p (lit "/d/b.bean") then Ok ex_other else Err (lit "none").
Definition ex_sources : option sources :=
  read_with_includes (includes_of P_Lexer.ex_env) ex_glob ex_canonicalize ex_read 5 (Some (lit "/d/a.bean")) ex_root.
Definition summary (d : spanned directive) : date * list str := (item (dir_date (item d)), map item (md_tags (item (dir_metadata (item d))))).

Definition ex_run (content : str) : outcome (option parsed_as) :=
  match read_with_includes (includes_of P_Lexer.ex_env) ex_glob ex_canonicalize ex_read 5 (Some (lit "/d/a.bean")) content with
  | Some s => match parser_new P_Lexer.ex_env s with
              | Fine (Some toks) => parse ex_env ex_canonicalize s toks
              | _ => Panic
              end
  | None => Panic
  end.
Example ex_success : exists ds opts, ex_run ex_root = Fine (Some (Success ds opts [] [])) /\
  map summary ds = [(mk_date 2023 12 31, [lit "trip"]); (mk_date 2024 1 2, []); (mk_date 2024 1 3, [lit "trip"])] /\
  options_account_type_name opts Assets = Fine (lit "Actifs").
Proof. do 2 eexists. vm_compute. repeat split. Qed.

Definition check_content (L : lexer_env) (E : grammar_env) (id : nat) (c : str) : bool :=
  match lex L c with
  | Fine (Some ts) => check_computable E (input_of id c ts) && check_options (input_of id c ts)
  | _ => false
  end.
Lemma check_content_ok L E id c : check_content L E id c = true -> fine_content L E id c.
Proof.
  unfold check_content, fine_content. destruct (lex L c) as [[ts|]|]; try discriminate. rewrite andb_true_iff. intros [A B].
  exists ts. split; [reflexivity|]. split; [apply check_computable_ok; exact A|apply check_options_ok; exact B].
Qed.

(** The hypotheses of the theorems are met. *)
Example ex_whole_hypotheses : exists s toks,
  environment_ok ex_env /\ unicode_ok (le_unicode P_Lexer.ex_env) /\
  (forall p q c d, same_path p q -> ex_canonicalize p = Some c -> ex_canonicalize q = Some d -> same_path c d) /\
  reads_to (includes_of P_Lexer.ex_env) ex_glob ex_canonicalize ex_read 5 (Some (lit "/d/a.bean")) ex_root s /\
  (forall p, Some (lit "/d/a.bean") = Some p -> ex_canonicalize p <> None) /\
  parser_new P_Lexer.ex_env s = Fine (Some toks) /\
  (forall id f c, In (id, f, c) (content_iter s) -> fine_content P_Lexer.ex_env ex_env id c) /\
  List.length (content_iter s) = 2.
Proof.
  destruct ex_sources as [s|] eqn:S; [|vm_compute in S; discriminate].
  destruct (parser_new P_Lexer.ex_env s) as [[toks|]|] eqn:P.
  2, 3: vm_compute in S; injection S as <-; vm_compute in P; discriminate.
  exists s, toks. split; [exact ex_environment|]. split; [exact P_Lexer.arabic_ok|].
  split; [intros p q c d H X Y; injection X as <-; injection Y as <-; exact H|].
  split; [exists s; (split; [exact S|]); do 5 (split; [reflexivity|]); apply Permutation_refl|]. split; [discriminate|]. split; [exact P|].
  vm_compute in S. injection S as <-. split; [|reflexivity].
  intros id f c H. apply check_content_ok. destruct H as [X|[X|[]]]; injection X as <- <- <-; vm_compute; reflexivity.
Qed.

(** One character more at its end, and nothing is returned. *)
Example ex_failure : ex_run (ex_root ++ lit "*x") = Fine (Some (Failure [C_Syntax 0 17] [])).
Proof. now vm_compute. Qed.

Print Assumptions C30_parser.
Print Assumptions C03_parse.
Print Assumptions C50_success_sound.
Print Assumptions C50_success_complete.
Print Assumptions C50_parser_options.
Print Assumptions C04_parse_does_not_panic.
Print Assumptions C39_parse.
