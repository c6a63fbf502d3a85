(** * C68: a success leaves nothing out *)
From Coq Require Import String Ascii.
From Coq Require Import List NArith ZArith Arith Bool Lia Permutation.
From Verif Require Import Base BaseFacts Text Path PathFacts Sources Types SpecTypes TypesFacts P_Types SortM SpecSort P_Sort Options SpecOptions OptionsFacts P_Options
  Pragma SpecPragma PragmaRun P_Pragma Read SpecRead ReadFacts P_Read
  Token Lexer SpecLexer P_Lexer Peg PegFacts Grammar SpecExpr SpecGrammar SpecDirective P_Grammar
  Parse SpecParse SpecWhole ParseFacts ParseOnce ParseFile P_File P_Includes P_Parse IncludeTokens.
Import SpecPragma Read.
Import ListNotations.
Local Open Scope nat_scope.

(** ** What is offered in a walk *)

Lemma offers_all sp t ps es fs t' : offers sp t ps es fs t' -> forall p, In p ps ->
  exists o, In (Offered sp p o) es /\ forall k, o = Some k -> same_path p k /\ exists ds, In (Some k, ds) t.
Proof.
  induction 1 as [t|t p ps k ds t1 es fs t2 T O IH|t p ps es fs t1 A O IH]; intros q Hq; [destruct Hq| |].
  - destruct T as (a & b & -> & -> & Sp). destruct Hq as [->|Hq].
    + exists (Some k). split; [left; reflexivity|]. intros k' X. injection X as <-. split; [exact Sp|]. exists ds. apply in_app_iff. right. left. reflexivity.
    + destruct (IH q Hq) as (o & Ho & Z). exists o. split; [right; exact Ho|]. intros k' X. destruct (Z k' X) as (Sp' & ds' & Hd). split; [exact Sp'|].
      exists ds'. apply in_app_iff in Hd. apply in_app_iff. destruct Hd; [left|right; right]; assumption.
  - destruct Hq as [->|Hq].
    + exists None. split; [left; reflexivity|]. discriminate.
    + destruct (IH q Hq) as (o & Ho & Z). exists o. split; [right; exact Ho|exact Z].
Qed.

Section Offers.
  Context (globs : list (path * included_glob)).
  Definition all_offered (es : list event) (t : table) : Prop := forall f d text g p,
    In (Declared f d) es -> item d = D_Pragma (P_Include text) -> glob_of globs f (item text) = Some g -> In p (expansion g) ->
    exists o, In (Offered (span_of text) p o) es /\ forall k, o = Some k -> same_path p k /\ exists ds, In (Some k, ds) t.
  Lemma all_offered_app a b t : all_offered a t -> all_offered b t -> all_offered (a ++ b) t.
  Proof.
    intros A B f d text g p Hin It G Hp. apply in_app_iff in Hin. destruct Hin as [Hin|Hin].
    - destruct (A f d text g p Hin It G Hp) as (o & Ho & Z). exists o. split; [apply in_app_iff; auto|exact Z].
    - destruct (B f d text g p Hin It G Hp) as (o & Ho & Z). exists o. split; [apply in_app_iff; auto|exact Z].
  Qed.
  Lemma all_offered_more es t t' : incl t t' -> all_offered es t -> all_offered es t'.
  Proof.
    intros Hi A f d text g p Hin It G Hp. destruct (A f d text g p Hin It G Hp) as (o & Ho & Z). exists o. split; [exact Ho|].
    intros k X. destruct (Z k X) as (Sp & ds & Hd). split; [exact Sp|]. exists ds. apply Hi. exact Hd.
  Qed.
  Lemma perm_incl {A} (t ent t' : list A) : Permutation t (ent ++ t') -> incl t' t.
  Proof. intros P x Hx. rewrite P. apply in_app_iff. right. exact Hx. Qed.
  Lemma walk_offered :
    (forall t f ds es t', walk globs t f ds es t' -> all_offered es t) /\
    (forall t fs es t', walks globs t fs es t' -> all_offered es t).
  Proof.
    apply walk_walks_ind.
    - intros t f. intros ? ? ? ? ? [].
    - intros t f d ds es t' Ni W IH. intros f' d' text g p [X|Hin] It G Hp; [injection X as <- <-; rewrite It in Ni; discriminate|].
      destruct (IH f' d' text g p Hin It G Hp) as (o & Ho & Z). exists o. split; [right; exact Ho|exact Z].
    - intros t f d text ds g offered fs t1 es1 t2 es2 t3 It G O Ws IHs W IH.
      assert (I1 : incl t1 t) by (eapply perm_incl; eapply offers_perm; exact O).
      assert (I2 : incl t2 t1) by (destruct (proj2 (walk_rest globs) _ _ _ _ Ws) as [e1 P1]; eapply perm_incl; exact P1).
      change (Declared f d :: offered ++ es1 ++ es2) with ([Declared f d] ++ offered ++ es1 ++ es2). rewrite app_assoc. apply all_offered_app.
      + intros f' d' text' g' p Hin It' G' Hp. apply in_app_iff in Hin. destruct Hin as [[X|[]]|Hin].
        * injection X as <- <-. rewrite It in It'. injection It' as <-. rewrite G in G'. injection G' as <-.
          destruct (offers_all _ _ _ _ _ _ O p Hp) as (o & Ho & Z). exists o. split; [right; exact Ho|exact Z].
        * exfalso. clear - O Hin. induction O; cbn in Hin; intuition discriminate.
      + apply all_offered_app; [eapply all_offered_more; [|exact IHs]; exact I1|eapply all_offered_more; [|exact IH]; eapply incl_tran; eassumption].
    - intros t. intros ? ? ? ? ? [].
    - intros t f ds fs es1 t1 es2 t2 W IH Ws IHs. apply all_offered_app; [exact IH|]. eapply all_offered_more; [|exact IHs].
      destruct (proj1 (walk_rest globs) _ _ _ _ _ W) as [e1 P1]. eapply perm_incl; exact P1.
  Qed.
End Offers.

Section Enters.
  Context (globs : list (path * included_glob)).
  Definition entered_from (es : list event) (t : table) : Prop := forall sp p k, In (Offered sp p (Some k)) es -> exists ds, In (Some k, ds) t.
  Lemma offers_enters sp t ps es fs t' : offers sp t ps es fs t' -> entered_from es t.
  Proof.
    induction 1 as [t|t p ps k ds t1 es fs t2 T O IH|t p ps es fs t1 A O IH]; intros sp' p' k' Hin; [destruct Hin| |].
    - destruct T as (a & b & -> & -> & Sp). destruct Hin as [X|Hin].
      + injection X as _ _ <-. exists ds. apply in_app_iff. right. left. reflexivity.
      + destruct (IH _ _ _ Hin) as (ds' & Hd). exists ds'. apply in_app_iff in Hd. apply in_app_iff. destruct Hd; [left|right; right]; assumption.
    - destruct Hin as [X|Hin]; [discriminate|eauto].
  Qed.
  Lemma walk_enters :
    (forall t f ds es t', walk globs t f ds es t' -> entered_from es t) /\
    (forall t fs es t', walks globs t fs es t' -> entered_from es t).
  Proof.
    apply walk_walks_ind.
    - intros t f ? ? ? [].
    - intros t f d ds es t' Ni W IH sp p k [X|Hin]; [discriminate|eauto].
    - intros t f d text ds g offered fs t1 es1 t2 es2 t3 It G O Ws IHs W IH sp p k [X|Hin]; [discriminate|].
      assert (I1 : incl t1 t) by (eapply perm_incl; eapply offers_perm; exact O).
      assert (I2 : incl t2 t1) by (destruct (proj2 (walk_rest globs) _ _ _ _ Ws) as [e1 P1]; eapply perm_incl; exact P1).
      apply in_app_iff in Hin. destruct Hin as [Hin|Hin]; [eapply offers_enters; eassumption|]. apply in_app_iff in Hin.
      destruct Hin as [Hin|Hin]; [destruct (IHs _ _ _ Hin) as (x & Hx)|destruct (IH _ _ _ Hin) as (x & Hx)]; exists x; auto.
    - intros t ? ? ? [].
    - intros t f ds fs es1 t1 es2 t2 W IH Ws IHs sp p k Hin. apply in_app_iff in Hin. destruct Hin as [Hin|Hin]; [eauto|].
      destruct (IHs _ _ _ Hin) as (x & Hx). exists x. destruct (proj1 (walk_rest globs) _ _ _ _ _ W) as [e1 P1]. eapply perm_incl; eassumption.
  Qed.
End Enters.

Lemma plugins_perm es l : Permutation (filter is_declared es) l -> Permutation (plugins_of es) (plugins_of l).
Proof.
  intros P. assert (X : plugins_of es = plugins_of (filter is_declared es)).
  { clear. unfold plugins_of. induction es as [|[f d|sp p k] es IH]; simpl; auto. now rewrite IH. }
  rewrite X. now apply Permutation_flat_map.
Qed.
Lemma options_perm es l : Permutation (filter is_declared es) l -> Permutation (options_of es) (options_of l).
Proof.
  intros P. assert (X : options_of es = options_of (filter is_declared es)).
  { clear. unfold options_of. induction es as [|[f d|sp p k] es IH]; simpl; auto. now rewrite IH. }
  rewrite X. now apply Permutation_flat_map.
Qed.
Lemma plugins_own l : plugins_of (flat_map own l) = flat_map (fun x => plugins_in (snd x)) l.
Proof.
  unfold plugins_of. induction l as [|[f ds] l IH]; simpl; auto. rewrite flat_map_app, IH. f_equal.
  unfold own, plugins_in. simpl. induction ds as [|d ds IH2]; simpl; auto. rewrite IH2. reflexivity.
Qed.
Lemma options_own l : options_of (flat_map own l) = flat_map (fun x => options_in (snd x)) l.
Proof.
  unfold options_of. induction l as [|[f ds] l IH]; simpl; auto. rewrite flat_map_app, IH. f_equal.
  unfold own, options_in. simpl. induction ds as [|d ds IH2]; simpl; auto. rewrite IH2. reflexivity.
Qed.

Lemma dues_none canonicalize globs errs es : dues canonicalize globs errs [] es [] -> forall e, In e es -> exists seen, due canonicalize globs errs seen e [].
Proof.
  intros D e Hin. apply in_split in Hin. destruct Hin as (before & after & ->).
  destruct (dues_at _ _ _ _ _ _ D _ _ _ eq_refl) as (r1 & r & r2 & X & _ & Du). symmetry in X. apply app_eq_nil in X. destruct X as [_ X]. apply app_eq_nil in X. destruct X as [-> _]. eauto.
Qed.

Lemma nth_error_seq_all {A} (l : list A) : map (nth_error l) (List.seq 0 (List.length l)) = map Some l.
Proof.
  assert (X : forall a b : list A, map (nth_error (a ++ b)) (List.seq (List.length a) (List.length b)) = map Some b).
  { intros a b. revert a. induction b as [|x b IH]; intro a; [reflexivity|]. cbn [List.length List.seq map]. f_equal.
    - rewrite nth_error_app2, Nat.sub_diag by lia. reflexivity.
    - specialize (IH (a ++ [x])). rewrite app_length, <- app_assoc in IH. cbn in IH. rewrite Nat.add_1_r in IH. exact IH. }
  exact (X [] l).
Qed.

(** ** The table of errors *)
Lemma error_lookup (l : list (path * included_source)) p e : ForallOrdPairs (fun a b => ~ same_path (fst a) (fst b)) l ->
  lookup opt_path_eqb (Some p) (flat_map (fun '(p, src) => match src with SourceError e => [(Some p, e)] | _ => [] end) l) = Some e <->
  lookup path_eqb p l = Some (SourceError e).
Proof.
  intro D. induction D as [|[q src] l Fa D IH]; [split; discriminate|]. cbn [flat_map lookup].
  assert (No : path_eqb p q = true -> lookup path_eqb p l = None).
  { intro Q. destruct (lookup path_eqb p l) as [x|] eqn:Lk; [|reflexivity]. exfalso. clear - Fa Lk Q.
    induction l as [|[q' s'] l IH]; cbn in Lk; [discriminate|]. inversion Fa as [|? ? N Fa']; subst. destruct (path_eqb p q') eqn:Q'; [|auto].
    apply N. cbn. apply same_path_eqb in Q. apply same_path_eqb in Q'. unfold same_path in *. congruence. }
  destruct (path_eqb p q) eqn:Q.
  - specialize (No eq_refl). destruct src as [i c ci|e'|]; cbn [app lookup].
    + split; [intro H; apply IH in H; congruence|discriminate].
    + cbn. rewrite Q. split; intro H; injection H as ->; reflexivity.
    + split; [intro H; apply IH in H; congruence|discriminate].
  - destruct src as [i c ci|e'|]; cbn [app lookup]; [exact IH| |exact IH]. cbn. rewrite Q. exact IH.
Qed.

Section Whole.
  Context (L : lexer_env) (E : grammar_env) (En : environment_ok E) (U : unicode_ok (le_unicode L)).
  (** The file system: names of a file are the same whenever they are equal as
      paths, and what is found for a pattern does not depend on how its path is
      written. *)
  Context (glob_with : str -> result (list glob_item) str) (canonicalize : path -> option path) (read : path -> result str str).
  Context (Cano : forall p q c d, same_path p q -> canonicalize p = Some c -> canonicalize q = Some d -> same_path c d).
  Context (Glob : glob_agrees glob_with).
  Context (canonicalize' : path -> option path).
  Context (fuel : nat) (root : option path) (content : str) (s : sources).
  Context (Reads : reads_to (includes_of L) glob_with canonicalize read fuel root content s).
  Context (Root : forall p, root = Some p -> canonicalize p <> None).

  (** A file is in the table of errors when it could not be read. *)
  Theorem C05_errors : forall p e,
    lookup opt_path_eqb (Some p) (error_paths s) = Some e <-> lookup path_eqb p (included_content s) = Some (SourceError e).
  Proof. intros p e. destruct (read_any_spec _ _ _ _ _ _ _ _ Reads) as (log & H). apply error_lookup. apply (ra_distinct _ _ _ _ _ _ _ _ H). Qed.

  (** ** The includes of the files *)
  Lemma tiled_includes : forall cs r fs es ws r', files_tiled L E r cs fs es ws r' -> (exists po, obeys E po r) ->
    (forall id f c, In (id, f, c) cs -> fine_content L E id c) ->
    Forall2 (fun x y => snd (fst x) = fst y /\ flat_map include_text (snd y) = includes_of L (snd x)) cs fs.
  Proof.
    intros cs r fs es ws r' T. induction T as [r|r id file c toks cs ds es ws r1 fs es' ws' r' Lx T Ts IH]; intros Ob Fi; [constructor|].
    destruct (Fi id file c (or_introl eq_refl)) as (ts & Lx' & Comp & Fo). rewrite Lx in Lx'. injection Lx' as <-. constructor.
    - cbn [fst snd]. split; [reflexivity|]. unfold includes_of. rewrite C38_includes, Lx. unfold included_strings.
      pose proof (included_tiles E _ file En Comp Fo _ _ _ _ _ _ T Ob (Nat.le_0_l _)) as X. rewrite Nat.sub_0_r in X. symmetry. exact X.
    - apply IH; [|intros i f' c' Hin; exact (Fi i f' c' (or_intror Hin))]. clear - T Ob En Comp Fo. induction T; [exact Ob|]. apply IHT; auto. eapply declares_obeys; eassumption.
  Qed.
  Lemma forall2_in_l {A B} (R : A -> B -> Prop) l l' : Forall2 R l l' -> forall x, In x l -> exists y, In y l' /\ R x y.
  Proof. induction 1; intros z Hz; [destruct Hz|]. destruct Hz as [<-|Hz]; [eexists; split; [left; reflexivity|assumption]|]. destruct (IHForall2 z Hz) as (w & Hw & Rw). exists w. split; [right; exact Hw|exact Rw]. Qed.

  Lemma forall2_in_r {A B} (R : A -> B -> Prop) l l' : Forall2 R l l' -> forall y, In y l' -> exists x, In x l /\ R x y.
  Proof. induction 1; intros z Hz; [destruct Hz|]. destruct Hz as [<-|Hz]; [eexists; split; [left; reflexivity|assumption]|]. destruct (IHForall2 z Hz) as (w & Hw & Rw). exists w. split; [right; exact Hw|exact Rw]. Qed.

  Section Success.
    Context (rootds : list (spanned declaration)) (others : table) (warnings : list report) (r' : rules) (es : list event) (rest : table).
    Context (Fi : forall id f c, In (id, f, c) (content_iter s) -> fine_content L E id c).
    Context (Ti : files_tiled L E initial_rules (content_iter s) ((root, rootds) :: others) [] warnings r').
    Context (Nd : names_distinct ((root, rootds) :: others)).
    Context (W : walk (included_globs s) others root rootds es rest).
    Context (Du : dues canonicalize' (included_globs s) (error_paths s) [] es []).
    Context (log : list path) (H : SpecRead.read_as (includes_of L) glob_with canonicalize read root content log s).
    Local Notation parsed := ((root, rootds) :: others).
    Local Notation reached := (reached (included_globs s) parsed root).
    Local Notation wanted := (wanted (includes_of L) read root content).

    (** The file is one of those which are entered. *)
    Definition used (p : path) : Prop := exists k ds c, same_path p k /\ In (Some k, ds) parsed /\ reached (Some k) /\ read p = Ok c /\
      flat_map include_text ds = includes_of L c.

    Lemma obeyed : exists po, obeys E po initial_rules.
    Proof. exists default_parser_options. split; cbn; [exact named_default| |reflexivity]. intro t. apply default_names_valid. apply En. Qed.

    Lemma root_includes : flat_map include_text rootds = includes_of L content.
    Proof.
      pose proof (tiled_includes _ _ _ _ _ _ Ti obeyed Fi) as X. unfold content_iter in X. inversion X as [|? ? ? ? [_ Y] _]; subst. cbn [snd] in Y.
      rewrite Y, (ra_root_content _ _ _ _ _ _ _ _ H). reflexivity.
    Qed.
    Lemma reached_declared f ds d : reached f -> In (f, ds) parsed -> In d ds -> In (Declared f d) es.
    Proof.
      intros Re Hin Hd. destruct (walk_entered (included_globs s) root rootds [] others es rest Nd W) as (entered & _ & IN & P & _ & _).
      assert (X : In (Declared f d) (filter is_declared es)).
      { rewrite P. apply in_flat_map. exists (f, ds). split; [apply IN; auto|]. apply in_map_iff. eauto. }
      apply filter_In in X. apply X.
    Qed.

    (** The include of a file which is entered. *)
    Lemma include_done q : (exists l, (forall p, In p l -> used p) /\ wanted l q /\ incl l log) ->
      exists f ds d text items, reached f /\ In (f, ds) parsed /\ In d ds /\ item d = D_Pragma (P_Include text) /\ In (Declared f d) es /\
        glob_with q = Ok items /\ items <> [] /\
        exists ps, glob_of (included_globs s) f (item text) = Some (Expanded ps) /\ Forall2 (fun i p => same_path (item_path i) p) items ps.
    Proof.
      intros (l & Us & Wa & Hl).
      assert (X : exists f ds d text, reached f /\ In (f, ds) parsed /\ In d ds /\ item d = D_Pragma (P_Include text) /\ same_path (resolve_included_path f (item text)) q).
      { destruct Wa as [text Ht|p c text Hp Rp Ht].
        - rewrite <- root_includes in Ht. apply in_flat_map in Ht. destruct Ht as (d & Hd & Ht). unfold include_text in Ht.
          destruct (item d) as [|p] eqn:It; [destruct Ht|]. destruct p as [| | | |t| |]; try destruct Ht as [<-|[]]; try destruct Ht.
          exists root, rootds, d, t. split; [constructor|]. split; [left; reflexivity|]. split; [exact Hd|]. split; [exact It|reflexivity].
        - destruct (Us p Hp) as (k & ds & c' & Sp & Hin & Re & Rp' & Inc). rewrite Rp in Rp'. injection Rp' as <-. rewrite <- Inc in Ht. apply in_flat_map in Ht.
          destruct Ht as (d & Hd & Ht). unfold include_text in Ht. destruct (item d) as [|p'] eqn:It; [destruct Ht|]. destruct p' as [| | | |t| |]; try destruct Ht as [<-|[]]; try destruct Ht.
          exists (Some k), ds, d, t. split; [exact Re|]. split; [exact Hin|]. split; [exact Hd|]. split; [exact It|].
          apply resolve_cong. unfold same_path in *. congruence. }
      destruct X as (f & ds & d & text & Re & Hin & Hd & It & Sp). exists f, ds, d, text.
      pose proof (reached_declared f ds d Re Hin Hd) as De.
      assert (Wl : wanted log q). { destruct Wa as [t Ht|p c t Hp Rp Ht]; [constructor; exact Ht|]. eapply wanted_read; [apply Hl; exact Hp|exact Rp|exact Ht]. }
      pose proof (ra_globbed _ _ _ _ _ _ _ _ H _ Wl) as Gn. destruct (lookup path_eqb q (included_globs s)) as [g|] eqn:Lk; [|congruence].
      destruct (ra_globs _ _ _ _ _ _ _ _ H _ _ Lk) as (q' & Sq & _ & Gr). unfold glob_result in Gr.
      assert (Go : glob_of (included_globs s) f (item text) = Some g).
      { unfold glob_of. apply same_path_eqb in Sp. rewrite (lookup_cong path_eqb path_eqb_equiv _ _ _ Sp). exact Lk. }
      destruct (dues_none _ _ _ _ Du _ De) as (seen & D). cbn in D. rewrite It, Go in D.
      destruct (glob_with q') as [items'|e] eqn:Gq; subst g; [|discriminate].
      destruct (Glob q' q items' (eq_sym Sq) Gq) as (items & Gq' & Al). exists items. split; [exact Re|]. split; [exact Hin|]. split; [exact Hd|]. split; [exact It|].
      split; [exact De|]. split; [exact Gq'|]. split; [intros ->; inversion Al; subst; discriminate|]. exists (map item_path items'). split; [exact Go|].
      clear - Al. induction Al; constructor; [symmetry|]; assumption.
    Qed.

    Lemma content_used p id c ci : lookup path_eqb p (included_content s) = Some (Content id c ci) ->
      exists k ds, same_path p k /\ In (Some k, ds) others /\ flat_map include_text ds = includes_of L c.
    Proof.
      intro Lk. apply lookup_In in Lk. destruct Lk as (k & Hk & Sp). apply same_path_eqb in Sp.
      pose proof (tiled_includes _ _ _ _ _ _ Ti obeyed Fi) as X. unfold content_iter in X. inversion X as [|? ? ? ? _ Y]; subst.
      destruct (forall2_in_l _ _ _ Y (id, Some k, c)) as ([f ds] & Hin & Q & Inc).
      { apply in_flat_map. exists (k, Content id c ci). split; [exact Hk|left; reflexivity]. }
      cbn in Q, Inc. subst f. exists k, ds. auto.
    Qed.
    Lemma not_content p : (forall id c ci, lookup path_eqb p (included_content s) <> Some (Content id c ci)) -> forall k ds, In (Some k, ds) others -> ~ same_path p k.
    Proof.
      intros No k ds Hin Sp. pose proof (tiled_includes _ _ _ _ _ _ Ti obeyed Fi) as X. unfold content_iter in X. inversion X as [|? ? ? ? _ Y]; subst. clear X.
      destruct (forall2_in_r _ _ _ Y _ Hin) as ([[id f'] c] & Hi & Qf & _). cbn in Qf. subst f'. apply in_flat_map in Hi. destruct Hi as ([k' src] & Hk & Hi). destruct src as [id' c' ci|e|]; [|destruct Hi|destruct Hi].
      destruct Hi as [Q|[]]. injection Q as <- <- <-. apply (No id' c' ci). apply same_path_eqb in Sp. rewrite (lookup_cong path_eqb path_eqb_equiv _ _ _ Sp).
      apply (keys_distinct_lookup path_eqb path_eqb_equiv); [|exact Hk]. apply path_keys_distinct. apply (ra_distinct _ _ _ _ _ _ _ _ H).
    Qed.

    (** A file which is offered is not among those which cannot be read. *)
    Lemma no_error f d text g p : In (Declared f d) es -> item d = D_Pragma (P_Include text) -> glob_of (included_globs s) f (item text) = Some g -> In p (expansion g) ->
      forall e, lookup path_eqb p (included_content s) <> Some (SourceError e).
    Proof.
      intros De It G Hp e Lk. destruct (proj1 (walk_offered _) _ _ _ _ _ W f d text g p De It G Hp) as (o & Ho & Z).
      destruct (dues_none _ _ _ _ Du _ Ho) as (seen & D). destruct o as [k|].
      - destruct (Z k eq_refl) as (Sp & ds & Hin). apply (not_content p) in Hin; [exact (Hin Sp)|]. intros id c ci X. congruence.
      - apply C05_errors in Lk. cbn in D. inversion D; congruence.
    Qed.

    Lemma log_used : forall m l1 p l2, List.length l1 < m -> log = l1 ++ p :: l2 -> used p.
    Proof.
      induction m as [|m IH]; intros l1 p l2 Hm Q; [lia|]. destruct (ra_why _ _ _ _ _ _ _ _ H l1 p l2 Q) as (q & items & Wa & Gq & Hi).
      assert (Us : forall p', In p' l1 -> used p').
      { intros p' Hp'. apply in_split in Hp'. destruct Hp' as (a & b & ->). apply (IH a p' (b ++ p :: l2)); [rewrite app_length in Hm; cbn in Hm; lia|].
        rewrite Q, <- app_assoc. reflexivity. }
      destruct (include_done q) as (f & ds & d & text & items' & Re & Hin & Hd & It & De & Gq' & _ & ps & Go & Al).
      { exists l1. split; [exact Us|]. split; [exact Wa|]. intros x Hx. rewrite Q. apply in_app_iff. left. exact Hx. }
      rewrite Gq in Gq'. injection Gq' as <-. destruct (forall2_in_l _ _ _ Al _ Hi) as (p0 & Hp & Sp0). cbn in Sp0.
      pose proof (no_error f d text _ p0 De It Go Hp) as Ne. apply same_path_eqb in Sp0. assert (Ne' : forall e, lookup path_eqb p (included_content s) <> Some (SourceError e)) by (intro e; rewrite (lookup_cong path_eqb path_eqb_equiv _ _ _ Sp0); apply Ne).
      pose proof (ra_entries _ _ _ _ _ _ _ _ H Cano (Datatypes.S (List.length l1)) p ltac:(lia)) as En'.
      rewrite (ra_names _ _ _ _ _ _ _ _ H) in En'. cbn [nth_error] in En'. specialize (En' ltac:(rewrite Q, nth_error_app2, Nat.sub_diag by lia; reflexivity)).
      destruct (lookup path_eqb p (included_content s)) as [[id c ci|e|]|] eqn:Lk; try contradiction; [|destruct (Ne' e eq_refl)].
      destruct En' as [_ Rp]. destruct (content_used p id c ci Lk) as (k & ds' & Sp & Hin' & Inc). exists k, ds', c.
      split; [exact Sp|]. split; [right; exact Hin'|]. split; [|auto].
      apply same_path_eqb in Sp0. eapply (reached_include _ _ _ f ds d text _ p0 k ds'); try eassumption; [right; exact Hin'|]. unfold same_path in *. congruence.
    Qed.
    Lemma all_used p : In p log -> used p.
    Proof. intro Hp. apply in_split in Hp. destruct Hp as (a & b & Q). eapply log_used; [apply Nat.lt_succ_diag_r|exact Q]. Qed.

    (** So all the files are entered. *)
    Lemma nothing_left : rest = [].
    Proof.
      destruct (walk_entered (included_globs s) root rootds [] others es rest Nd W) as (entered & _ & IN & _ & P & _). cbn [app] in *.
      enough (No : forall x, ~ In x rest) by (clear - No; destruct rest as [|x l]; [reflexivity|destruct (No x (or_introl eq_refl))]).
      intros [f ds] Hr. assert (Hin : In (f, ds) parsed) by (rewrite P; apply in_app_iff; right; exact Hr).
      assert (Re : reached f).
      { destruct Hin as [X|Hin]; [injection X as <- <-; constructor|].
        pose proof (tiled_includes _ _ _ _ _ _ Ti obeyed Fi) as X. unfold content_iter in X. inversion X as [|? ? ? ? _ Y]; subst. clear X.
        destruct (forall2_in_r _ _ _ Y _ Hin) as ([[id f'] c] & Hi & Qf & _). cbn in Qf. subst f'. apply in_flat_map in Hi. destruct Hi as ([k' src] & Hk & Hi). destruct src as [id' c' ci|e|]; [|destruct Hi|destruct Hi].
        destruct Hi as [Q|[]]. injection Q as <- <- <-.
        apply (keys_distinct_lookup path_eqb path_eqb_equiv) in Hk; [|apply path_keys_distinct; apply (ra_distinct _ _ _ _ _ _ _ _ H)].
        pose proof (ra_content _ _ _ _ _ _ _ _ H _ _ Hk) as (_ & Pos & p' & N & Sp & _). rewrite (ra_names _ _ _ _ _ _ _ _ H) in N. destruct id' as [|id']; [lia|]. cbn in N.
        apply nth_error_In in N. destruct (all_used p' N) as (k & ds' & c'' & Sp' & Hin' & Re & _).
        assert (Same : same_file (Some k) (Some k')) by (cbn; unfold same_path in *; congruence).
        pose proof (names_distinct_same _ _ _ _ _ Nd Hin' (or_intror Hin) Same) as X. injection X as -> _. exact Re. }
      assert (He : In (f, ds) entered) by (apply IN; auto).
      assert (Nd' : names_distinct (entered ++ rest)) by (eapply names_distinct_perm; eassumption).
      clear - He Hr Nd'. induction entered as [|x l IH]; [destruct He|]. cbn in Nd'. inversion Nd' as [|? ? Fa Nd2]; subst. destruct He as [->|He]; [|auto].
      rewrite Forall_forall in Fa. apply (Fa (f, ds)); [apply in_app_iff; right; exact Hr|]. destruct f; cbn; [reflexivity|exact Logic.I].
    Qed.

    Lemma all_reached f ds : In (f, ds) parsed -> reached f.
    Proof.
      intro Hin. destruct (walk_entered (included_globs s) root rootds [] others es rest Nd W) as (entered & _ & IN & _ & P & _). cbn [app] in *.
      rewrite nothing_left, app_nil_r in P. apply (IN (f, ds)). rewrite <- P. exact Hin.
    Qed.
    Lemma others_in k ds : In (Some k, ds) others -> exists id c, In (Datatypes.S id, Some k, c) (content_iter s).
    Proof.
      intro Hin. pose proof (tiled_includes _ _ _ _ _ _ Ti obeyed Fi) as X. unfold content_iter in X. inversion X as [|? ? ? ? _ Y]; subst. clear X.
      destruct (forall2_in_r _ _ _ Y _ Hin) as ([[id f'] c] & Hi & Qf & _). cbn in Qf. subst f'.
      assert (Hc : In (id, Some k, c) (content_iter s)) by (right; exact Hi).
      apply in_flat_map in Hi. destruct Hi as ([k' src] & Hk & Hi). destruct src as [id' c' ci|e|]; [|destruct Hi|destruct Hi]. destruct Hi as [Q|[]]. injection Q as -> -> ->.
      apply (keys_distinct_lookup path_eqb path_eqb_equiv) in Hk; [|apply path_keys_distinct; apply (ra_distinct _ _ _ _ _ _ _ _ H)].
      destruct (ra_content _ _ _ _ _ _ _ _ H _ _ Hk) as (_ & Pos & _). destruct id as [|id]; [lia|]. exists id, c. exact Hc.
    Qed.
    Lemma include_covered id f c text : In (id, f, c) (content_iter s) -> In text (includes_of L c) ->
      exists items, glob_with (resolve_included_path f text) = Ok items /\ items <> [] /\ forall i, In i items -> covered canonicalize' s (item_path i).
    Proof.
      intros Hc Ht. destruct (C04_includes_globbed _ _ _ _ _ _ _ _ Reads id f c text Hc Ht) as (g & G).
      destruct (ra_globs _ _ _ _ _ _ _ _ H _ _ G) as (q' & Sq & _ & Gr). unfold glob_result in Gr.
      pose proof (tiled_includes _ _ _ _ _ _ Ti obeyed Fi) as X. destruct (forall2_in_l _ _ _ X _ Hc) as ([f' ds] & Hin & Q & Inc). cbn in Q, Inc. subst f'.
      rewrite <- Inc in Ht. apply in_flat_map in Ht. destruct Ht as (d & Hd & Ht). unfold include_text in Ht.
      destruct (item d) as [|p'] eqn:It; [destruct Ht|]. destruct p' as [| | | |t| |]; try destruct Ht as [<-|[]]; try destruct Ht.
      pose proof (reached_declared f ds d (all_reached _ _ Hin) Hin Hd) as De.
      destruct (dues_none _ _ _ _ Du _ De) as (seen & D). cbn in D. rewrite It in D. unfold glob_of in D. rewrite G in D.
      destruct (glob_with q') as [items'|e] eqn:Gq; subst g; [|discriminate].
      destruct (Glob q' (resolve_included_path f (item t)) items' (eq_sym Sq) Gq) as (items & Gq' & Al). exists items. split; [exact Gq'|].
      split; [intros ->; inversion Al; subst; discriminate|].
      intros i Hi. destruct (forall2_in_r _ _ _ Al i) as (j & Hj & Sj); [exact Hi|].
      assert (Hp : In (item_path j) (expansion (Expanded (map item_path items')))) by (cbn; apply in_map; exact Hj).
      destruct (proj1 (walk_offered _) _ _ _ _ _ W f d t _ _ De It G Hp) as (o & Ho & Z). destruct o as [k|].
      - destruct (Z k eq_refl) as (Sp & ds' & Hin'). destruct (others_in k ds' Hin') as (id' & c' & Hc'). exists id', k, c'. split; [exact Hc'|]. left. unfold same_path in *. congruence.
      - destruct (in_split _ _ Ho) as (before & after & Qe). destruct (dues_at _ _ _ _ _ _ Du _ _ _ Qe) as (r1 & r & r2 & Qr & _ & D2).
        symmetry in Qr. apply app_eq_nil in Qr. destruct Qr as [_ Qr]. apply app_eq_nil in Qr. destruct Qr as [-> _]. cbn in D2. inversion D2 as [|a sp0 b _ Ca (p0 & k & aft & Qb & (b' & Cb & Sb) & _) _| |].
        destruct (proj1 (walk_enters _) _ _ _ _ _ W sp0 p0 k) as (ds' & Hin'); [rewrite Qe, Qb; apply in_app_iff; left; apply in_app_iff; right; left; reflexivity|].
        destruct (others_in k ds' Hin') as (id' & c' & Hc'). exists id', k, c'. split; [exact Hc'|]. right. exists (item_path j), a, b'. split; [symmetry; exact Sj|]. split; [exact Ca|]. split; [exact Cb|]. unfold same_path in *. congruence.
    Qed.
    Lemma source_there id : id < num_sources s -> exists f c, In (id, f, c) (content_iter s).
    Proof.
      intro Hi. destruct id as [|id]; [exists (root_path s), (root_content s); left; reflexivity|].
      unfold num_sources in Hi. assert (X : exists p, nth_error (source_id_strings s) (Datatypes.S id) = Some p).
      { destruct (nth_error (source_id_strings s) (Datatypes.S id)) eqn:Q; [eauto|]. apply nth_error_None in Q. lia. }
      destruct X as (p & Np). pose proof (ra_entries _ _ _ _ _ _ _ _ H Cano (Datatypes.S id) p ltac:(lia) Np) as Ent.
      rewrite (ra_names _ _ _ _ _ _ _ _ H) in Np. cbn in Np. apply nth_error_In in Np.
      destruct (all_used p Np) as (k & ds & c & Sp & Hin & Re & _).
      destruct (lookup path_eqb p (included_content s)) as [[id' c' ci|e|]|] eqn:Lk; try contradiction.
      - destruct Ent as [-> _]. apply lookup_In in Lk. destruct Lk as (k' & Hk & _). exists (Some k'), c'. right. apply in_flat_map.
        exists (k', Content (Datatypes.S id) c' ci). split; [exact Hk|left; reflexivity].
      - exfalso. destruct Hin as [X|Hin].
        + injection X as X _. assert (Nn : forall id c ci, lookup path_eqb p (included_content s) <> Some (Content id c ci)) by (intros; congruence).
          destruct (ra_once _ _ _ _ _ _ _ _ H) as (cs & F2 & Dc). pose proof (Root k X) as Rc. unfold root_canonical in Dc. rewrite X in Dc.
          destruct (canonicalize k) as [cr|] eqn:Cr; [|congruence]. cbn in Dc. inversion Dc as [|? ? Fa _]; subst.
          destruct (forall2_in_l _ _ _ F2 p Np) as (c' & Hc' & Cp). rewrite Forall_forall in Fa. apply (Fa c' Hc'). eapply Cano; [|exact Cr|exact Cp]. unfold same_path in *. congruence.
        + eapply (not_content p); [intros; congruence|exact Hin|exact Sp].
    Qed.
  End Success.

  (** ** The theorems *)

  Lemma success_walk toks directives opts plugins warnings :
    parser_new L s = Fine (Some toks) -> (forall id f c, In (id, f, c) (content_iter s) -> fine_content L E id c) ->
    parse E canonicalize' s toks = Fine (Some (Success directives opts plugins warnings)) ->
    exists rootds others r' po es rest yielded,
      files_tiled L E initial_rules (content_iter s) ((root, rootds) :: others) [] warnings r' /\ names_distinct ((root, rootds) :: others) /\
      walk (included_globs s) others root rootds es rest /\ dues canonicalize' (included_globs s) (error_paths s) [] es [] /\
      yields [] es yielded /\ sorted_from yielded directives /\ obeys E po r' /\
      opts = fst (assimilate_all (options_new po) (options_of es)) /\ plugins = plugins_of es.
  Proof.
    intros Pn Fi Ps. pose proof (C50_success_sound L E En U glob_with canonicalize read Cano canonicalize' fuel root content s Reads Root toks _ _ _ _ Pn Fi Ps) as Su.
    destruct Su as [rootds others r' po es rest yielded directives warnings Ti W Du Le Y So Ob]. rewrite (root_name L glob_with canonicalize read fuel root content s Reads) in *.
    exists rootds, others, r', po, es, rest, yielded. split; [exact Ti|]. split; [|auto 10].
    destruct (C03_parse L E En U glob_with canonicalize read Cano canonicalize' fuel root content s Reads Root toks Pn Fi) as (xs & r2 & _ & _ & _ & _ & _ & _ & Fs & _).
    destruct (files_tiled_read L E En _ _ _ _ _ _ Ti obeyed Fi _ _ Fs) as (A & _).
    destruct (shape_of L E glob_with canonicalize read Cano canonicalize' fuel root content s Reads Root xs r2 Fs) as (rootds' & b & Sh & Nd). rewrite A in Sh. cbn [app] in Sh, Nd.
    injection Sh as <- <-. exact Nd.
  Qed.

  (** Files which are read while the sources are set up are those named in the
      include pragmas of the files which have no syntax error, in the order of
      the pragmas: the scan for includes, which only looks at tokens, and the
      parser agree. *)
  Theorem C38_tiled : forall files es ws r', (forall id f c, In (id, f, c) (content_iter s) -> fine_content L E id c) ->
    files_tiled L E initial_rules (content_iter s) files es ws r' ->
    Forall2 (fun source file => snd (fst source) = fst file /\ includes_of L (snd source) = includes_in (snd file)) (content_iter s) files.
  Proof.
    intros files es ws r' Fi Ti. pose proof (tiled_includes _ _ _ _ _ _ Ti obeyed Fi) as X.
    clear - X. induction X as [|x y l l' [F Q] X IH]; constructor; [|exact IH]. split; [exact F|]. symmetry. exact Q.
  Qed.

  (** Every file which was read has been entered: the result has one directive
      for each directive of each of the files, and the plugins and options of
      all of them. *)
  Theorem C68_nothing_left : forall toks directives opts plugins warnings,
    parser_new L s = Fine (Some toks) -> (forall id f c, In (id, f, c) (content_iter s) -> fine_content L E id c) ->
    parse E canonicalize' s toks = Fine (Some (Success directives opts plugins warnings)) ->
    exists files r' po os, files_tiled L E initial_rules (content_iter s) files [] warnings r' /\
      Permutation (map core directives) (map core (flat_map (fun f => directives_in (snd f)) files)) /\
      Permutation plugins (flat_map (fun f => plugins_in (snd f)) files) /\
      Permutation os (flat_map (fun f => options_in (snd f)) files) /\
      obeys E po r' /\ opts = fst (assimilate_all (options_new po) os).
  Proof.
    intros toks directives opts plugins warnings Pn Fi Ps.
    destruct (success_walk _ _ _ _ _ Pn Fi Ps) as (rootds & others & r' & po & es & rest & yielded & Ti & Nd & W & Du & Y & So & Ob & -> & ->).
    destruct (read_any_spec _ _ _ _ _ _ _ _ Reads) as (log & H).
    exists ((root, rootds) :: others), r', po, (options_of es). split; [exact Ti|].
    pose proof (nothing_left rootds others warnings r' es rest Fi Ti Nd W Du log H) as ->.
    destruct (walk_entered (included_globs s) root rootds [] others es [] Nd W) as (entered & _ & _ & P & P' & _). cbn [app] in P'. rewrite app_nil_r in P'.
    assert (Pd : Permutation (filter is_declared es) (flat_map own ((root, rootds) :: others))) by (rewrite P; apply Permutation_flat_map; symmetry; exact P').
    split; [|split; [|split; [|split; [exact Ob|reflexivity]]]].
    - transitivity (map core yielded).
      + destruct So as (places & Pp & Mp & _). apply Permutation_map. assert (X : Permutation (map Some directives) (map Some yielded)).
        { rewrite <- Mp, (Permutation_map (nth_error yielded) Pp). clear. rewrite nth_error_seq_all. reflexivity. }
        apply Permutation_map_inv in X. destruct X as (l & X & Pl). rewrite Pl. enough (directives = l) as -> by reflexivity.
        clear - X. revert l X. induction directives as [|y ys IH]; intros [|z l] X; try discriminate; [reflexivity|]. injection X as -> X. f_equal. auto.
      + rewrite (yields_core _ _ _ Y). apply Permutation_map. rewrite <- directives_own. now apply directives_perm.
    - rewrite <- plugins_own. now apply plugins_perm.
    - rewrite <- options_own. now apply options_perm.
  Qed.

  (** Every include of every file which was read has found files; each of them
      is one of the files which were read ... *)
  Theorem C68_includes : forall toks directives opts plugins warnings,
    parser_new L s = Fine (Some toks) -> (forall id f c, In (id, f, c) (content_iter s) -> fine_content L E id c) ->
    parse E canonicalize' s toks = Fine (Some (Success directives opts plugins warnings)) ->
    forall id f c text, In (id, f, c) (content_iter s) -> In text (includes_of L c) ->
      exists items, glob_with (resolve_included_path f text) = Ok items /\ items <> [] /\
        forall i, In i items -> covered canonicalize' s (item_path i).
  Proof.
    intros toks directives opts plugins warnings Pn Fi Ps id f c text Hc Ht.
    destruct (success_walk _ _ _ _ _ Pn Fi Ps) as (rootds & others & r' & po & es & rest & yielded & Ti & Nd & W & Du & _).
    destruct (read_any_spec _ _ _ _ _ _ _ _ Reads) as (log & H). eapply include_covered; eassumption.
  Qed.
  (** ... and each file with a number has a content: none was unreadable. *)
  Theorem C68_sources : forall toks directives opts plugins warnings,
    parser_new L s = Fine (Some toks) -> (forall id f c, In (id, f, c) (content_iter s) -> fine_content L E id c) ->
    parse E canonicalize' s toks = Fine (Some (Success directives opts plugins warnings)) ->
    forall id, id < num_sources s -> exists f c, In (id, f, c) (content_iter s).
  Proof.
    intros toks directives opts plugins warnings Pn Fi Ps id Hi.
    destruct (success_walk _ _ _ _ _ Pn Fi Ps) as (rootds & others & r' & po & es & rest & yielded & Ti & Nd & W & Du & _).
    destruct (read_any_spec _ _ _ _ _ _ _ _ Reads) as (log & H). eapply source_there; eassumption.
  Qed.
End Whole.

(** A case with two files which meets the hypotheses. *)
Lemma ex_two_files s : read_with_includes (includes_of P_Lexer.ex_env) ex_glob ex_canonicalize ex_read 5 (Some (lit "/d/a.bean")) ex_root = Some s ->
  num_sources s = 2 /\ (forall id f c, In (id, f, c) (content_iter s) -> fine_content P_Lexer.ex_env ex_env id c).
Proof.
  intro Q. vm_compute in Q. injection Q as <-. split; [reflexivity|].
  intros id f c H. apply check_content_ok. destruct H as [X|[X|[]]]; injection X as <- <- <-; vm_compute; reflexivity.
Qed.
Lemma run_inv content x : ex_run content = Fine (Some x) -> exists s toks,
  read_with_includes (includes_of P_Lexer.ex_env) ex_glob ex_canonicalize ex_read 5 (Some (lit "/d/a.bean")) content = Some s /\
  parser_new P_Lexer.ex_env s = Fine (Some toks) /\ parse ex_env ex_canonicalize s toks = Fine (Some x).
Proof.
  unfold ex_run. destruct (read_with_includes _ _ _ _ _ _ _) as [s|]; [|discriminate]. intro R.
  destruct (parser_new P_Lexer.ex_env s) as [[toks|]|] eqn:P; [|discriminate R|discriminate R]. eauto.
Qed.
Example ex_complete : exists s toks ds opts,
  glob_agrees ex_glob /\
  reads_to (includes_of P_Lexer.ex_env) ex_glob ex_canonicalize ex_read 5 (Some (lit "/d/a.bean")) ex_root s /\
  parser_new P_Lexer.ex_env s = Fine (Some toks) /\
  (forall id f c, In (id, f, c) (content_iter s) -> fine_content P_Lexer.ex_env ex_env id c) /\
  parse ex_env ex_canonicalize s toks = Fine (Some (Success ds opts [] [])) /\
  num_sources s = 2 /\ List.length ds = 3.
Proof.
  destruct ex_success as (ds & opts & R & Ds & _). destruct (run_inv _ _ R) as (s & toks & Rd & P & Ps). clear R. destruct (ex_two_files s Rd) as [Nu Fa].
  exists s, toks, ds, opts. split; [intros p q items Sp X; injection X as <-; exists [G_Ok q]; split; [reflexivity|constructor; [exact Sp|constructor]]|].
  split; [exists s; (split; [exact Rd|]); do 5 (split; [reflexivity|]); apply Permutation_refl|]. split; [exact P|].
  split; [exact Fa|]. split; [exact Ps|]. split; [exact Nu|].
  rewrite <- (map_length summary), Ds. reflexivity.
Qed.

Print Assumptions C05_errors.
Print Assumptions C38_tiled.
Print Assumptions C68_nothing_left.
Print Assumptions C68_includes.
Print Assumptions C68_sources.
