(** * What has been parsed can be displayed *)
From Coq Require Import String Ascii.
From Coq Require Import List NArith ZArith Arith Bool Lia Permutation.
From Verif Require Import Base BaseFacts Types SpecTypes Decimal SpecDecimal Cost SpecCost Token SpecOptions Options LexPost SpecLex LexFacts P_Lex Lexer SpecLexer LexerFacts P_Lexer
  Peg Grammar SpecExpr Display SpecDisplay PegFacts ExprFacts P_Arith SpecGrammar SpecDirective GrammarSafe GrammarDirectives.
Import ListNotations.
Local Open Scope nat_scope.

(** ** Tokens *)
Definition sane (L : lexer_env) (t : token) : Prop :=
  match t with
  | T_Number d => common_number d
  | T_Date d => common_date d
  | T_Currency c => currency_text c /\ ~ In c [lit "TRUE"; lit "FALSE"; lit "NULL"]
  | T_Account a => account_text L a
  | T_Tag s | T_Link s => label s
  | T_Key s => key_text s
  | T_Flag f => common_flag f
  | _ => True
  end.

Section Tokens.
  Context (L : lexer_env) (UO : unicode_ok (le_unicode L)) (DF : decimals_fit (le_decimal L)).

  Lemma not_dash s : Forall (decimal_digit L) s -> ~ In 45%N s.
  Proof.
    intros F H. rewrite Forall_forall in F. apply F in H. unfold decimal_digit in H. 
    pose proof (UO 45%N eq_refl) as X. revert H. replace (u_Nd (le_unicode L) 45%N) with false; [discriminate|]. symmetry. apply X.
  Qed.
  Lemma lexeme_sane m t : lexeme L m (SpecLexer.tok t) -> sane L t.
  Proof.
    unfold SpecLexer.tok. intro H. remember (Fine (Some (Ok t))) as o eqn:Q. destruct H as [s H|s u H|k|s H N|c H|y p m q d o Hy Hm Hd _ _ H|h m o _ _ H|h m s o _ _ _ H|s H|b H N|b H N|i gs f s H|s H|s H|s H N|s b H B|s H|s H N].
    all: try discriminate.
    all: try (unfold SpecLexer.tok in Q; injection Q as <-).
    - unfold symbols in H. cbn [In] in H. repeat (destruct H as [H|H]; [injection H as _ <-; exact Logic.I|]). destruct H.
    - exact Logic.I.
    - split; assumption.
    - exact H.
    - destruct H as [Fy Fm Fd C| | |]; cbn in Q; try discriminate. unfold SpecLexer.tok in Q. injection Q as <-. split; [exact C|]. cbn [d_year].
      destruct Hy as [Hy _]. assert (B := num_bound y Fy). rewrite Hy in B. cbn in B. lia.
    - destruct H; cbn in Q; try discriminate; unfold SpecLexer.tok in Q; injection Q as <-; exact Logic.I.
    - destruct H; cbn in Q; try discriminate; unfold SpecLexer.tok in Q; injection Q as <-; exact Logic.I.
    - exact H.
    - exact Logic.I.
    - destruct (le_unescape L b); cbn in Q; try discriminate; unfold SpecLexer.tok in Q; injection Q as <-; exact Logic.I.
    - destruct (le_decimal L _) as [d|] eqn:X; cbn in Q; try discriminate; unfold SpecLexer.tok in Q; injection Q as <-.
      cbn. eapply DF; [exact X|]. destruct H as (_ & Fi & Fg & Ff & _). intro Hin. apply in_app_or in Hin. destruct Hin as [Hin|Hin]; [exact (not_dash _ Fi Hin)|].
      apply in_app_or in Hin. destruct Hin as [Hin|Hin].
      + apply in_concat in Hin. destruct Hin as (g & Hg & Hin). rewrite Forall_forall in Fg. destruct (Fg g Hg) as [_ F]. exact (not_dash _ F Hin).
      + destruct f as [d'|]; [|destruct Hin]. destruct (Ff d' eq_refl) as [_ F]. destruct Hin as [Hin|Hin]; [discriminate|exact (not_dash _ F Hin)].
    - exact H.
    - exact H.
    - exact H.
    - exact Logic.I.
    - exact Logic.I.
    - exact Logic.I.
  Qed.
  Lemma keyword_key k : key_text (keyword_text k).
  Proof.
    unfold key_text, identifier. destruct k; cbn; (split; [|lia]); do 2 eexists.
    all: split; [reflexivity|].
    all: unfold identifier_char, lower, upper, digit.
    all: split; [lia|]. 
    all: repeat (constructor; [lia|]). all: constructor.
  Qed.
  Lemma lexed_sane s out t r : lex L s = Fine (Some out) -> In (t, r) out -> sane L t.
  Proof.
    destruct r as [a b]. intros H Hin. destruct (C30_token_text L UO _ _ _ _ _ H Hin) as (m & _ & [[T|[(k & Qm & ->)|(e & -> & _)]]|[-> | ->]]); try exact Logic.I.
    - eapply lexeme_sane. exact T.
    - cbn. rewrite Qm. apply keyword_key.
  Qed.
End Tokens.

(** ** Parts of directives *)
Section Parts.
  Context (L : lexer_env) (E : grammar_env) (I : input) (names : account_type -> str).
  Context (Sane : forall i t, tok I i t -> sane L t).

  Lemma n_expr :
    (forall i j e, sum I i j e -> common_numbers e) /\ (forall i j e, product I i j e -> common_numbers e) /\
    (forall i j e, factor I i j e -> common_numbers e) /\ (forall i j e, primary I i j e -> common_numbers e).
  Proof. apply expr_mutind; intros; cbn; auto. match goal with H : tok _ _ (T_Number _) |- _ => exact (Sane _ _ H) end. Qed.
  Lemma c_value i j v : value_at E I i j v -> common_value E v.
  Proof. intros [Sm W]. split; [exact (proj1 (shapes _) _ _ _ Sm)|]. split; [exact (proj1 n_expr _ _ _ Sm)|exact W]. Qed.
  Lemma c_currency i j c : currency_at I i j c -> common_currency c.
  Proof. intros [s T La]. destruct (Sane _ _ T) as [A B]. split; [exact A|split; assumption]. Qed.
  Lemma c_account i j a : account_at E I names i j a -> common_account L E names a.
  Proof. intros [t ws T F]. split; [exact (Sane _ _ T)|]. exists ws. split; [reflexivity|exact F]. Qed.
  Lemma c_tag i j s : tag_at E I i j s -> common_label E s.
  Proof. intros [t T F]. split; [exact (Sane _ _ T)|exact F]. Qed.
  Lemma c_link i j s : link_at E I i j s -> common_label E s.
  Proof. intros [t T F]. split; [exact (Sane _ _ T)|exact F]. Qed.
  Lemma c_key i j s : key_at E I i j s -> common_key E s.
  Proof. intros [t T F]. split; [exact (Sane _ _ T)|exact F]. Qed.
  Lemma c_date i j d : date_at I i j d -> common_date d.
  Proof. intros [t T]. exact (Sane _ _ T). Qed.
  Lemma c_flag i j f : flag_at I i j f -> common_flag f.
  Proof. intros [g T|T|T]; [exact (Sane _ _ T)|exact Logic.I|exact Logic.I]. Qed.
  Lemma c_txn i j f : txn_at I i j f -> common_flag f.
  Proof. intros [T|k f' H]; [exact Logic.I|eapply c_flag; exact H]. Qed.
  Lemma c_amount i j a : amount_at E I i j a -> common_amount E a.
  Proof. intros [k [V _] [C _]]. split; [eapply c_value; exact V|eapply c_currency; exact C]. Qed.

  Lemma c_price i j p : price_at E I i j p -> showable_price p -> common_price E p.
  Proof.
    intros [sc Sg|sc k v Sg V|sc k c Sg C|sc k m v c Sg V C] Sh; cbn in *; auto.
    - destruct Sg; [eapply c_value; exact V|destruct Sh].
    - eapply c_currency; exact C.
    - split; [|eapply c_currency; exact C]. destruct Sg; [eapply c_value; exact V|destruct Sh].
  Qed.

  Lemma c_compound i j e : compound_expr_at E I i j e ->
    match e with CE_PerUnit v | CE_Total v => common_value E v | CE_Both v w => common_value E v /\ common_value E w end.
  Proof. intros [k m p t P _ T|k p P|k p P _|k t _ T]; [split; eapply c_value; eassumption|eapply c_value; eassumption..]. Qed.
  Definition comp_ok (c : cost_comp) : Prop :=
    (forall v, per_unit_of c = Some v -> common_value E v) /\ (forall v, total_of c = Some v -> common_value E v) /\
    (forall s, currency_of c = Some s -> common_currency s) /\ (forall d, date_of c = Some d -> common_date d).
  Lemma c_comp i j c : cost_comp_at E I i j c -> comp_ok c.
  Proof.
    intros [k a A|k d Dd|k s _|_]; unfold comp_ok, per_unit_of, total_of; cbn; (split; [|split; [|split]]); intros v H; try discriminate.
    - destruct A as [k' k2 e c' X _|k' e X|k' c' _|k' c' _ _]; cbn in *; try discriminate; apply c_compound in X; destruct e; try discriminate; injection H as <-; first [exact X|exact (proj1 X)|exact (proj2 X)].
    - destruct A as [k' k2 e c' X _|k' e X|k' c' _|k' c' _ _]; cbn in *; try discriminate; apply c_compound in X; destruct e; try discriminate; injection H as <-; first [exact X|exact (proj1 X)|exact (proj2 X)].
    - destruct A as [k' k2 e c' _ X|k' e _|k' c' X|k' c' _ X]; cbn in *; try discriminate; injection H as <-; eapply c_currency; exact X.
    - injection H as <-. eapply c_date. exact Dd.
  Qed.
  Lemma separated_all {A} (R : nat -> nat -> A -> Prop) (P : A -> Prop) i j l : (forall i j a, R i j a -> P a) -> separated I R i j l -> Forall P l.
  Proof. intros H Sp. induction Sp; constructor; eauto. Qed.
  Lemma only_given {A} (f : cost_comp -> option A) (P : A -> Prop) l o :
    Forall (fun c => forall a, f (item c) = Some a -> P a) l -> only (SpecCost.given f l) o -> optional (fun a => P (item a)) o.
  Proof.
    intros F H. remember (SpecCost.given f l) as g eqn:Q. destruct H as [|a]; [exact Logic.I|]. cbn.
    assert (Hin : In a (SpecCost.given f l)) by (rewrite <- Q; left; reflexivity). unfold SpecCost.given in Hin. apply in_flat_map in Hin. destruct Hin as (c & Hc & Hin).
    rewrite Forall_forall in F. specialize (F c Hc). destruct (f (item c)) as [x|]; [|destruct Hin]. destruct Hin as [<-|[]]. cbn. apply F. reflexivity.
  Qed.
  Lemma c_cost i j c : cost_at E I i j c -> optional (fun s => clean (item s)) (cs_label c) -> common_cost E c.
  Proof.
    intros H Cl.
    assert (X : exists l, Forall (fun c => comp_ok (item c)) l /\ spells_cost l c).
    { destruct H as [c _ _ Sc|k l c _ Sp _ Sc]; [exists []; split; [constructor|exact Sc]|]. exists l. split; [|exact Sc].
      eapply separated_all; [|exact Sp]. intros a b x [H _]. eapply c_comp. exact H. }
    destruct X as (l & F & Sc). destruct Sc as [S1 S2 S3 S4 _ _]. 
    split; [|split; [|split; [|split; [|exact Cl]]]].
    - apply (only_given _ (common_value E) _ _ ) in S1; [exact S1|]. eapply Forall_impl; [|exact F]. intros a X. apply X.
    - apply (only_given _ (common_value E) _ _ ) in S2; [exact S2|]. eapply Forall_impl; [|exact F]. intros a X. apply X.
    - apply (only_given _ common_currency _ _ ) in S3; [exact S3|]. eapply Forall_impl; [|exact F]. intros a X. apply X.
    - apply (only_given _ common_date _ _ ) in S4; [exact S4|]. eapply Forall_impl; [|exact F]. intros a X. apply X.
  Qed.

  (** Except for quotes. *)
  Lemma c_simple i j v : simple_value_at E I names i j v -> showable_meta_value (MV_Simple v) -> common_simple L E names v.
  Proof.
    intros [k s _|k c C|k a A|k t T|k t T|k d Dd|k b _|_|k w V] Sh; cbn in *; auto.
    - eapply c_currency; eassumption.
    - eapply c_account; eassumption.
    - eapply c_tag; eassumption.
    - eapply c_link; eassumption.
    - eapply c_date; eassumption.
    - eapply c_value; eassumption.
  Qed.
  Lemma c_meta_value i j v : meta_value_at E I names i j v -> showable_meta_value v -> common_meta_value L E names v.
  Proof. intros [a A|w V] Sh; cbn; [eapply c_amount; exact A|eapply c_simple; [exact V|exact Sh]]. Qed.

  (** *** Metadata *)
  Definition datum_ok (m : metadatum) : Prop :=
    match m with
    | MD_KeyValue kv => common_key E (item (mkv_key (item kv))) /\
        (showable_meta_value (item (mkv_value (item kv))) -> common_meta_value L E names (item (mkv_value (item kv))))
    | MD_Tag t | MD_Link t => common_label E (item t)
    end.
  Lemma c_key_value i j kv : key_value_at E I names i j kv ->
    common_key E (item (mkv_key kv)) /\ (showable_meta_value (item (mkv_value kv)) -> common_meta_value L E names (item (mkv_value kv))).
  Proof.
    intros [a b key v [K _] _ [V _]|a key [K _] _]; cbn.
    - split; [eapply c_key; exact K|]. intro Sh. eapply c_meta_value; [exact V|exact Sh].
    - split; [eapply c_key; exact K|]. auto.
  Qed.
  Lemma c_mark i j m : mark_at E I i j m -> datum_ok m.
  Proof. intros [t [T _]|t [T _]]; cbn; [eapply c_tag|eapply c_link]; exact T. Qed.
  Lemma c_metadatum i j m : metadatum_at E I names i j m -> datum_ok m.
  Proof. intros [kv [K _]|m' M]; [eapply c_key_value; exact K|eapply c_mark; exact M]. Qed.

  Lemma star_all {A} (R : nat -> nat -> A -> list report -> Prop) (P : A -> Prop) i j l es : (forall i j a es, R i j a es -> P a) -> star R i j l es -> Forall P l.
  Proof. intros H Sp. induction Sp; constructor; eauto. Qed.

  Lemma dedup_incl {A} (lab : A -> problem) seen l kept again : dedup lab seen l kept again -> incl kept l.
  Proof. induction 1 as [|? ? ? ? ? _ _ IH|? ? ? ? ? _ _ IH]; intros a Ha; [exact Ha| |right; apply IH; exact Ha]. destruct Ha as [->|Ha]; [left; reflexivity|right; apply IH; exact Ha]. Qed.
  Lemma dedup_nodup {A} (lab : A -> problem) seen l kept again : dedup lab seen l kept again ->
    NoDup (map lab kept) /\ forall x, In x kept -> ~ In (lab x) seen.
  Proof.
    induction 1 as [|seen x l kept again Ns _ [Nd F]|seen x l kept again _ _ IH]; [split; [constructor|intros x []]| |exact IH].
    split.
    - cbn. constructor; [|exact Nd]. intro H. apply in_map_iff in H. destruct H as (y & Q & Hy). apply (F y Hy). left. symmetry. exact Q.
    - intros y [<-|Hy]; [exact Ns|]. intro X. apply (F y Hy). right. exact X.
  Qed.
  Lemma flat_map_nodup {A B} (f : A -> list B) (lab : A -> problem) (mk : B -> problem) l : (forall x y, In y (f x) -> f x = [y] /\ lab x = mk y) ->
    NoDup (map lab l) -> NoDup (map mk (flat_map f l)).
  Proof.
    intros Hf. induction l as [|x l IH]; intro Nd; [constructor|]. inversion Nd as [|? ? Ni Nd']; subst. cbn [flat_map]. specialize (IH Nd').
    destruct (f x) as [|y r] eqn:Fx; [exact IH|]. destruct (Hf x y) as [Q Lx]; [rewrite Fx; left; reflexivity|]. rewrite Fx in Q. injection Q as ->. cbn. constructor; [|exact IH].
    intro H. apply Ni. apply in_map_iff in H. destruct H as (z & Q & Hz). apply in_flat_map in Hz. destruct Hz as (w & Hw & Hz).
    destruct (Hf w z Hz) as [_ Lw]. apply in_map_iff. exists w. split; [congruence|exact Hw].
  Qed.
  Lemma nodup_injective {A B C} (f : A -> B) (g : B -> C) l : (forall x y, g x = g y -> x = y) -> NoDup (map (fun x => g (f x)) l) -> NoDup (map f l).
  Proof.
    intros Hg. induction l as [|x l IH]; cbn; intro H; [constructor|]. inversion H as [|? ? Ni Nd]; subst. constructor; [|auto].
    intro X. apply Ni. apply in_map_iff in X. destruct X as (y & Q & Hy). apply in_map_iff. exists y. split; [congruence|exact Hy].
  Qed.

  Record parts_ok (m : metadata) : Prop := {
    pk_keys : Forall (fun kv => common_key E (item (fst kv)) /\ (showable_meta_value (item (snd kv)) -> common_meta_value L E names (item (snd kv)))) (md_key_values m);
    pk_tags : Forall (fun t => common_label E (item t)) (md_tags m);
    pk_links : Forall (fun t => common_label E (item t)) (md_links m);
    pk_keys_once : NoDup (map (fun kv => item (fst kv)) (md_key_values m));
    pk_tags_once : NoDup (map item (md_tags m));
    pk_links_once : NoDup (map item (md_links m))
  }.
  Lemma parts_common m : parts_ok m -> showable_metadata m -> common_metadata L E names m.
  Proof.
    intros [K T Lk Ko To Lo] Sh. split; auto. unfold showable_metadata in Sh. rewrite Forall_forall in *. intros kv Hkv. destruct (K kv Hkv) as [A B]. split; [exact A|]. apply B. apply Sh. exact Hkv.
  Qed.

  Lemma kept_tags kept : NoDup (map metadatum_label kept) -> NoDup (map item (tags_in kept)).
  Proof.
    intro H. apply (nodup_injective item DuplicateTag); [intros x y X; injection X; auto|].
    apply (flat_map_nodup _ metadatum_label (fun x : spanned str => DuplicateTag (item x))); [|exact H]. intros x y Hy. destruct x; cbn in Hy; try destruct Hy as [<-|[]]; try contradiction. auto.
  Qed.
  Lemma kept_links kept : NoDup (map metadatum_label kept) -> NoDup (map item (links_in kept)).
  Proof.
    intro H. apply (nodup_injective item DuplicateLink); [intros x y X; injection X; auto|].
    apply (flat_map_nodup _ metadatum_label (fun x : spanned str => DuplicateLink (item x))); [|exact H]. intros x y Hy. destruct x; cbn in Hy; try destruct Hy as [<-|[]]; try contradiction. auto.
  Qed.
  Lemma kept_keys kept : NoDup (map metadatum_label kept) -> NoDup (map (fun kv : spanned str * spanned meta_value => item (fst kv)) (key_values_in kept)).
  Proof.
    intro H. apply (nodup_injective _ DuplicateKey); [intros x y X; injection X; auto|].
    apply (flat_map_nodup _ metadatum_label (fun x : spanned str * spanned meta_value => DuplicateKey (item (fst x)))); [|exact H]. intros x y Hy. destruct x; cbn in Hy; try destruct Hy as [<-|[]]; try contradiction. auto.
  Qed.
  Lemma ok_tags l : Forall datum_ok l -> Forall (fun t => common_label E (item t)) (tags_in l).
  Proof. intro F. apply Forall_flat_map. eapply Forall_impl; [|exact F]. intros [kv|t|t] H; first [constructor; [exact H|constructor]|constructor]. Qed.
  Lemma ok_links l : Forall datum_ok l -> Forall (fun t => common_label E (item t)) (links_in l).
  Proof. intro F. apply Forall_flat_map. eapply Forall_impl; [|exact F]. intros [kv|t|t] H; first [constructor; [exact H|constructor]|constructor]. Qed.
  Lemma ok_keys l : Forall datum_ok l -> Forall (fun kv => common_key E (item (fst kv)) /\ (showable_meta_value (item (snd kv)) -> common_meta_value L E names (item (snd kv)))) (key_values_in l).
  Proof. intro F. apply Forall_flat_map. eapply Forall_impl; [|exact F]. intros [kv|t|t] H; first [constructor; [exact H|constructor]|constructor]. Qed.
  Lemma ok_incl (l kept : list metadatum) : incl kept l -> Forall datum_ok l -> Forall datum_ok kept.
  Proof. intros Hi F. rewrite Forall_forall in *. auto. Qed.

  Lemma c_metadata i j md es : metadata_at E I names i j md es -> parts_ok (item md).
  Proof.
    intros [l St Co _]. assert (F : Forall datum_ok l).
    { eapply star_all; [|exact St]. intros a b m es' [[k _ M _] _]. eapply c_metadatum. exact M. }
    destruct Co as [kept again De]. pose proof (ok_incl _ _ (dedup_incl _ _ _ _ _ De) F) as Fk. destruct (dedup_nodup _ _ _ _ _ De) as [Nd _].
    split; cbn; auto using ok_tags, ok_links, ok_keys, kept_tags, kept_links, kept_keys.
  Qed.
  Lemma c_merges dup (Hd : forall x y, dup x = dup y -> x = y) old new result es : merges dup old new result es ->
    (Forall (fun t => common_label E (item t)) old -> Forall (fun t => common_label E (item t)) new -> Forall (fun t => common_label E (item t)) result) /\
    (NoDup (map (fun x : spanned str => item x) old) -> NoDup (map (fun x : spanned str => item x) result)).
  Proof.
    intros [fresh again De -> _]. split.
    - intros Fo Fn. apply Forall_app. split; [exact Fo|]. rewrite Forall_forall in *. intros x Hx. apply Fn. eapply dedup_incl; eassumption.
    - intro No. destruct (dedup_nodup _ _ _ _ _ De) as [Nf Fr]. rewrite map_app.
      assert (Nf' : NoDup (map (fun x : spanned str => item x) fresh)) by (eapply nodup_injective; [exact Hd|exact Nf]).
      clear - No Nf' Fr Hd. induction old as [|x old IH]; [exact Nf'|]. cbn in *. inversion No as [|? ? Ni No']; subst. constructor.
      + intro H. apply in_app_or in H. destruct H as [H|H]; [contradiction|]. apply in_map_iff in H. destruct H as (y & Q & Hy). apply (Fr y Hy). left. congruence.
      + apply IH; [exact No'|]. intros y Hy X. apply (Fr y Hy). right. exact X.
  Qed.
  Lemma c_joined (Go : forall l, Permutation l (g_order E l)) md marks md' es es' : parts_ok (item md) -> Forall datum_ok marks -> joined E md marks md' es es' -> parts_ok (item md').
  Proof.
    intros [K T Lk Ko To Lo] F [kept again tags links e1 e2 De Mt Ml]. pose proof (ok_incl _ _ (dedup_incl _ _ _ _ _ De) F) as Fk.
    destruct (c_merges DuplicateTag ltac:(intros x y X; injection X; auto) _ _ _ _ Mt) as [T1 T2].
    destruct (c_merges DuplicateLink ltac:(intros x y X; injection X; auto) _ _ _ _ Ml) as [L1 L2].
    split; cbn; auto.
    - apply T1; [exact T|]. eapply Permutation_Forall; [apply Go|]. apply ok_tags. exact Fk.
    - apply L1; [exact Lk|]. eapply Permutation_Forall; [apply Go|]. apply ok_links. exact Fk.
  Qed.

  (** *** Postings *)
  Lemma maybe_all {A} (R : nat -> nat -> A -> Prop) (P : A -> Prop) i j o : (forall i j a, R i j a -> P a) -> maybe R i j o -> optional P o.
  Proof. intros H [|k a X]; cbn; eauto. Qed.
  Lemma c_posting i j p es : posting_at E I names i j p es -> showable_posting (item p) -> common_posting L E names (item p).
  Proof.
    intros [a b c d e f g k flag account amount currency cost price md es' _ Fl [Ac _] Am Cu Co Pr _ Md] [Sc Sp Sm]. cbn [item po_flag po_account po_amount po_currency po_cost_spec po_price po_metadata] in *. split; cbn.
    - eapply maybe_all; [|exact Fl]. intros x y z [H _]. eapply c_flag. exact H.
    - eapply c_account. exact Ac.
    - eapply maybe_all; [|exact Am]. intros x y z [H _]. eapply c_value. exact H.
    - eapply maybe_all; [|exact Cu]. intros x y z [H _]. eapply c_currency. exact H.
    - destruct Co as [|x y [H _]]; [exact Logic.I|]. cbn in *. eapply c_cost; [exact H|exact Sc].
    - destruct Pr as [|x y [H _]]; [exact Logic.I|]. cbn in *. eapply c_price; [exact H|exact Sp].
    - apply parts_common; [eapply c_metadata; exact Md|exact Sm].
  Qed.

  (** *** Fields *)
  Lemma c_fields i k j v es : fields_at E I names i k j v es -> showable_variant v -> common_variant L E names v.
  Proof.
    intros [a b c m [C _] [A _]|a b x t [Ac _] [At _]|a b c x cs bk es' [Ac _] Cu _|a x [Ac _]|a c [C _]|a b x s [Ac _] [As _]|a b x s [Ac _] [St _]|a b x s [Ac _] [St _]|a b x s _ _|a b x s _ _] Sh; cbn in *.
    - split; [eapply c_currency; exact C|eapply c_amount; exact A].
    - split; [eapply c_account; exact Ac|]. split; [|exact Sh]. destruct (item t) as [am tol]. cbn in *. subst tol. inversion At as [am' [H _]|]; subst. eapply c_amount. exact H.
    - split; [eapply c_account; exact Ac|]. inversion Cu as [|m first rest kept again Sp De]; subst; [split; constructor|].
      destruct (dedup_nodup _ _ _ _ _ De) as [Nd _]. split.
      + assert (F : Forall (fun c => common_currency (item c)) (first :: rest)) by (eapply separated_all; [|exact Sp]; intros p q z [H _]; eapply c_currency; exact H).
        rewrite Forall_forall in *. intros z Hz. apply F. apply (dedup_incl _ _ _ _ _ De) in Hz. apply in_app_or in Hz. destruct Hz as [Hz|[<-|[]]]; [right; exact Hz|left; reflexivity].
      + apply (nodup_injective item DuplicateCurrency) in Nd; [exact Nd|]. intros p q X. injection X. auto.
    - eapply c_account; exact Ac.
    - eapply c_currency; exact C.
    - split; eapply c_account; eassumption.
    - split; [eapply c_account; exact Ac|exact Sh].
    - split; [eapply c_account; exact Ac|exact Sh].
    - exact Sh.
    - exact Sh.
  Qed.
  Lemma titles_ok l p n : titles l p n -> optional (fun s => clean (item s)) p -> optional (fun s => clean (item s)) n ->
    optional (fun s : spanned str => clean (item s) /\ item s <> []) p /\ optional (fun s : spanned str => clean (item s) /\ item s <> []) n.
  Proof.
    intros [|s m U|s t q m U V]; cbn; intros P N; auto.
    - split; [exact Logic.I|]. destruct U; cbn in *; auto.
    - split; [destruct U|destruct V]; cbn in *; auto.
  Qed.

  (** *** Custom directives *)
  Lemma first_sign :
    (forall i j e, sum I i j e -> starts_with_sign e -> exists m p, tok I i T_Minus /\ primary I (S i) m p) /\
    (forall i j e, product I i j e -> starts_with_sign e -> exists m p, tok I i T_Minus /\ primary I (S i) m p) /\
    (forall i j e, factor I i j e -> starts_with_sign e -> exists m p, tok I i T_Minus /\ primary I (S i) m p) /\
    (forall i j e, primary I i j e -> starts_with_sign e -> False).
  Proof.
    apply expr_mutind; intros; cbn in *; try tauto; eauto; exfalso; auto.
  Qed.

  Context (po : parser_options) (Ws : well_set E po names) (Com : computable E I).

  Lemma follows i j k v w : good I i -> longest (written I (meta_value_at E I names)) i j v ->
    written I (meta_value_at E I names) j k w -> apart (item v) (item w).
  Proof.
    intros G [M Lg] [Mw _] [e Q]. destruct M as [M _]. rewrite Q in M.
    assert (V : value_at E I i j e) by (inversion M as [|? Sv]; subst; inversion Sv; subst; assumption). clear M.
    split.
    - intros c Qw. rewrite Qw in Mw. inversion Mw as [|? Sv]; subst. inversion Sv as [|? ? Cu| | | | | | |]; subst.
      assert (k <= j); [|inversion Cu; lia].
      apply (Lg k (mk_spanned (MV_Amount (mk_amount (mk_spanned e (text I i j)) (mk_spanned c (text I j k)))) (text I i k))).
      split; [|reflexivity]. cbn [item]. constructor. exists j; (split; [assumption|reflexivity]).
    - intro Sf.
      assert (X : exists m p, tok I j T_Minus /\ primary I (S j) m p).
      { destruct (item w) as [sv|a]; cbn in Sf.
        - destruct sv; try contradiction. inversion Mw as [|? Sv]; subst. inversion Sv as [| | | | | | | |? ? [Sm _]]; subst. exact (proj1 first_sign _ _ _ Sm Sf).
        - inversion Mw as [? Am|]; subst. destruct Am as [m [[Sm _] _] _]. exact (proj1 first_sign _ _ _ Sm Sf). }
      destruct X as (m & p & T & P). destruct V as [Sm _].
      assert (S2 : sum I i m (E_Sub (ev_expr e) p)) by (eapply sum_sub; [exact Sm|exact T|]; apply product_one, factor_plain; exact P).
      destruct (bounds I) as (_ & _ & _ & Bp). apply Bp in P. destruct (p_expr_far I i m _ S2) as (e' & k' & X & Bk). apply p_expr_longest in X.
      destruct G as [G|G]; [|exact (G _ _ S2)]. destruct (com_worth _ _ Com _ _ _ G X) as (v' & Wv & Ev).
      assert (k' <= j); [|lia]. apply (Lg k' (mk_spanned (MV_Simple (SV_Expr v')) (text I i k'))). split; [|reflexivity].
      cbn [item]. constructor. constructor. split; [rewrite Ev; apply X|exact Wv].
  Qed.
  Lemma c_apart b c values : star (silent (longest (written I (meta_value_at E I names)))) b c values [] -> good I b -> all_apart (map item values).
  Proof.
    intros St G. pose proof (values_good E I po names (wset_unicode _ _ _ Ws) (wset_named _ _ _ Ws) (wset_names _ _ _ Ws) (com_ascii _ _ Com) (com_worth _ _ Com) _ _ _ St G) as X.
    clear St G. remember (@nil report) as es eqn:Q. clear Q. induction X as [i|i j k x l es es' [[G Lx] _] X IH]; [exact Logic.I|].
    destruct X as [j|j k m y l es2 es3 [[_ [Wy _]] _] X]; [exact Logic.I|].
    change (apart (item x) (item y) /\ all_apart (map item (y :: l))). split; [eapply follows; eassumption|exact IH].
  Qed.

  (** *** Directives *)
  Lemma c_directive i j d es : directive_at E I names i j d es ->
    common_date (item (dir_date d)) /\ parts_ok (item (dir_metadata d)) /\ (showable_variant (dir_variant d) -> common_variant L E names (dir_variant d)).
  Proof.
    intros [a b c e f g m date flag strings payee narration marks md md' postings es1 es2 es3 es4 [Dd _] [Fl _] _ Ti Ma _ Md Ps Jo
           |a b c e m k date v marks md md' es1 es2 es3 es4 [Dd _] _ Fi Ma _ Md Jo
           |a b c e m date type_ values md es' [Dd _] _ Ty Va _ Md]; cbn [dir_date dir_metadata dir_variant]; (split; [eapply c_date; exact Dd|]); (split; [|]).
    - eapply c_joined; [apply Ws|eapply c_metadata; exact Md| |exact Jo]. eapply star_all; [|exact Ma]. intros x y z es' [H _]. eapply c_mark. exact H.
    - intros (Sp & Sn & Sps). split; [eapply c_txn; exact Fl|]. destruct (titles_ok _ _ _ Ti Sp Sn) as [X Y]. split; [exact X|split; [exact Y|]].
      clear - Ps Sps Sane. induction Ps as [|i j k p l es es' H _ IH]; [constructor|]. inversion Sps; subst. constructor; [eapply c_posting; eassumption|auto].
    - eapply c_joined; [apply Ws|eapply c_metadata; exact Md| |exact Jo]. eapply star_all; [|exact Ma]. intros x y z es' [H _]. eapply c_mark. exact H.
    - eapply c_fields. exact Fi.
    - eapply c_metadata. exact Md.
    - intros [St Sv]. split; [exact St|]. split; [|eapply c_apart; [exact Va|eapply good_after_string; exact Ty]].
      assert (F : Forall (fun v => showable_meta_value (item v) -> common_meta_value L E names (item v)) values).
      { eapply star_all; [|exact Va]. intros x y z es2 [[[H _] _] _]. eapply c_meta_value. exact H. }
      rewrite Forall_forall in *. auto.
  Qed.
End Parts.
