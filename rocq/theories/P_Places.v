(** * C53: everything in a result is where its span says *)
From Coq Require Import String Ascii.
From Coq Require Import List NArith ZArith Arith Bool Lia Permutation.
From Verif Require Import Base BaseFacts Text Path SpecPath PathFacts Sources SpecSources Types SpecTypes TypesFacts SortM SpecSort P_Sort Options SpecOptions OptionsFacts P_Options
  Pragma SpecPragma PragmaFacts PragmaRun P_Pragma Read SpecRead ReadFacts P_Read Decimal SpecDecimal
  Token LexPost SpecLex LexFacts P_Lex Lexer SpecLexer LexerFacts P_Lexer Peg Grammar SpecExpr
  PegFacts ExprFacts SpecGrammar SpecDirective GrammarSafe P_Grammar
  Parse SpecParse SpecWhole ParseFacts ParseOnce ParseFile P_File P_Includes P_Parse SpecPlaces Places P_Sources P_RoundTrip.
Import ListNotations.
Local Open Scope nat_scope.

Section Declared.
  Context (L : lexer_env) (UO : unicode_ok (le_unicode L)) (E : grammar_env) (Go : forall l, Permutation l (g_order E l)) (here : span -> str -> Prop).
  Notation placed_at := (place here).
  Notation reported := (located_report L here (g_unicode E) (g_decimal E)).
  Notation concerned := (concerns L (g_unicode E) (g_decimal E)).

  (** ** Declarations *)
  Definition located_option (o : beancount_option) : Prop :=
    match opt_variant o with
    | O_Ignored | O_Assimilated => True
    | v => exists file name value m m', here (src_name (opt_source o)) m /\ string_spelling L name m /\
             here (src_value (opt_source o)) m' /\ string_spelling L value m' /\ SpecOptions.reads (g_unicode E) (g_decimal E) file name value v
    end.
  Definition tag_pushed (t : spanned str) : Prop := exists between, here (span_of t) (lit "pushtag" ++ between ++ 35%N :: item t).
  Definition declared_located (d : spanned declaration) : Prop :=
    match item d with
    | D_Directive x => located_directive L here (mk_spanned x (span_of d))
    | D_Pragma (P_Pushtag t) => tag_pushed t
    | D_Pragma (P_Poptag t) => exists between, here (span_of t) (lit "poptag" ++ between ++ 35%N :: item t)
    | D_Pragma (P_Pushmeta kv) => spelled here name_spelling (mkv_key kv) /\ located_value L here (mkv_value kv) /\ key_lang (g_unicode E) (item (mkv_key kv))
    | D_Pragma (P_Popmeta k) => exists between, here (span_of k) (lit "popmeta" ++ between ++ lit ":")
    | D_Pragma (P_Include t) => spelled here (string_spelling L) t
    | D_Pragma (P_Plugin p) => located_plugin L here p
    | D_Pragma (P_Option o) => located_option o
    end.
  Definition rules_located (r : rules) : Prop := forall m sp, rl_limit r = Some (m, sp) -> string_here L here sp.

  Section File.
    Context (id : nat) (c : str) (out : list rtoken) (Lx : lex L c = Fine (Some out)) (file : option path).
    Context (Here : forall sp m, sp_source sp = id -> str_get c (sp_start sp) (sp_end sp) = Some m -> here sp m).
    Notation I := (input_of id c out).

    Lemma string_place x i j : written I (string_at I) i j x -> spelled here (string_spelling L) x /\ string_here L here (span_of x).
    Proof. intro W. pose proof (l_string L UO id c out Lx here Here _ _ _ W) as H. split; [exact H|]. destruct H as (m & H). exists (item x), m. exact H. Qed.
    Lemma d_option r i j o es r' : option_at E I file r i j o es r' -> rules_located r ->
      located_option o /\ Forall reported es /\ rules_located r'.
    Proof.
      intros [a b name value o' es' r2 _ W W' Ef] Rl. destruct (string_place _ _ _ W) as [(m & A & B) Pn]. destruct (string_place _ _ _ W') as [(m' & A' & B') Pv].
      assert (One : forall p sp m, here sp m -> concerned p m -> Forall reported [mk_report p sp []]) by (intros p sp x H H'; constructor; [split; [exists x; split; [exact H|exact H']|constructor]|constructor]).
      destruct Ef as [t s R _|t t' s R _ _|k R|v R Sh|U|e W0]; (split; [|split]); auto; try exact Logic.I; try apply Forall_nil.
      - eapply One; [exact A'|]. exists (item value). split; [exact B'|]. inversion R; subst; assumption.
      - intros k' sp Q. injection Q as _ <-. exact Pv.
      - unfold located_option. cbn [opt_variant opt_source src_name src_value]. destruct v; try exact Logic.I; try contradiction; exists file, (item name), (item value), m, m'; auto.
      - eapply One; [exact A|]. exists (item name). auto.
      - eapply One; [exact A'|]. exists (item name), (item value). auto.
    Qed.
    Lemma d_pragma names i j p : pragma_at E I names i j p -> i < j <= List.length out /\ declared_located (mk_spanned (D_Pragma p) (text I i j)).
    Proof.
      intros [k t T H|k t T H|k kv T H|k x T H C|k x T H|k l m x T H M]; unfold declared_located; cbn [item].
      - pose proof (b_tag E id c out here Here _ _ _ H). split; [lia|]. inversion H as [x T' _ Q Q']; subst.
        destruct (range_here L UO id c out Lx here Here _ _ _ _ T T' ltac:(lia)) as (m & m' & w & _ & M & M' & A & _ & G). cbn in M, M'. subst m m'.
        destruct (G ltac:(discriminate)) as (g & ->). exists g. exact A.
      - pose proof (b_tag E id c out here Here _ _ _ H). split; [lia|]. inversion H as [x T' _ Q Q']; subst.
        destruct (range_here L UO id c out Lx here Here _ _ _ _ T T' ltac:(lia)) as (m & m' & w & _ & M & M' & A & _ & G). cbn in M, M'. subst m m'.
        destruct (G ltac:(discriminate)) as (g & ->). exists g. exact A.
      - pose proof (b_key_value E id c out _ here Here _ _ _ H). split; [lia|].
        destruct (l_key_value L UO E id c out Lx _ here Here _ _ _ H) as [A B]. split; [exact A|]. split; [exact B|]. destruct H as [? ? key v [Kk _] _ _|? key [Kk _] _]; inversion Kk; assumption.
      - pose proof (b_key E id c out here Here _ _ _ H). pose proof (tok_bound id c out here Here _ _ C). split; [lia|]. assert (Lt : i < k) by (inversion H; lia).
        destruct (range_here L UO id c out Lx here Here _ _ _ _ T C Lt) as (m & m' & w & _ & M & M' & A & _ & G). cbn in M, M'. subst m m'.
        destruct (G ltac:(discriminate)) as (g & ->). exists g. exact A.
      - pose proof (b_string id c out here Here _ _ _ (proj1 H)). split; [lia|]. apply (string_place _ _ _ H).
      - pose proof (b_string id c out here Here _ _ _ (proj1 H)). pose proof (b_maybe id c out here Here _ _ _ _ (fun x y z W => b_string id c out here Here _ _ _ (proj1 W)) M ltac:(lia)).
        split; [lia|]. split; cbn; [apply (string_place _ _ _ H)|]. eapply l_maybe; [|exact M]. intros a b z W. apply (string_place _ _ _ W).
    Qed.
    Lemma d_declares r i j d es r' : declares E I file r i j d es r' -> rules_located r ->
      declared_located d /\ Forall reported es /\ rules_located r'.
    Proof.
      intros [d' es' [Da _]|k p Pr _|k o es' r2 O _] Rl.
      - destruct (l_directive L UO E Go id c out Lx _ here Here _ _ _ _ Da) as (_ & (A & B & [Sp K T Lk] & D) & F). split; [|split; [exact F|exact Rl]].
        unfold declared_located. cbn [item span_of]. split; cbn [item span_of]; [exact A|exact B| |exact D]. split; auto.
        eapply Forall_impl; [|exact T]. intros t H. left. exact H.
      - destruct (d_pragma _ _ _ _ Pr) as [_ H]. split; [|split; [constructor|exact Rl]]. unfold declared_located in *. cbn [item span_of] in *. exact H.
      - exact (d_option _ _ _ _ _ _ O Rl).
    Qed.
    Lemma d_leaves r i r' : leaves E I file r i r' -> rules_located r -> rules_located r'.
    Proof. intros [k o es r2 O|_] Rl; [|exact Rl]. apply (d_option _ _ _ _ _ _ O Rl). Qed.
    Lemma d_seeks r i found r' : seeks E I file r i found r' -> rules_located r ->
      rules_located r' /\ (forall x, found = Some x -> ~ finished I i /\ declared_located (snd (fst x))).
    Proof.
      intro Sk. induction Sk as [r i F|r i j d r' Nf D|r i found r1 r' Nf No Le Sk IH]; intro Rl.
      - split; [exact Rl|discriminate].
      - destruct (d_declares _ _ _ _ _ _ D Rl) as (A & _ & B). split; [exact B|]. intros x Q. injection Q as <-. split; [exact Nf|exact A].
      - destruct IH as [A B]; [exact (d_leaves _ _ _ Le Rl)|]. split; [exact A|]. intros x Q. split; [exact Nf|apply (B x Q)].
    Qed.
    Definition complaint_located (x : complaint) : Prop :=
      match x with C_Report r => reported r | C_Syntax source position => source = id /\ position < List.length out end.
    Lemma not_finished i : ~ finished I i -> i < List.length out.
    Proof. intro H. apply nth_error_Some. exact H. Qed.
    Lemma d_declared r i ds es ws k r' : declared E I file r i ds es ws k r' -> rules_located r ->
      Forall declared_located (map snd ds) /\ Forall complaint_located es /\ rules_located r'.
    Proof.
      intro D. induction D as [r i r1 r' _ Le Sk|r i j d es r1 ds es' ws k r' D _ IH|r i i' j d w r1 r2 ds es' ws k r' _ Le Sk _ IH]; intro Rl.
      - split; [constructor|]. split; [constructor|]. eapply d_seeks; [exact Sk|]. exact (d_leaves _ _ _ Le Rl).
      - destruct (d_declares _ _ _ _ _ _ D Rl) as (A & B & C). destruct (IH C) as (A' & B' & C'). split; [constructor; assumption|]. split; [|exact C'].
        apply Forall_app. split; [|exact B']. apply Forall_map. exact B.
      - destruct (d_seeks _ _ _ _ Sk (d_leaves _ _ _ Le Rl)) as (C & X). destruct (X _ eq_refl) as [Nf A]. destruct (IH C) as (A' & B' & C').
        split; [constructor; assumption|]. split; [|exact C']. constructor; [|exact B']. split; [reflexivity|exact (not_finished _ Nf)].
    Qed.
    Lemma d_limit lim lim' : limit_in E I file lim lim' -> (forall m sp, lim = Some (m, sp) -> string_here L here sp) -> forall m sp, lim' = Some (m, sp) -> string_here L here sp.
    Proof. intros [|i a b name value m _ _ W _] H m' sp Q; [exact (H _ _ Q)|]. injection Q as _ <-. apply (string_place _ _ _ W). Qed.
    Lemma d_warrants lim w : warrants E I file lim w -> (forall m sp, lim = Some (m, sp) -> string_here L here sp) -> reported w.
    Proof.
      intros (lim' & q & s & Li & T & Q) H. pose proof (d_limit _ _ Li H) as H'. clear Li H.
      destruct T as [[a b] T]. unfold long_strings in Q. replace (S q - q) with 1 in Q by lia. cbn [seq flat_map app] in Q. rewrite T in Q.
      destruct (lines_of s <=? allowed lim')%N eqn:Ql; [discriminate|]. injection Q as <-. apply N.leb_gt in Ql. split; cbn.
      - pose proof (tok_here L UO id c out Lx here Here q (T_String s)) as X. destruct X as (m & X & Me); [exists (a, b); exact T|]. exists m.
        unfold text in X. rewrite (from_at id c out _ _ _ _ T), (upto_at id c out _ _ _ _ T) in X. split; [exact X|]. exists s. split; [exact Me|]. split; [reflexivity|exact Ql].
      - destruct lim' as [[m sp]|]; constructor; [exact (H' _ _ eq_refl)|constructor].
    Qed.
    Lemma d_file r x r' : fr_file x = file -> file_result_ok E I r x r' -> rules_located r ->
      Forall declared_located (snd (returned x)) /\ Forall complaint_located (fr_errors x) /\ Forall reported (fr_warnings x) /\ rules_located r'.
    Proof.
      intros Qf (ws & Fr & _ & Wa & _) Rl. rewrite Qf in *. unfold returned. cbn [snd].
      assert (X : Forall reported (fr_warnings x)) by (eapply Forall_impl; [|exact Wa]; intros w H; exact (d_warrants _ _ H Rl)).
      destruct x as [f o es ws']. cbn [fr_file fr_declarations fr_errors fr_warnings] in *. destruct Fr as [ds es ws0 k r2 D _|ds es ws0 k r2 D Nf].
      - destruct (d_declared _ _ _ _ _ _ _ D Rl) as (A & B & C). auto.
      - destruct (d_declared _ _ _ _ _ _ _ D Rl) as (A & B & C). split; [constructor|]. split; [|auto]. apply Forall_app. split; [exact B|].
        constructor; [|constructor]. split; [reflexivity|exact (not_finished _ Nf)].
    Qed.
  End File.

  (** ** All files *)
  Lemma d_files s : here = written_at s -> forall r cs xs r', files_read L E r cs xs r' ->
    (forall id f c, In (id, f, c) cs -> In (id, f, c) (content_iter s) /\ exists name, source_text s id name c) -> rules_located r ->
    Forall (fun x => Forall declared_located (snd x)) (map returned xs) /\
    Forall (located_complaint L E s) (flat_map fr_errors xs) /\ Forall reported (flat_map fr_warnings xs).
  Proof.
    intros Hs r cs xs r' Fs. induction Fs as [r|r id c toks cs x r1 xs r' Lx Ok _ IH]; intros Src Rl; cbn [map flat_map]; [repeat split; constructor|].
    destruct (Src id (fr_file x) c (or_introl eq_refl)) as [Ins [name St]].
    assert (Here : forall sp m, sp_source sp = id -> str_get c (sp_start sp) (sp_end sp) = Some m -> here sp m).
    { intros sp m <- G. apply str_get_spec in G. destruct G as (pre & post & -> & A & B). rewrite Hs. exists name, (fr_file x), (pre ++ m ++ post), pre, post. split; [exact St|]. split; [exact Ins|]. repeat split; auto. }
    destruct (d_file id c toks Lx (fr_file x) Here _ _ _ eq_refl Ok Rl) as (A & B & C & D).
    destruct IH as (A' & B' & C'); [intros i f c' Hin; apply (Src i f c'); right; exact Hin|exact D|].
    split; [constructor; assumption|]. split; apply Forall_app; split; auto. eapply Forall_impl; [|exact B]. intros [p|i k]; cbn; [rewrite Hs; auto|].
    intros [-> Lt]. exists name, c, toks. auto.
  Qed.

  (** ** The walk *)
  Definition event_located (e : event) : Prop := match e with Declared _ d => declared_located d | Offered sp _ _ => string_here L here sp end.
  Let all (t : table) : Prop := Forall (fun x => Forall declared_located (snd x)) t.

  Lemma include_place d text : declared_located d -> item d = D_Pragma (P_Include text) -> string_here L here (span_of text).
  Proof. unfold declared_located. intros H Q. rewrite Q in H. destruct H as (m & H). exists (item text), m. exact H. Qed.
  Lemma offers_located sp t ps es fs t' : offers sp t ps es fs t' -> string_here L here sp -> all t -> all fs /\ all t' /\ Forall event_located es.
  Proof.
    intros O Ps. induction O as [t|t p ps k ds t1 es fs t2 (a & b & -> & -> & _) _ IH|t p ps es fs t1 _ _ IH]; intro F.
    - repeat split; try constructor. exact F.
    - apply Forall_app in F. destruct F as [Fa Fb]. inversion Fb as [|? ? Fd Fb']; subst. destruct IH as (A & B & C); [apply Forall_app; split; assumption|].
      split; [constructor; assumption|]. split; [exact B|]. constructor; [exact Ps|exact C].
    - destruct (IH F) as (A & B & C). split; [exact A|]. split; [exact B|]. constructor; [exact Ps|exact C].
  Qed.
  Lemma walk_located globs :
    (forall t f ds es t', walk globs t f ds es t' -> all t -> Forall declared_located ds -> Forall event_located es /\ all t') /\
    (forall t fs es t', walks globs t fs es t' -> all t -> all fs -> Forall event_located es /\ all t').
  Proof.
    apply walk_walks_ind.
    - intros t f F _. split; [constructor|exact F].
    - intros t f d ds es t' _ _ IH F Fd. inversion Fd; subst. destruct IH as [A B]; auto.
    - intros t f d text ds g offered fs t1 es1 t2 es2 t3 Q _ Of _ IH1 _ IH2 F Fd. inversion Fd as [|? ? Fd1 Fds]; subst.
      destruct (offers_located _ _ _ _ _ _ Of (include_place _ _ Fd1 Q) F) as (Fs & F1 & Eo). destruct IH1 as [A B]; [exact F1|apply Forall_rev; exact Fs|].
      destruct IH2 as [A2 B2]; auto. split; [|exact B2]. constructor; [assumption|]. apply Forall_app. split; [exact Eo|]. apply Forall_app. split; assumption.
    - intros t F _. split; [constructor|exact F].
    - intros t f ds fs es1 t1 es2 t2 _ IH1 _ IH2 F Ff. inversion Ff; subst. destruct IH1 as [A B]; auto. destruct IH2 as [A2 B2]; auto. split; [|exact B2]. apply Forall_app. split; assumption.
  Qed.

  (** ** What is pushed *)
  Lemma tag_stack_located t seen : Forall event_located seen -> Forall tag_pushed (tag_stack t seen).
  Proof.
    induction seen as [|e seen IH] using rev_ind; intro F; [constructor|]. apply Forall_app in F. destruct F as [F Fe]. inversion Fe as [|? ? He _]; subst. rewrite tag_stack_snoc.
    specialize (IH F). unfold tag_effect. destruct e as [f d|]; [|exact IH]. cbn in He. unfold declared_located in He. destruct (item d) as [|p]; [exact IH|]. destruct p; try exact IH.
    - destruct (str_eqb _ _); [constructor; [exact He|exact IH]|exact IH].
    - destruct (str_eqb _ _); [|exact IH]. destruct (tag_stack t seen); [exact IH|inversion IH; assumption].
  Qed.
  Lemma meta_stack_located k seen : Forall event_located seen ->
    Forall (fun x => here (fst x) k /\ located_value L here (snd x) /\ key_lang (g_unicode E) k) (meta_stack k seen).
  Proof.
    induction seen as [|e seen IH] using rev_ind; intro F; [constructor|]. apply Forall_app in F. destruct F as [F Fe]. inversion Fe as [|? ? He _]; subst. rewrite meta_stack_snoc.
    specialize (IH F). unfold meta_effect. destruct e as [f d|]; [|exact IH]. cbn in He. unfold declared_located in He. destruct (item d) as [|p]; [exact IH|]. destruct p; try exact IH.
    - destruct (str_eqb _ _) eqn:Q; [|exact IH]. apply str_eqb_eq in Q. subst k. constructor; [|exact IH]. destruct He as [(m & A & B) [C C']]. cbn. unfold name_spelling in B. subst m. auto.
    - destruct (str_eqb _ _); [|exact IH]. destruct (meta_stack k seen); [exact IH|inversion IH; assumption].
  Qed.
  Lemma augmented_located seen d d' sp : Forall event_located seen -> augmented seen d d' ->
    located_directive L here (mk_spanned d sp) -> located_directive L here (mk_spanned d' sp).
  Proof.
    intros Fs [Ad Av As Al At Ak _ _] [Ld Lt [Ms Mk Mt Ml] Lv]. cbn [item span_of] in *.
    split; cbn [item span_of]; rewrite ?Ad, ?Av; auto. split; rewrite ?As, ?Al; auto.
    - apply Forall_forall. intros [k v] Hin. apply Ak in Hin. destruct Hin as [Hin|[_ Hd]].
      + rewrite Forall_forall in Mk. exact (Mk _ Hin).
      + pose proof (meta_stack_located (item k) seen Fs) as X. destruct (meta_stack (item k) seen) as [|y l]; [discriminate|]. injection Hd as ->. inversion X as [|? ? [A [B _]] _]; subst.
        cbn in *. split; [|exact B]. exists (item k). split; [exact A|reflexivity].
    - apply Forall_forall. intros t Hin. apply At in Hin. destruct Hin as [Hin|[_ Hd]].
      + rewrite Forall_forall in Mt. exact (Mt _ Hin).
      + pose proof (tag_stack_located (item t) seen Fs) as X. destruct (tag_stack (item t) seen) as [|y l]; [discriminate|]. injection Hd as ->. inversion X; subst. right. assumption.
  Qed.
  Lemma yields_located : forall seen es ds, yields seen es ds -> Forall event_located seen -> Forall event_located es -> Forall (located_directive L here) ds.
  Proof.
    intros seen es ds Y. induction Y as [seen|seen e es d d' ds Ad Au Sp _ IH|seen e es ds _ _ IH]; intros Fs Fe; [constructor| |].
    - inversion Fe as [|? ? He Fe']; subst. constructor; [|apply IH; [apply Forall_app; split; [exact Fs|constructor; [exact He|constructor]]|exact Fe']].
      destruct e as [f x|]; [|discriminate]. cbn in Ad, He. unfold declared_located in He. destruct (item x) eqn:Q; [|discriminate]. injection Ad as <-. cbn [item span_of] in *.
      destruct d' as [d' sp']. cbn [item span_of] in *. subst sp'. eapply augmented_located; [exact Fs|exact Au|exact He].
    - inversion Fe as [|? ? He Fe']; subst. apply IH; [apply Forall_app; split; [exact Fs|constructor; [exact He|constructor]]|exact Fe'].
  Qed.

  (** ** Options and plugins *)
  Lemma options_located es : Forall event_located es -> Forall located_option (options_of es).
  Proof.
    induction 1 as [|e es He _ IH]; [constructor|]. cbn. apply Forall_app. split; [|exact IH]. destruct e as [f d|]; [|constructor]. cbn in *. unfold declared_located in He.
    destruct (item d) as [|p]; [constructor|]. destruct p; constructor; [exact He|constructor].
  Qed.
  Lemma plugins_located es : Forall event_located es -> Forall (located_plugin L here) (plugins_of es).
  Proof.
    induction 1 as [|e es He _ IH]; [constructor|]. cbn. apply Forall_app. split; [|exact IH]. destruct e as [f d|]; [|constructor]. cbn in *. unfold declared_located in He.
    destruct (item d) as [|p]; [constructor|]. destruct p; constructor; [exact He|constructor].
  Qed.
  Lemma first_given_located {A} (f : option_variant -> option A) (kind : A -> option_variant) opts :
    (forall v a, f v = Some a -> v = kind a /\ v <> O_Ignored /\ v <> O_Assimilated) -> Forall located_option opts ->
    given_is (set_at L here (g_unicode E) (g_decimal E) kind) (first_given f opts).
  Proof.
    intros K F x. unfold first_given. induction F as [|o opts Ho _ IH]; [discriminate|]. cbn. destruct (f (opt_variant o)) as [a|] eqn:Q; [|exact IH].
    intro X. injection X as <-. destruct (K _ _ Q) as (Kv & N1 & N2). unfold located_option in Ho.
    assert (Y : exists file name value m m', here (src_name (opt_source o)) m /\ string_spelling L name m /\
             here (src_value (opt_source o)) m' /\ string_spelling L value m' /\ SpecOptions.reads (g_unicode E) (g_decimal E) file name value (opt_variant o))
      by (destruct (opt_variant o); auto; congruence).
    destruct Y as (file & name & value & m & m' & _ & _ & A1 & A2 & A3). exists m', file, name, value. cbn [span_of item]. rewrite <- Kv. auto.
  Qed.
  Lemma option_set_located po opts : Forall located_option opts -> located_options L here (g_unicode E) (g_decimal E) (fst (assimilate_all (options_new po) opts)).
  Proof.
    intro F. destruct (C12_first_wins po opts) as (A1 & A2 & A3 & A4 & A5 & A6 & A7 & A8 & _).
    split; [rewrite A1|intro w; rewrite A2|rewrite A3|rewrite A4|rewrite A5|rewrite A6|rewrite A7|rewrite A8];
      (apply first_given_located; [|exact F]); intros v a; destruct v; cbn; try discriminate; try (intro Q; injection Q as <-; repeat split; discriminate).
    destruct (subaccount_eqb w which) eqn:Q; [|discriminate]. intro X. injection X as <-. destruct w, which; try discriminate; repeat split; discriminate.
  Qed.

  (** ** Errors *)
  Lemma one_report p sp m : here sp m -> concerned p m -> Forall reported [mk_report p sp []].
  Proof. intros H H'. constructor; [split; [exists m; split; assumption|constructor]|constructor]. Qed.
  Lemma reads_known U dp file name value v : SpecOptions.reads U dp file name value v -> In name option_names.
  Proof.
    intro R. destruct R as [ |t v A|w ws A B| | | | | | | | | |];
      [..|]; try destruct t; try destruct w; unfold option_names; cbn [map]; repeat (first [left; reflexivity | right]).
  Qed.
  Lemma option_places o s : located_option o -> setting_of (opt_variant o) = Some s ->
    (exists name m, here (src_name (opt_source o)) m /\ string_spelling L name m /\ In name option_names) /\ string_here L here (src_value (opt_source o)).
  Proof.
    unfold located_option. intros H Q.
    assert (Y : exists file name value m m', here (src_name (opt_source o)) m /\ string_spelling L name m /\
             here (src_value (opt_source o)) m' /\ string_spelling L value m' /\ SpecOptions.reads (g_unicode E) (g_decimal E) file name value (opt_variant o))
      by (destruct (opt_variant o); try discriminate; exact H).
    destruct Y as (file & name & value & m & m' & A & B & A' & B' & R). split; [|exists value, m'; auto]. exists name, m. split; [exact A|]. split; [exact B|].
    eapply reads_known. exact R.
  Qed.
  Lemma due_option_located earlier o r : Forall located_option earlier -> located_option o -> due_report earlier o = Some r -> reported r.
  Proof.
    intros F Ho. unfold due_report. destruct (setting_of (opt_variant o)) as [s|] eqn:Q; [|discriminate]. destruct (find (sets s) earlier) as [o'|] eqn:Fo; [|discriminate].
    apply find_some in Fo. destruct Fo as [Hin Hs]. rewrite Forall_forall in F. specialize (F _ Hin). unfold sets in Hs. destruct (setting_of (opt_variant o')) as [s'|] eqn:Q'; [|discriminate].
    destruct (option_places _ _ Ho Q) as [A B]. destruct (option_places _ _ F Q') as [A' B']. intro X. injection X as <-. destruct (SpecOptions.keyed s); split; cbn; auto.
    - destruct B as (v & m & B1 & B2). exists m. split; [exact B1|]. exists v. exact B2.
    - destruct A as (v & m & A1 & A2). exists m. split; [exact A1|]. exists v. exact A2.
    - constructor; [|constructor]. destruct A' as (v & m & A1 & A2 & _). exists v, m. auto.
  Qed.
  Lemma offered_place seen sp p k : Forall event_located seen -> In (Offered sp p k) seen -> string_here L here sp.
  Proof. rewrite Forall_forall. intros F Hin. exact (F _ Hin). Qed.
  Lemma due_located canonicalize globs error_paths seen e rs : Forall event_located seen -> event_located e ->
    due canonicalize globs error_paths seen e rs -> Forall reported rs.
  Proof.
    intros Fs He. destruct e as [f d|sp p [k|]]; cbn in *.
    - unfold declared_located in He. destruct (item d) as [x|p]; [intros ->; constructor|]. destruct p; try (intros ->; constructor).
      + intros ->. destruct (tag_stack _ _); [destruct He as [b He]; eapply one_report; [exact He|]; exists b, (item t); reflexivity|constructor].
      + intros ->. destruct (meta_stack _ _); [destruct He as [b He]; eapply one_report; [exact He|]; exists b; reflexivity|constructor].
      + intros ->. destruct He as (m & A & B). destruct (glob_of _ _ _) as [[[|]|]|]; first [eapply one_report; [exact A|]; eexists; exact B|constructor].
      + intros ->. destruct (due_report _ _) as [r|] eqn:Q; [|constructor]. constructor; [|constructor]. eapply due_option_located; [|exact He|exact Q]. apply options_located. exact Fs.
    - intros ->. constructor.
    - destruct He as (g & m & A & B). intros [e _| |c sp0 before lh lf _ _ (p0 & k & after & -> & _) _ _ _|lh _ _ _]; try (eapply one_report; [exact A|]; exists g; exact B); [constructor|].
      constructor; [|constructor]. split; cbn; [exists m; split; [exact A|]; exists g; exact B|]. constructor; [|constructor]. eapply offered_place; [exact Fs|]. apply in_app_iff. right. left. reflexivity.
  Qed.
  Lemma dues_located canonicalize globs error_paths : forall seen es rs, dues canonicalize globs error_paths seen es rs ->
    Forall event_located seen -> Forall event_located es -> Forall reported rs.
  Proof.
    intros seen es rs D. induction D as [seen|seen e es rs rs' Du _ IH]; intros Fs Fe; [constructor|]. inversion Fe as [|? ? He Fe']; subst. apply Forall_app. split.
    - exact (due_located _ _ _ _ _ _ Fs He Du).
    - apply IH; [|exact Fe']. apply Forall_app. split; [exact Fs|constructor; [exact He|constructor]].
  Qed.
  Lemma leftover_located es rs : leftover es rs -> Forall event_located es -> Forall reported rs.
  Proof.
    intros (ks & ts & _ & _ & _ & _ & ->) F. apply Forall_app. split; apply Forall_flat_map, Forall_forall.
    - intros k _. pose proof (meta_stack_located k es F) as X. apply Forall_rev in X. destruct (rev (meta_stack k es)) as [|[sp v] l]; [constructor|]. inversion X as [|? ? [A [_ B]] _]; subst.
      eapply one_report; [exact A|exact B].
    - intros t _. pose proof (tag_stack_located t es F) as X. apply Forall_rev in X. apply Forall_map. eapply Forall_impl; [|exact X]. intros x [b Hx]. split; cbn; [eexists; split; [exact Hx|]; exists b, (item x); reflexivity|constructor].
  Qed.
End Declared.

Section Places.
  Context (L : lexer_env) (E : grammar_env) (En : environment_ok E) (UO : unicode_ok (le_unicode L)).
  Context (glob_with : str -> result (list glob_item) str) (canonicalize : path -> option path) (read : path -> result str str).
  Context (Cano : forall p q c d, same_path p q -> canonicalize p = Some c -> canonicalize q = Some d -> same_path c d).
  Context (canonicalize' : path -> option path) (fuel : nat) (root : option path) (content : str) (s : sources).
  Context (Reads : reads_to (includes_of L) glob_with canonicalize read fuel root content s).
  Context (Root : forall p, root = Some p -> canonicalize p <> None).
  Context (toks : list (list rtoken)) (Pn : parser_new L s = Fine (Some toks)) (Fi : forall id f c, In (id, f, c) (content_iter s) -> fine_content L E id c).

  Lemma read_source id f c : In (id, f, c) (content_iter s) -> In (id, f, c) (content_iter s) /\ exists name, source_text s id name c.
  Proof.
    intro Hin. split; [exact Hin|]. pose proof (proj2 (C05_ids _ _ _ _ _ _ _ _ Reads) id f c Hin) as (_ & name & N & X). exists name. split; [exact N|].
    destruct (read_any_spec _ _ _ _ _ _ _ _ Reads) as (log & H). destruct id as [|id].
    - destruct X as (_ & -> & _). symmetry. apply (ra_root_content _ _ _ _ _ _ _ _ H).
    - destruct X as (p & -> & Sp & _). unfold content_iter in Hin. destruct Hin as [Q|Hin]; [discriminate|].
      apply in_flat_map in Hin. destruct Hin as ([p' src] & Hp & Hin). destruct src as [id' c' ci| |]; [|destruct Hin|destruct Hin]. destruct Hin as [Q|[]]. injection Q as -> -> ->.
      pose proof (ra_distinct _ _ _ _ _ _ _ _ H) as Di. apply path_keys_distinct in Di. apply (keys_distinct_lookup path_eqb path_eqb_equiv) in Hp; [|exact Di].
      rewrite (lookup_cong path_eqb path_eqb_equiv name p), Hp; [reflexivity|]. apply path_eqb_eq. unfold same_path in Sp. congruence.
  Qed.

  (** Everything is where it says it is: the directives and what they consist
      of, the options, the plugins, the warnings. *)
  Theorem C53_success : forall directives opts plugins warnings,
    parse E canonicalize' s toks = Fine (Some (Success directives opts plugins warnings)) ->
    Forall (located_directive L (written_at s)) directives /\
    located_options L (written_at s) (g_unicode E) (g_decimal E) opts /\
    Forall (located_plugin L (written_at s)) plugins /\
    Forall (located_report L (written_at s) (g_unicode E) (g_decimal E)) warnings.
  Proof.
    intros directives opts plugins warnings Ps.
    destruct (C03_parse L E En UO _ _ _ Cano canonicalize' _ _ _ _ Reads Root toks Pn Fi) as (xs & r' & po & ds & opts' & plugins' & reports & sorted & Fs & Ob' & Pp & So & X).
    cbn zeta in X. rewrite Ps in X. destruct (flat_map fr_errors xs ++ map C_Report reports) eqn:Ne; [|discriminate]. injection X as -> -> -> ->.
    destruct (d_files L UO E (env_order E En) (written_at s) s eq_refl _ _ _ _ Fs read_source) as (Fd & _ & Fw); [intros m sp Q; discriminate|].
    destruct (shape_of L E _ _ _ Cano canonicalize' _ _ _ _ Reads Root xs r' Fs) as (rootds & b & Sh & Nd).
    rewrite Sh in *. pose proof (pass_spec canonicalize' (included_globs s) (error_paths s) po root [] rootds b Nd) as Y.
    cbn zeta in Y. cbn [app] in Y, Pp, Fd. rewrite Pp in Y. destruct Y as (es & rest & rs & left & W & Y & _ & _ & -> & -> & _).
    inversion Fd as [|? ? Fr Fo]; subst. cbn [snd] in Fr. destruct (proj1 (walk_located L E (written_at s) _) _ _ _ _ _ W Fo Fr) as [Fe _].
    split; [|split; [|split; [|exact Fw]]].
    - apply sort_sorted in So. eapply Permutation_Forall; [exact (sorted_permutation _ _ So)|]. eapply yields_located; [exact Y|constructor|exact Fe].
    - apply option_set_located, options_located. exact Fe.
    - eapply plugins_located. exact Fe.
  Qed.

  (** So are errors, and the warnings beside them. *)
  Theorem C53_failure : forall errors warnings,
    parse E canonicalize' s toks = Fine (Some (Failure errors warnings)) ->
    Forall (located_complaint L E s) errors /\ Forall (located_report L (written_at s) (g_unicode E) (g_decimal E)) warnings.
  Proof.
    intros errors warnings Ps.
    destruct (C03_parse L E En UO _ _ _ Cano canonicalize' _ _ _ _ Reads Root toks Pn Fi) as (xs & r' & po & ds & opts' & plugins' & reports & sorted & Fs & Ob' & Pp & So & X).
    cbn zeta in X. rewrite Ps in X.
    assert (Q : errors = flat_map fr_errors xs ++ map C_Report reports /\ warnings = flat_map fr_warnings xs).
    { destruct (flat_map fr_errors xs ++ map C_Report reports); [discriminate|]. injection X as -> ->. auto. }
    destruct Q as [-> ->]. clear X.
    destruct (d_files L UO E (env_order E En) (written_at s) s eq_refl _ _ _ _ Fs read_source) as (Fd & Fc & Fw); [intros m sp Q; discriminate|].
    split; [|exact Fw]. apply Forall_app. split; [exact Fc|].
    destruct (shape_of L E _ _ _ Cano canonicalize' _ _ _ _ Reads Root xs r' Fs) as (rootds & b & Sh & Nd).
    rewrite Sh in *. pose proof (pass_spec canonicalize' (included_globs s) (error_paths s) po root [] rootds b Nd) as Y.
    cbn zeta in Y. cbn [app] in Y, Pp, Fd. rewrite Pp in Y. destruct Y as (es & rest & rs & left & W & _ & Du & Le & -> & -> & ->).
    inversion Fd as [|? ? Fr Fo]; subst. cbn [snd] in Fr. destruct (proj1 (walk_located L E (written_at s) _) _ _ _ _ _ W Fo Fr) as [Fe _].
    apply Forall_map. apply (Forall_app (located_report L (written_at s) (g_unicode E) (g_decimal E))). split; [eapply dues_located; [exact Du|constructor|exact Fe]|eapply leftover_located; [exact Le|exact Fe]].
  Qed.
End Places.

(** What is written there is what [resolve_span] returns, and on which lines,
    if its last character is in ASCII. *)
Section Resolved.
  Context (L : lexer_env) (glob_with : str -> result (list glob_item) str) (canonicalize : path -> option path) (read : path -> result str str).
  Context (fuel : nat) (root : option path) (content : str) (s : sources) (Reads : reads_to (includes_of L) glob_with canonicalize read fuel root content s).

  Theorem C53_resolved : forall sp text c, written_at s sp (text ++ [c]) -> is_whitespace c = false -> is_ascii c = true ->
    exists name whole before after, source_text s (sp_source sp) name whole /\ whole = before ++ (text ++ [c]) ++ after /\
      resolve_span s sp = Fine (mk_spanned_source (reported_name s (sp_source sp) name)
        (1 + newlines before) (1 + newlines before + newlines (text ++ [c])) (text ++ [c])).
  Proof.
    intros sp text c (name & file & whole & pre & post & T & _ & D) W A. exists name, whole, pre, post. split; [exact T|]. split; [apply D|].
    apply (C31_resolve_span_text s sp name whole pre text c [] post); auto; [eapply C05_tables_consistent; exact Reads|constructor].
  Qed.
End Resolved.

Print Assumptions C53_success.
Print Assumptions C53_failure.
Print Assumptions C53_resolved.

(** ** Cases *)
Definition ex_name : option path := Some (lit "/d/a.bean").
Record ex_ran (content : str) (s : sources) (toks : list (list rtoken)) (r : parsed_as) : Prop := {
  er_reads : reads_to (includes_of P_Lexer.ex_env) ex_glob ex_canonicalize ex_read 5 ex_name content s;
  er_lexed : parser_new P_Lexer.ex_env s = Fine (Some toks);
  er_fine : forall id f c, In (id, f, c) (content_iter s) -> fine_content P_Lexer.ex_env P_Grammar.ex_env id c;
  er_parsed : parse P_Grammar.ex_env ex_canonicalize s toks = Fine (Some r)
}.
Definition ex_run (content : str) (check : sources -> parsed_as -> bool) : bool :=
  match read_with_includes (includes_of P_Lexer.ex_env) ex_glob ex_canonicalize ex_read 5 ex_name content with
  | Some s => forallb (fun x => check_content P_Lexer.ex_env P_Grammar.ex_env (fst (fst x)) (snd x)) (content_iter s) &&
              match parser_new P_Lexer.ex_env s with
              | Fine (Some toks) => match parse P_Grammar.ex_env ex_canonicalize s toks with Fine (Some r) => check s r | _ => false end
              | _ => false
              end
  | None => false
  end.
Lemma ex_run_ok content check : ex_run content check = true -> exists s toks r, ex_ran content s toks r /\ check s r = true.
Proof.
  unfold ex_run. destruct (read_with_includes _ _ _ _ _ _ content) as [s|] eqn:Rd; [|discriminate]. rewrite andb_true_iff. intros [Fi X].
  destruct (parser_new P_Lexer.ex_env s) as [[toks|]|] eqn:Pn; [|discriminate|discriminate].
  destruct (parse P_Grammar.ex_env ex_canonicalize s toks) as [[r|]|] eqn:Ps; [|discriminate|discriminate].
  exists s, toks, r. split; [|exact X]. split; auto.
  - exists s. repeat split; auto.
  - intros id f c Hin. rewrite forallb_forall in Fi. apply check_content_ok. exact (Fi _ Hin).
Qed.
(** The text, and the lines it is on. *)
Definition resolves_to (s : sources) (sp : span) (first last : nat) (text : str) : bool :=
  match resolve_span s sp with
  | Fine r => (ss_start_line r =? first) && (ss_end_line r =? last) && str_eqb (ss_content r) text
  | Panic => false
  end.

(** The hypotheses are met, with and without errors. *)
Lemma ex_unicode : unicode_ok (le_unicode P_Lexer.ex_env).
Proof. exact P_Lexer.arabic_ok. Qed.
Definition ex_line (s : string) : str := lit s ++ [10%N].
Definition ex_ledger : str :=
  ex_line "option ""name_assets"" ""Actifs""" ++ ex_line "pushtag #trip" ++ ex_line "pushmeta source: ""paper""" ++ ex_line "option ""title"" ""My \""title\""""" ++
  ex_line "include ""b.bean""" ++ ex_line "plugin ""p"" ""c""" ++
  ex_line "2024-02-29 * ""Some words""" ++ ex_line "  ! Actifs:Cash  -1,234.50 USD" ++ ex_line "popmeta source:" ++ ex_line "poptag #trip".
Example ex_success : exists s toks directives opts plugins warnings,
  ex_ran ex_ledger s toks (Success directives opts plugins warnings) /\
  Forall (located_directive P_Lexer.ex_env (written_at s)) directives /\ List.length directives = 3.
Proof.
  assert (X : ex_run ex_ledger (fun s r => match r with Success ds _ _ _ => List.length ds =? 3 | _ => false end) = true) by (vm_compute; reflexivity).
  apply ex_run_ok in X. destruct X as (s & toks & [ds opts plugins ws|] & [A B C D] & X); [|discriminate]. apply Nat.eqb_eq in X.
  exists s, toks, ds, opts, plugins, ws. split; [split; assumption|]. split; [|exact X].
  refine (proj1 (C53_success _ _ ex_environment ex_unicode _ _ _ _ _ _ _ _ _ A _ _ B C _ _ _ _ D)).
  - unfold ex_canonicalize. intros p q x y Sp Q Q'. injection Q as <-. injection Q' as <-. exact Sp.
  - discriminate.
Qed.
Example ex_failure : exists s toks errors warnings,
  ex_ran (ex_ledger ++ ex_line "poptag #trip" ++ ex_line "option ""title"" ""x""" ++ ex_line "what" ++ ex_line "2024-01-01 commodity USD") s toks (Failure errors warnings) /\
  Forall (located_complaint P_Lexer.ex_env P_Grammar.ex_env s) errors /\ List.length errors = 3.
Proof.
  assert (X : ex_run (ex_ledger ++ ex_line "poptag #trip" ++ ex_line "option ""title"" ""x""" ++ ex_line "what" ++ ex_line "2024-01-01 commodity USD")
    (fun s r => match r with Failure es _ => List.length es =? 3 | _ => false end) = true) by (vm_compute; reflexivity).
  apply ex_run_ok in X. destruct X as (s & toks & [|es ws] & [A B C D] & X); [discriminate|]. apply Nat.eqb_eq in X.
  exists s, toks, es, ws. split; [split; assumption|]. split; [|exact X].
  refine (proj1 (C53_failure _ _ ex_environment ex_unicode _ _ _ _ _ _ _ _ _ A _ _ B C _ _ D)).
  - unfold ex_canonicalize. intros p q x y Sp Q Q'. injection Q as <-. injection Q' as <-. exact Sp.
  - discriminate.
Qed.

(** A value which is not given, where the line goes on with blanks: its span is
    no place, and it is said to be on the first line. *)
Definition ex_blank : str := ex_line "2024-01-01 open Assets:Cash" ++ ex_line "  key:   ".
Definition check_blank (s : sources) (r : parsed_as) : bool :=
  match r with
  | Success [d] _ _ _ =>
      match md_key_values (item (dir_metadata (item d))) with
      | [(k, v)] => resolves_to s (span_of k) 2 2 (lit "key") && resolves_to s (span_of v) 1 1 [] &&
                    (sp_end (span_of v) <? sp_start (span_of v))
      | _ => false
      end
  | _ => false
  end.
Lemma reversed_no_place s sp : sp_end sp < sp_start sp -> ~ place (written_at s) sp.
Proof. intros H (m & name & file & content & pre & post & _ & _ & _ & A & B). lia. Qed.
Lemma resolves_to_ok s sp a b text : resolves_to s sp a b text = true ->
  exists r, resolve_span s sp = Fine r /\ ss_start_line r = a /\ ss_end_line r = b /\ ss_content r = text.
Proof.
  unfold resolves_to. destruct (resolve_span s sp) as [r|]; [|discriminate]. rewrite !andb_true_iff. intros [[A B] C].
  apply Nat.eqb_eq in A, B. apply str_eqb_eq in C. exists r. auto.
Qed.
Theorem C53_missing_value_refuted : exists s toks d opts plugins warnings k v r r',
  ex_ran ex_blank s toks (Success [d] opts plugins warnings) /\
  md_key_values (item (dir_metadata (item d))) = [(k, v)] /\ ~ place (written_at s) (span_of v) /\
  resolve_span s (span_of k) = Fine r /\ ss_start_line r = 2 /\ ss_content r = lit "key" /\
  resolve_span s (span_of v) = Fine r' /\ ss_start_line r' = 1 /\ ss_content r' = [].
Proof.
  assert (X : ex_run ex_blank check_blank = true) by (vm_compute; reflexivity).
  apply ex_run_ok in X. destruct X as (s & toks & [[|d [|? ?]] opts plugins ws|] & Ran & X); try discriminate. unfold check_blank in X.
  destruct (md_key_values (item (dir_metadata (item d)))) as [|[k v] [|? ?]] eqn:Q; try discriminate. rewrite !andb_true_iff in X. destruct X as [[X Y] Z].
  apply Nat.ltb_lt in Z. apply resolves_to_ok in X, Y. destruct X as (r & A & B & _ & C). destruct Y as (r' & A' & B' & _ & C').
  exists s, toks, d, opts, plugins, ws, k, v, r, r'. split; [exact Ran|]. split; [exact Q|]. split; [exact (reversed_no_place _ _ Z)|]. auto 10.
Qed.
Print Assumptions C53_missing_value_refuted.
