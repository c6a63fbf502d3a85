(** * Facts for C81: what becomes of declarations under other names *)
From Coq Require Import String Ascii.
From Coq Require Import List NArith ZArith Arith Bool Lia Permutation.
From Verif Require Import Base BaseFacts Path Sources Types SpecTypes SpecSort Options SpecOptions OptionsFacts Pragma SpecPragma PragmaRun Token Grammar SpecGrammar SpecDirective SpecWhole Parse SpecParse
  AlikeWalk SpecPaste Paste P_Paste SpecAppend P_Parse Append SpecRename Rename RenameRun SpecNames Names.
Import SpecPragma.
Import ListNotations.
Local Open Scope nat_scope.

Definition name_event (n : naming) (e : event) : event :=
  match e with Declared f d => Declared f (in_place (name_declaration n) d) | Offered _ _ _ => e end.

Section Events.
  Context (U : unicode) (n : naming) (Fa : faithful U n).
  Local Notation nm := (in_place (name_declaration n)).
  Local Notation nme := (name_event n).

  Lemma eqb_named f x y : injective f -> str_eqb (f x) (f y) = str_eqb x y.
  Proof.
    intro Jn. destruct (str_eqb x y) eqn:X.
    - apply str_eqb_eq in X. subst y. apply str_eqb_eq. reflexivity.
    - destruct (str_eqb (f x) (f y)) eqn:Y; [|reflexivity]. apply str_eqb_eq in Y. apply Jn in Y. subst y. rewrite (proj2 (str_eqb_eq x x) eq_refl) in X. discriminate.
  Qed.
  Let Jt := proj1 (fa_tag _ _ Fa).
  Let Jk := proj1 (fa_key _ _ Fa).

  Lemma named_plain ds : Forall (fun d => is_include (item d) = false) ds -> Forall (fun d => is_include (item d) = false) (map nm ds).
  Proof. intro F. induction F as [|d ds H F IH]; constructor; auto. destruct d as [[x|[]] sp]; cbn in *; auto. Qed.
  Lemma named_tags t es : tag_stack (on_tag n t) (map nme es) = map (in_place (on_tag n)) (tag_stack t es).
  Proof.
    unfold tag_stack. change (@nil (spanned str)) with (map (in_place (on_tag n)) []) at 1. generalize (@nil (spanned str)) as st. induction es as [|e es IH]; intro st; [reflexivity|]. cbn [map fold_left]. rewrite <- IH. f_equal.
    destruct e as [f [[x|[]] sp]|]; try reflexivity; cbn; rewrite (eqb_named _ _ _ Jt); destruct (str_eqb _ _); try reflexivity. destruct st; reflexivity.
  Qed.
  Lemma only_named_tags u es : tag_stack u (map nme es) = [] \/ exists t, u = on_tag n t.
  Proof.
    unfold tag_stack. enough (G : forall st, st = [] \/ (exists t, u = on_tag n t) -> fold_left (tag_effect u) (map nme es) st = [] \/ exists t, u = on_tag n t) by (apply G; auto). induction es as [|e es IH]; intros st X; [exact X|].
    cbn [map fold_left]. apply IH. destruct e as [f [[x|[]] sp]|]; cbn; auto; destruct (str_eqb _ _) eqn:Q; auto.
    - apply str_eqb_eq in Q. right. eauto.
    - destruct X as [->|X]; auto.
  Qed.
  Local Notation nm_push := (fun x : span * spanned meta_value => (fst x, in_place (name_value n) (snd x))).
  Lemma named_metas k es : meta_stack (on_key n k) (map nme es) = map nm_push (meta_stack k es).
  Proof.
    unfold meta_stack. change (@nil (span * spanned meta_value)) with (map nm_push []) at 1. generalize (@nil (span * spanned meta_value)) as st.
    induction es as [|e es IH]; intro st; [reflexivity|]. cbn [map fold_left]. rewrite <- IH. f_equal.
    destruct e as [f [[x|[]] sp]|]; try reflexivity; cbn; rewrite (eqb_named _ _ _ Jk); destruct (str_eqb _ _); try reflexivity. destruct st; reflexivity.
  Qed.
  Lemma only_named_metas u es : meta_stack u (map nme es) = [] \/ exists k, u = on_key n k.
  Proof.
    unfold meta_stack. enough (G : forall st, st = [] \/ (exists t, u = on_key n t) -> fold_left (meta_effect u) (map nme es) st = [] \/ exists t, u = on_key n t) by (apply G; auto). induction es as [|e es IH]; intros st X; [exact X|].
    cbn [map fold_left]. apply IH. destruct e as [f [[x|[]] sp]|]; cbn; auto; destruct (str_eqb _ _) eqn:Q; auto.
    - apply str_eqb_eq in Q. right. eauto.
    - destruct X as [->|X]; auto.
  Qed.
  Lemma named_options es : options_of (map nme es) = options_of es.
  Proof. unfold options_of. induction es as [|e es IH]; [reflexivity|]. cbn [map flat_map]. rewrite IH. f_equal. destruct e as [f [[x|[]] sp]|]; reflexivity. Qed.
  Lemma named_plugins es : plugins_of (map nme es) = map (name_plugin n) (plugins_of es).
  Proof. unfold plugins_of. induction es as [|e es IH]; [reflexivity|]. cbn [map flat_map]. rewrite IH, map_app. f_equal. destruct e as [f [[x|[]] sp]|]; reflexivity. Qed.
  Lemma named_leftover es : leftover es [] -> leftover (map nme es) [].
  Proof.
    rewrite !leftover_none. intros [T K]. split; intro x.
    - destruct (only_named_tags x es) as [H|(t & ->)]; [exact H|]. rewrite named_tags, T. reflexivity.
    - destruct (only_named_metas x es) as [H|(t & ->)]; [exact H|]. rewrite named_metas, K. reflexivity.
  Qed.
  Lemma named_same_value a b : same_meta_value a b -> same_meta_value (name_value n a) (name_value n b).
  Proof.
    intros [x y S|x y sa sb c sd se S|v N]; cbn.
    - constructor. exact S.
    - unfold name_amount. cbn. unfold in_place. cbn. constructor. exact S.
    - destruct v; try (exfalso; eapply N; reflexivity); constructor; discriminate.
  Qed.
  Lemma named_context a b : same_context a b -> same_context (map nme a) (map nme b).
  Proof.
    intros [T M]. split.
    - intro u. destruct (only_named_tags u a) as [A|(t & ->)]; [|rewrite !named_tags, !map_length; apply T].
      destruct (only_named_tags u b) as [B|(t & ->)]; [rewrite A, B; reflexivity|rewrite !named_tags, !map_length; apply T].
    - assert (G : forall k, Forall2 (fun x y => fst x = fst y /\ same_meta_value (item (snd x)) (item (snd y))) (meta_stack (on_key n k) (map nme a)) (meta_stack (on_key n k) (map nme b))).
      { intro k. rewrite !named_metas. specialize (M k). induction M as [|x y l l' [Q V] M IH]; cbn; constructor; [|exact IH]. cbn. split; [exact Q|]. apply named_same_value. exact V. }
      intro u. destruct (only_named_metas u a) as [A|(k & ->)]; [|apply G]. destruct (only_named_metas u b) as [B|(k & ->)]; [rewrite A, B; constructor|apply G].
  Qed.
  Lemma named_entered canonicalize c seen sp before : last_entered canonicalize c seen sp before -> last_entered canonicalize c (map nme seen) sp (map nme before).
  Proof.
    intros (p & k & after & -> & Is & No). exists p, k, (map nme after). split; [rewrite map_app; reflexivity|]. split; [exact Is|].
    intros s1 p1 k1 Hin. apply in_map_iff in Hin. destruct Hin as ([|] & Q & Hin); [discriminate|]. cbn in Q. injection Q as -> -> ->. exact (No _ _ _ Hin).
  Qed.
  Lemma named_due canonicalize globs errors seen e : due canonicalize globs errors seen e [] -> due canonicalize globs errors (map nme seen) (nme e) [].
  Proof.
    intro De. destruct e as [f [[x|[]] sp]|sp p [k|]]; cbn in De |- *; auto.
    - rewrite named_tags. destruct (tag_stack (item t) seen); [discriminate|reflexivity].
    - rewrite named_metas. destruct (meta_stack (item k) seen); [discriminate|reflexivity].
    - rewrite named_options. exact De.
    - inversion De as [|c sp0 before X Ca La Sa| |]; subst. eapply due_harmless; [exact X|exact Ca|apply named_entered; exact La|apply named_context; exact Sa].
  Qed.
  Lemma named_dues canonicalize globs errors seen es : dues canonicalize globs errors seen es [] -> dues canonicalize globs errors (map nme seen) (map nme es) [].
  Proof.
    intro D. remember (@nil report) as rs eqn:Q in D. revert Q. induction D as [seen|seen e es rs rs' De D IH]; intro Q; [constructor|].
    apply app_eq_nil in Q. destruct Q as [-> ->]. cbn [map]. change (@nil report) with (@nil report ++ []). constructor; [apply named_due; exact De|].
    specialize (IH eq_refl). rewrite map_app in IH. exact IH.
  Qed.

  Lemma in_named {A} (f : A -> A) (x : spanned A) l : In x (map (in_place f) l) <-> exists y, x = in_place f y /\ In y l.
  Proof. rewrite in_map_iff. split; intros (y & Q & H); eauto. Qed.
  Local Notation nm_kv := (fun x : spanned str * spanned meta_value => (in_place (on_key n) (fst x), in_place (name_value n) (snd x))).
  Lemma in_named_pair k v kvs : In (k, v) (map nm_kv kvs) <-> exists k0 u, k = in_place (on_key n) k0 /\ v = in_place (name_value n) u /\ In (k0, u) kvs.
  Proof.
    rewrite in_map_iff. split.
    - intros ([k0 u] & Q & H). cbn in Q. injection Q as <- <-. eauto.
    - intros (k0 & u & -> & -> & H). exists (k0, u). auto.
  Qed.
  Lemma items_named f (l : list (spanned str)) : map item (map (in_place f) l) = map f (map item l).
  Proof. rewrite !map_map. reflexivity. Qed.
  Lemma keys_named kvs : map (fun e : spanned str * spanned meta_value => item (fst e)) (map nm_kv kvs) = map (on_key n) (map (fun e => item (fst e)) kvs).
  Proof. rewrite !map_map. reflexivity. Qed.
  Lemma in_injective f (x : str) l : injective f -> In (f x) (map f l) <-> In x l.
  Proof. intro Jn. split; [|apply in_map]. intro H. apply in_map_iff in H. destruct H as (y & Q & H). apply Jn in Q. subst y. exact H. Qed.
  Lemma nodup_injective f (l : list str) : injective f -> NoDup l -> NoDup (map f l).
  Proof. intros Jn N. induction N as [|x l X N IH]; cbn; constructor; [|exact IH]. rewrite in_injective by exact Jn. exact X. Qed.
  Lemma stack_item t seen x : In x (tag_stack t seen) -> item x = t.
  Proof. apply tag_stack_item. Qed.

  Lemma named_augmented seen d d' : augmented seen d d' -> augmented (map nme seen) (name_directive n d) (name_directive n d').
  Proof.
    intros [a b c e F G H K]. constructor; cbn.
    - f_equal. exact a.
    - f_equal. exact b.
    - exact c.
    - f_equal. exact e.
    - intro t. rewrite !in_named, items_named. split.
      + intros (y & -> & Hy). apply F in Hy. destruct Hy as [Hy|[N Hd]]; [left; eauto|right]. cbn. rewrite in_injective by exact Jt. split; [exact N|]. rewrite named_tags. destruct (tag_stack (item y) seen); [discriminate|]. cbn in *. injection Hd as ->. reflexivity.
      + intros [(y & -> & Hy)|[N Hd]]; [exists y; split; [reflexivity|apply F; left; exact Hy]|].
        destruct (only_named_tags (item t) seen) as [Q|(u & Q)]; [rewrite Q in Hd; discriminate|]. rewrite Q, named_tags in Hd. destruct (tag_stack u seen) as [|y st] eqn:X; [discriminate|]. cbn in Hd. injection Hd as <-.
        assert (Qy : item y = u) by (apply (stack_item u seen); rewrite X; left; reflexivity).
        exists y. split; [reflexivity|]. apply F. right. cbn in N. rewrite in_injective in N by exact Jt. split; [exact N|]. rewrite Qy, X. reflexivity.
    - intros k v. rewrite !in_named_pair, keys_named. split.
      + intros (k0 & u & -> & -> & Hu). apply G in Hu. destruct Hu as [Hu|[N Hd]]; [left; eauto 6|right]. cbn. rewrite in_injective by exact Jk. split; [exact N|]. rewrite named_metas. destruct (meta_stack (item k0) seen); [discriminate|]. cbn in *. injection Hd as ->. reflexivity.
      + intros [(k0 & u & -> & -> & Hu)|[N Hd]]; [exists k0, u; split; [reflexivity|split; [reflexivity|apply G; left; exact Hu]]|].
        destruct (only_named_metas (item k) seen) as [Q|(k1 & Q)]; [rewrite Q in Hd; discriminate|]. rewrite Q, named_metas in Hd. destruct (meta_stack k1 seen) as [|[sp u] st] eqn:X; [discriminate|]. cbn in Hd. injection Hd as Hs <-.
        exists (mk_spanned k1 (span_of k)), u. split; [destruct k as [k2 sk]; cbn in Q; subst k2; reflexivity|]. split; [reflexivity|]. apply G. right. cbn. rewrite Q in N. rewrite in_injective in N by exact Jk. split; [exact N|]. rewrite X, <- Hs. reflexivity.
    - rewrite !items_named. intro N. apply nodup_injective; [exact Jt|]. apply H. apply NoDup_map_inv in N. exact N.
    - rewrite !keys_named. intro N. apply nodup_injective; [exact Jk|]. apply K. apply NoDup_map_inv in N. exact N.
  Qed.
  Lemma named_yields seen es ys : yields seen es ys -> yields (map nme seen) (map nme es) (map (in_place (name_directive n)) ys).
  Proof.
    intro Y. induction Y as [seen|seen e es d x ds Ad Au Sp Y IH|seen e es ds Ad Y IH]; cbn [map]; [constructor| |].
    - rewrite map_app in IH. destruct e as [f [[z|[]] sp]|]; try discriminate. cbn in Ad. injection Ad as <-.
      eapply yields_directive with (d := mk_spanned (name_directive n z) sp); [reflexivity|apply named_augmented; exact Au|exact Sp|exact IH].
    - rewrite map_app in IH. apply yields_other; [|exact IH]. destruct e as [f [[z|[]] sp]|]; try discriminate; reflexivity.
  Qed.

  (** ** The order of processing *)
  Definition name_file (x : option path * list (spanned declaration)) : option path * list (spanned declaration) := (fst x, map nm (snd x)).
  Lemma named_takes t p k ds t1 : takes t p k ds t1 -> takes (map name_file t) p k (map nm ds) (map name_file t1).
  Proof. intros (a & b & -> & -> & Sp). exists (map name_file a), (map name_file b). rewrite !map_app. auto. Qed.
  Lemma named_absent t p : absent t p -> absent (map name_file t) p.
  Proof. intros A k ds Hin. apply in_map_iff in Hin. destruct Hin as ([f ds0] & Q & Hin). unfold name_file in Q. cbn in Q. injection Q as -> _. exact (A _ _ Hin). Qed.
  Lemma named_offers sp t ps es fs t1 : offers sp t ps es fs t1 -> offers sp (map name_file t) ps (map nme es) (map name_file fs) (map name_file t1).
  Proof.
    induction 1 as [t|t p ps k ds t1 es fs t2 Tk O IH|t p ps es fs t1 Ab O IH]; cbn [map].
    - constructor.
    - eapply offers_enter; [apply named_takes; exact Tk|exact IH].
    - apply offers_skip; [apply named_absent; exact Ab|exact IH].
  Qed.
  Lemma named_walk globs :
    (forall t f ds es t1, walk globs t f ds es t1 -> walk globs (map name_file t) f (map nm ds) (map nme es) (map name_file t1)) /\
    (forall t fs es t1, walks globs t fs es t1 -> walks globs (map name_file t) (map name_file fs) (map nme es) (map name_file t1)).
  Proof.
    apply walk_walks_ind.
    - intros. constructor.
    - intros t f d ds es t1 Ni W IH. cbn [map]. constructor; [|exact IH]. destruct d as [[x|[]] sp]; cbn in *; auto.
    - intros t f d text ds g offered fs t1 es1 t2 es2 t3 It Gl Of W1 IH1 W2 IH2. cbn [map]. rewrite !map_app. rewrite map_rev in IH1.
      eapply walk_include; [|exact Gl|apply named_offers; exact Of|exact IH1|exact IH2]. cbn. rewrite It. reflexivity.
    - intros. constructor.
    - intros t f ds fs es1 t1 es2 t2 W IH W' IH'. cbn [map]. rewrite map_app. econstructor; eassumption.
  Qed.
End Events.

(** ** Dates *)
Definition dates_of (ds : list (spanned directive)) : list date := map (fun d => item (dir_date (item d))) ds.

Lemma before_irrefl d : ~ before d d.
Proof. unfold before. lia. Qed.
Lemma before_asym x y : before x y -> ~ before y x.
Proof. unfold before. lia. Qed.
Lemma before_cases x y : before x y \/ x = y \/ before y x.
Proof.
  destruct x as [a b c], y as [a' b' c']. unfold before. cbn.
  destruct (N.lt_trichotomy a a') as [|[->|]]; [left; lia| |right; right; lia].
  destruct (N.lt_trichotomy b b') as [|[->|]]; [left; lia| |right; right; lia].
  destruct (N.lt_trichotomy c c') as [|[->|]]; [left; lia|right; left; reflexivity|right; right; lia].
Qed.
Lemma keeps_both f l x y : keeps_order f l -> In x l -> In y l -> (before (f x) (f y) <-> before x y) /\ (f x = f y <-> x = y).
Proof.
  intros Kp X Y. pose proof (Kp x y X Y) as A. pose proof (Kp y x Y X) as B. pose proof (before_irrefl (f x)) as Ir. pose proof (before_asym (f x) (f y)) as As.
  destruct (before_cases x y) as [H|[->|H]].
  - specialize (A H). split; (split; intro Q); [exact H|exact A|rewrite Q in A; destruct (before_irrefl _ A)|subst; destruct (before_irrefl _ H)].
  - split; (split; intro Q); [destruct (Ir Q)|destruct (before_irrefl _ Q)|reflexivity|reflexivity].
  - specialize (B H). split; (split; intro Q); [destruct (As Q B)|destruct (before_asym _ _ Q H)|rewrite Q in B; destruct (before_irrefl _ B)|subst; destruct (before_irrefl _ H)].
Qed.
Lemma keeps_fewer f l l' : incl l l' -> keeps_order f l' -> keeps_order f l.
Proof. intros In H x y X Y. apply H; apply In; assumption. Qed.

Lemma named_sorted n l out : keeps_order (on_date n) (dates_of l) -> sorted_from l out -> sorted_from (map (in_place (name_directive n)) l) (map (in_place (name_directive n)) out).
Proof.
  intros Kp (pi & P & M & H). exists pi. split; [rewrite map_length; exact P|]. split.
  - transitivity (map (option_map (in_place (name_directive n))) (map (nth_error l) pi)).
    + rewrite map_map. apply map_ext. intro p. apply nth_error_map.
    + rewrite M, !map_map. reflexivity.
  - intros i j x y (Lt & Hx & Hy). rewrite nth_error_map in Hx, Hy.
    destruct (nth_error out i) as [x0|] eqn:X; [|discriminate]. destruct (nth_error out j) as [y0|] eqn:Y; [|discriminate]. cbn in Hx, Hy. injection Hx as <-. injection Hy as <-.
    destruct (H i j x0 y0 (conj Lt (conj X Y))) as [A B].
    assert (From : forall i z, nth_error out i = Some z -> In (item (dir_date (item z))) (dates_of l)).
    { intros i0 z Hz. apply nth_error_In in Hz. apply (in_map Some) in Hz. rewrite <- M in Hz. apply in_map_iff in Hz. destruct Hz as (p & Hp & _).
      apply nth_error_In in Hp. unfold dates_of. apply (in_map (fun d => item (dir_date (item d)))) in Hp. exact Hp. }
    assert (MP : forall u v, In (item (dir_date u)) (dates_of l) -> In (item (dir_date v)) (dates_of l) -> must_precede (name_directive n u) (name_directive n v) <-> must_precede u v).
    { assert (O : forall d, is_open (name_directive n d) <-> is_open d).
      { intros [? ? v]. unfold is_open. cbn. destruct v; cbn; split; intros H0; repeat match goal with H1 : exists _, _ |- _ => destruct H1 end; try discriminate; eauto. }
      assert (Bl : forall d, is_balance (name_directive n d) <-> is_balance d).
      { intros [? ? v]. unfold is_balance. cbn. destruct v; cbn; split; intros H0; repeat match goal with H1 : exists _, _ |- _ => destruct H1 end; try discriminate; eauto. }
      intros u v Hu Hv. unfold must_precede. rewrite !O, !Bl. cbn [name_directive dir_date in_place item]. destruct (keeps_both _ _ _ _ Kp Hu Hv) as [Q1 Q2]. rewrite Q1, Q2. reflexivity. }
    pose proof (From _ _ X) as Fx. pose proof (From _ _ Y) as Fy.
    cbn. split; [rewrite MP by assumption; exact A|]. intro T. apply B. unfold tied in *. rewrite !MP in T by assumption. exact T.
Qed.

Lemma date_among I i j d : written I (date_at I) i j d -> In (item d) (dates_in (map fst (in_tokens I))).
Proof.
  intros [D _]. destruct d as [d sp]. cbn in *. destruct D as [d [r T]]. apply nth_error_In in T. unfold dates_in. apply in_flat_map. exists (T_Date d).
  split; [apply (in_map fst) in T; exact T|left; reflexivity].
Qed.
Lemma directive_among E I names i j d es : directive_at E I names i j d es -> In (item (dir_date d)) (dates_in (map fst (in_tokens I))).
Proof. intro D. destruct D; cbn; eapply date_among; eassumption. Qed.
Lemma whole_among E I names i j d es : whole_at E I names i j d es -> In (item (dir_date d)) (dates_in (map fst (in_tokens I))).
Proof. intro W. destruct W; eapply directive_among; eassumption. Qed.
Definition dated (l : list date) (d : spanned declaration) : Prop := match item d with D_Directive x => In (item (dir_date x)) l | _ => True end.
Lemma tiles_among E I file r i ds es ws r' : tiles E I file r i ds es ws r' -> Forall (dated (dates_in (map fst (in_tokens I)))) ds.
Proof.
  intro T. induction T as [r i F|r i j d es r1 ds es' ws r' D T IH]; constructor; [|exact IH].
  destruct D; cbn; [eapply whole_among; eassumption|exact Logic.I|exact Logic.I].
Qed.
Definition dated_event (l : list date) (e : event) : Prop := match e with Declared _ d => dated l d | Offered _ _ _ => True end.
Lemma yields_among l es : Forall (dated_event l) es -> forall seen ys, yields seen es ys -> incl (dates_of ys) l.
Proof.
  intro F. induction F as [|d ds Hd F IH]; intros seen ys Y; inversion Y as [|? ? ? x x' ys' As Au Sp Y'|? ? ? ? As Y']; subst; [intros ? []| |eapply IH; exact Y'].
  destruct d as [f [[z|[]] sp]|]; try discriminate. cbn in As, Hd. injection As as <-. intros t [<-|H]; [|eapply IH; eassumption].
  rewrite (aug_date _ _ _ Au). exact Hd.
Qed.

(** All that is processed is in one of the files. *)
Section Among.
  Context (P : spanned declaration -> Prop).
  Definition file_all (x : option path * list (spanned declaration)) : Prop := Forall P (snd x).
  Definition event_all (e : event) : Prop := match e with Declared _ d => P d | Offered _ _ _ => True end.
  Lemma offers_all sp t ps es fs t1 : offers sp t ps es fs t1 -> Forall file_all t -> Forall event_all es /\ Forall file_all fs /\ Forall file_all t1.
  Proof.
    induction 1 as [t|t p ps k ds t1 es fs t2 (a & b & -> & -> & _) O IH|t p ps es fs t1 Ab O IH]; intro F.
    - auto.
    - apply Forall_app in F. destruct F as [Fa Fb]. inversion Fb as [|? ? Fd Fr]; subst. destruct IH as (A & B & C); [apply Forall_app; auto|].
      split; [constructor; [exact Logic.I|exact A]|]. split; [constructor; assumption|exact C].
    - destruct (IH F) as (A & B & C). split; [constructor; [exact Logic.I|exact A]|]. auto.
  Qed.
  Lemma walk_all globs :
    (forall t f ds es t1, walk globs t f ds es t1 -> Forall file_all t -> Forall P ds -> Forall event_all es /\ Forall file_all t1) /\
    (forall t fs es t1, walks globs t fs es t1 -> Forall file_all t -> Forall file_all fs -> Forall event_all es /\ Forall file_all t1).
  Proof.
    apply walk_walks_ind.
    - auto.
    - intros t f d ds es t1 Ni W IH F D. inversion D; subst. destruct (IH F) as [A B]; [assumption|]. split; [constructor; assumption|exact B].
    - intros t f d text ds g offered fs t1 es1 t2 es2 t3 It Gl Of W1 IH1 W2 IH2 F D. inversion D; subst.
      destruct (offers_all _ _ _ _ _ _ Of F) as (A & B & C). destruct (IH1 C) as [A1 B1]; [apply Forall_rev; exact B|]. destruct (IH2 B1) as [A2 B2]; [assumption|].
      split; [|exact B2]. constructor; [assumption|]. apply Forall_app. split; [exact A|]. apply Forall_app. auto.
    - auto.
    - intros t f ds fs es1 t1 es2 t2 W IH W' IH' F D. inversion D; subst. destruct (IH F) as [A B]; [assumption|]. destruct (IH' B) as [A' B']; [assumption|].
      split; [apply Forall_app; auto|exact B'].
  Qed.
End Among.
