(** * Facts for C87: numbers replaced in several files *)
From Coq Require Import String Ascii.
From Coq Require Import List NArith ZArith Arith Bool Lia Permutation.
From Verif Require Import Base BaseFacts Path Sources Types SpecTypes SpecSort Options SpecOptions OptionsFacts Pragma SpecPragma PragmaRun Token Lexer Grammar SpecGrammar SpecDirective SpecWhole Parse SpecParse P_File
  AlikeFile AlikeWalk SpecPaste Paste P_Paste SpecAppend P_Parse Append Local P_Complete SpecRename SpecNumbers Numbers NumbersRun.
Import SpecPragma.
Import ListNotations.
Local Open Scope nat_scope.

(** ** What is processed *)
Definition number_event (E : grammar_env) (nu : decimal -> decimal) (e : event) : event :=
  match e with Declared f d => Declared f (in_place (number_declaration E nu) d) | Offered _ _ _ => e end.
Section Events.
  Context (E : grammar_env) (nu : decimal -> decimal).
  Local Notation nm := (in_place (number_declaration E nu)).
  Local Notation nme := (number_event E nu).
  Local Notation nm_push := (fun x : span * spanned meta_value => (fst x, in_place (number_meta (g_ops E) nu) (snd x))).

  Lemma any_tags t es : tag_stack t (map nme es) = tag_stack t es.
  Proof.
    unfold tag_stack. generalize (@nil (spanned str)) as st. induction es as [|e es IH]; intro st; [reflexivity|]. cbn [map fold_left]. rewrite IH. f_equal.
    destruct e as [f [[x|[]] sp]|]; reflexivity.
  Qed.
  Lemma any_metas k es : meta_stack k (map nme es) = map nm_push (meta_stack k es).
  Proof.
    unfold meta_stack. change (@nil (span * spanned meta_value)) with (map nm_push []) at 1. generalize (@nil (span * spanned meta_value)) as st.
    induction es as [|e es IH]; intro st; [reflexivity|]. cbn [map fold_left]. rewrite <- IH. f_equal.
    destruct e as [f [[x|[]] sp]|]; try reflexivity; cbn; destruct (str_eqb _ _); try reflexivity. destruct st; reflexivity.
  Qed.
  Lemma any_options es : options_of (map nme es) = options_of es.
  Proof. unfold options_of. induction es as [|e es IH]; [reflexivity|]. cbn [map flat_map]. rewrite IH. f_equal. destruct e as [f [[x|[]] sp]|]; reflexivity. Qed.
  Lemma any_plugins es : plugins_of (map nme es) = plugins_of es.
  Proof. unfold plugins_of. induction es as [|e es IH]; [reflexivity|]. cbn [map flat_map]. rewrite IH. f_equal. destruct e as [f [[x|[]] sp]|]; reflexivity. Qed.
  Lemma any_leftover es : leftover es [] -> leftover (map nme es) [].
  Proof. rewrite !leftover_none. intros [T K]. split; intro x; [rewrite any_tags; apply T|rewrite any_metas, K; reflexivity]. Qed.
  (** The pushes at one place are of one value. *)
  Definition one_push (es : list event) : Prop := forall f d x f' d' x', In (Declared f d) es -> In (Declared f' d') es ->
    item d = D_Pragma (P_Pushmeta x) -> item d' = D_Pragma (P_Pushmeta x') -> span_of (mkv_key x) = span_of (mkv_key x') -> mkv_value x = mkv_value x'.
  Lemma one_push_fewer es es' : (forall e, In e es' -> In e es) -> one_push es -> one_push es'.
  Proof. intros H O f d x f' d' x' A B. apply (O f d x f' d' x'); apply H; assumption. Qed.
  Lemma stack_pushed k es sp v : In (sp, v) (meta_stack k es) -> exists f d x, In (Declared f d) es /\ item d = D_Pragma (P_Pushmeta x) /\ span_of (mkv_key x) = sp /\ mkv_value x = v.
  Proof.
    unfold meta_stack.
    assert (G : forall st, In (sp, v) (fold_left (meta_effect k) es st) -> In (sp, v) st \/ exists f d x, In (Declared f d) es /\ item d = D_Pragma (P_Pushmeta x) /\ span_of (mkv_key x) = sp /\ mkv_value x = v).
    { induction es as [|e es IH]; intros st H; [left; exact H|]. cbn [fold_left] in H. apply IH in H. destruct H as [H|(f & d & x & H)]; [|right; exists f, d, x; cbn [In]; tauto].
      destruct e as [f d|]; [|left; exact H]. cbn [meta_effect] in H. destruct (item d) as [z|[]] eqn:Q; try (left; exact H).
      - destruct (str_eqb _ _); [|left; exact H]. destruct H as [H|H]; [|left; exact H]. injection H as <- <-. right. eexists f, d, _. split; [left; reflexivity|]. split; [exact Q|]. split; reflexivity.
      - destruct (str_eqb _ _); [|left; exact H]. left. destruct st; [exact H|right; exact H]. }
    intro H. destruct (G [] H) as [[]|X]. exact X.
  Qed.
  Lemma same_value_refl v : same_meta_value v v.
  Proof.
    assert (X : forall e, same_expr e e) by (induction e; constructor; auto; reflexivity).
    destruct v as [v|[[m a] [c b]]]; [|constructor; split; [reflexivity|apply X]]. destruct v; constructor; try discriminate. split; [reflexivity|apply X].
  Qed.
  Lemma any_context a b : one_push b -> (forall e, In e a -> In e b) -> same_context a b -> same_context (map nme a) (map nme b).
  Proof.
    intros O Sub [T M]. split.
    - intro u. rewrite !any_tags. apply T.
    - intro k. rewrite !any_metas. specialize (M k).
      assert (Hb : forall sp v, In (sp, v) (meta_stack k b) -> exists f d x, In (Declared f d) b /\ item d = D_Pragma (P_Pushmeta x) /\ span_of (mkv_key x) = sp /\ mkv_value x = v) by (intros; apply (stack_pushed k); assumption).
      assert (Ha : forall sp v, In (sp, v) (meta_stack k a) -> exists f d x, In (Declared f d) b /\ item d = D_Pragma (P_Pushmeta x) /\ span_of (mkv_key x) = sp /\ mkv_value x = v).
      { intros sp v H. apply stack_pushed in H. destruct H as (f & d & x & H & H'). exists f, d, x. split; [apply Sub; exact H|exact H']. }
      induction M as [|[sp v] [sp' v'] l l' [Q V] M IH]; cbn; constructor; [|apply IH; intros; [apply Hb|apply Ha]; right; assumption]. cbn in Q |- *. split; [exact Q|].
      destruct (Ha sp v (or_introl eq_refl)) as (f & d & x & I1 & P1 & S1 & <-). destruct (Hb sp' v' (or_introl eq_refl)) as (f' & d' & x' & I2 & P2 & S2 & <-).
      rewrite (O f d x f' d' x') by congruence. apply same_value_refl.
  Qed.
  Lemma any_entered canonicalize c seen sp before : last_entered canonicalize c seen sp before -> last_entered canonicalize c (map nme seen) sp (map nme before).
  Proof.
    intros (p & k & after & -> & Is & No). exists p, k, (map nme after). split; [rewrite map_app; reflexivity|]. split; [exact Is|].
    intros s1 p1 k1 Hin. apply in_map_iff in Hin. destruct Hin as ([|] & Q & Hin); [discriminate|]. cbn in Q. injection Q as -> -> ->. exact (No _ _ _ Hin).
  Qed.
  Lemma any_due canonicalize globs errors seen e : one_push seen -> due canonicalize globs errors seen e [] -> due canonicalize globs errors (map nme seen) (nme e) [].
  Proof.
    intros O De. destruct e as [f [[x|[]] sp]|sp p [k|]]; cbn in De |- *; auto.
    - rewrite any_tags. exact De.
    - rewrite any_metas. destruct (meta_stack (item k) seen); [discriminate|reflexivity].
    - rewrite any_options. exact De.
    - inversion De as [|c sp0 before X Ca La Sa| |]; subst. eapply due_harmless; [exact X|exact Ca|apply any_entered; exact La|apply any_context; [exact O| |exact Sa]]. destruct La as (p' & k' & after & -> & _). intros e0 He. apply in_or_app. left. exact He.
  Qed.
  Lemma any_dues canonicalize globs errors seen es : one_push (seen ++ es) -> dues canonicalize globs errors seen es [] -> dues canonicalize globs errors (map nme seen) (map nme es) [].
  Proof.
    intros O D. remember (@nil report) as rs eqn:Q in D. revert Q O. induction D as [seen|seen e es rs rs' De D IH]; intros Q O; [constructor|].
    apply app_eq_nil in Q. destruct Q as [-> ->]. cbn [map]. change (@nil report) with (@nil report ++ []). constructor; [apply any_due; [|exact De]; eapply one_push_fewer; [|exact O]; intros; apply in_or_app; left; assumption|].
    rewrite <- app_assoc in IH. specialize (IH eq_refl O). rewrite map_app in IH. exact IH.
  Qed.
  Lemma any_augmented seen d d' : augmented seen d d' -> augmented (map nme seen) (number_directive (g_ops E) nu d) (number_directive (g_ops E) nu d').
  Proof.
    intros [a b c e F G H K]. constructor; cbn; auto.
    - f_equal. exact b.
    - intro t. rewrite any_tags. apply F.
    - intros k v. rewrite !in_numbered, numbered_keys, any_metas. split.
      + intros (u & -> & Hu). apply G in Hu. destruct Hu as [Hu|[N Hd]]; [left; eauto|right]. split; [exact N|]. destruct (meta_stack (item k) seen); [discriminate|]. cbn in *. injection Hd as ->. reflexivity.
      + intros [(u & -> & Hu)|[N Hd]]; [exists u; split; [reflexivity|apply G; left; exact Hu]|].
        destruct (meta_stack (item k) seen) as [|[sp u] st] eqn:X; [discriminate|]. cbn in Hd. injection Hd as -> <-. exists u. split; [reflexivity|]. apply G. right. split; [exact N|]. rewrite X. reflexivity.
    - rewrite !numbered_keys. exact K.
  Qed.
  Lemma any_yields seen es ys : yields seen es ys -> yields (map nme seen) (map nme es) (map (in_place (number_directive (g_ops E) nu)) ys).
  Proof.
    intro Y. induction Y as [seen|seen e es d x ds Ad Au Sp Y IH|seen e es ds Ad Y IH]; cbn [map]; [constructor| |].
    - rewrite map_app in IH. destruct e as [f [[z|[]] sp]|]; try discriminate. cbn in Ad. injection Ad as <-.
      eapply yields_directive with (d := mk_spanned (number_directive (g_ops E) nu z) sp); [reflexivity|apply any_augmented; exact Au|exact Sp|exact IH].
    - rewrite map_app in IH. apply yields_other; [|exact IH]. destruct e as [f [[z|[]] sp]|]; try discriminate; reflexivity.
  Qed.

  (** The order of processing. *)
  Definition number_file (x : option path * list (spanned declaration)) : option path * list (spanned declaration) := (fst x, map nm (snd x)).
  Lemma any_takes t p k ds t1 : takes t p k ds t1 -> takes (map number_file t) p k (map nm ds) (map number_file t1).
  Proof. intros (a & b & -> & -> & Sp). exists (map number_file a), (map number_file b). rewrite !map_app. auto. Qed.
  Lemma any_absent t p : absent t p -> absent (map number_file t) p.
  Proof. intros A k ds Hin. apply in_map_iff in Hin. destruct Hin as ([f ds0] & Q & Hin). unfold number_file in Q. cbn in Q. injection Q as -> _. exact (A _ _ Hin). Qed.
  Lemma any_offers sp t ps es fs t1 : offers sp t ps es fs t1 -> offers sp (map number_file t) ps (map nme es) (map number_file fs) (map number_file t1).
  Proof.
    induction 1 as [t|t p ps k ds t1 es fs t2 Tk O IH|t p ps es fs t1 Ab O IH]; cbn [map].
    - constructor.
    - eapply offers_enter; [apply any_takes; exact Tk|exact IH].
    - apply offers_skip; [apply any_absent; exact Ab|exact IH].
  Qed.
  Lemma any_walk globs :
    (forall t f ds es t1, walk globs t f ds es t1 -> walk globs (map number_file t) f (map nm ds) (map nme es) (map number_file t1)) /\
    (forall t fs es t1, walks globs t fs es t1 -> walks globs (map number_file t) (map number_file fs) (map nme es) (map number_file t1)).
  Proof.
    apply walk_walks_ind.
    - intros. constructor.
    - intros t f d ds es t1 Ni W IH. cbn [map]. constructor; [|exact IH]. destruct d as [[x|[]] sp]; cbn in *; auto.
    - intros t f d text ds g offered fs t1 es1 t2 es2 t3 It Gl Of W1 IH1 W2 IH2. cbn [map]. rewrite !map_app. rewrite map_rev in IH1.
      eapply walk_include; [|exact Gl|apply any_offers; exact Of|exact IH1|exact IH2]. cbn. rewrite It. reflexivity.
    - intros. constructor.
    - intros t f ds fs es1 t1 es2 t2 W IH W' IH'. cbn [map]. rewrite map_app. econstructor; eassumption.
  Qed.
End Events.

(** ** There is one push at each place *)
Lemma walk_from globs :
  (forall t f ds es t1, walk globs t f ds es t1 -> incl t1 t /\ forall f' d, In (Declared f' d) es -> In d ds \/ exists y ds', In (y, ds') t /\ In d ds') /\
  (forall t fs es t1, walks globs t fs es t1 -> incl t1 t /\ forall f' d, In (Declared f' d) es -> exists y ds', In (y, ds') (fs ++ t) /\ In d ds').
Proof.
  assert (Of : forall sp t ps es fs t1, offers sp t ps es fs t1 -> incl t1 t /\ incl fs t /\ forall f d, ~ In (Declared f d) es).
  { induction 1 as [t|t p ps k ds t1 es fs t2 (a & b & -> & -> & _) O (A & B & D)|t p ps es fs t1 Ab O (A & B & D)].
    - split; [intros x H; exact H|]. split; [intros x []|intros ? ? []].
    - assert (X : incl (a ++ b) (a ++ (Some k, ds) :: b)) by (intros x H; apply in_app_or in H; apply in_or_app; cbn [In]; tauto).
      split; [intros x H; apply X, A, H|]. split; [|intros f d [H|H]; [discriminate|exact (D _ _ H)]].
      intros x [<-|H]; [apply in_or_app; right; left; reflexivity|apply X, B, H].
    - split; [exact A|]. split; [exact B|]. intros f d [H|H]; [discriminate|exact (D _ _ H)]. }
  apply walk_walks_ind.
  - intros t f. split; [intros x H; exact H|intros ? ? []].
  - intros t f d ds es t1 Ni W [A B]. split; [exact A|]. intros f' d' [H|H]; [injection H as <- <-; left; left; reflexivity|]. apply B in H. cbn [In]. tauto.
  - intros t f d text ds g offered fs t1 es1 t2 es2 t3 It Gl O W1 [A1 B1] W2 [A2 B2]. apply Of in O. destruct O as (C & D & F).
    split; [intros x H; apply C, A1, A2, H|]. intros f' d' [H|H]; [injection H as <- <-; left; left; reflexivity|].
    apply in_app_or in H. destruct H as [H|H]; [destruct (F _ _ H)|]. apply in_app_or in H. destruct H as [H|H].
    + right. apply B1 in H. destruct H as (y & ds' & H & Hd). exists y, ds'. split; [|exact Hd]. apply in_app_or in H. destruct H as [H|H]; [apply D; apply in_rev; exact H|apply C; exact H].
    + apply B2 in H. destruct H as [H|(y & ds' & H & Hd)]; [left; right; exact H|right]. exists y, ds'. split; [apply C, A1, H|exact Hd].
  - intros t. split; [intros x H; exact H|intros ? ? []].
  - intros t f ds fs es1 t1 es2 t2 W [A B] W' [A' B']. split; [intros x H; apply A, A', H|]. intros f' d H. apply in_app_or in H. destruct H as [H|H].
    + apply B in H. destruct H as [H|(y & ds' & H & Hd)]; [exists f, ds; split; [left; reflexivity|exact H]|exists y, ds'; split; [right; apply in_or_app; right; exact H|exact Hd]].
    + apply B' in H. destruct H as (y & ds' & H & Hd). exists y, ds'. split; [|exact Hd]. right. apply in_app_or in H. apply in_or_app. destruct H as [H|H]; [left; exact H|right; apply A; exact H].
Qed.

Definition pushes (x : meta_key_value) (d : spanned declaration) : Prop := item d = D_Pragma (P_Pushmeta x).
Lemma declares_push E I f r i j d es r1 x : declares E I f r i j d es r1 -> pushes x d -> exists s, tok I (S i) (T_Key s) /\ span_of (mkv_key x) = text I (S i) (S (S i)).
Proof.
  intros D P. unfold pushes in P. destruct D as [z e W|k p A Le|k o e r0 O Le]; cbn in P; try discriminate. injection P as ->. inversion A as [| |j0 kv T Kv| | |]; subst.
  destruct Kv as [a b key v [Ka Sk] _ _|a key [Ka Sk] _]; cbn; destruct Ka; eauto.
Qed.
Section Once.
  Context (L : lexer_env) (E : grammar_env) (En : environment_ok E) (U : unicode_ok (le_unicode L)).
  Lemma tiles_pushes I f r i ds es ws r' : computable E I -> fine_options I -> separate (in_tokens I) -> tiles E I f r i ds es ws r' -> es = [] -> (exists po, obeys E po r) ->
    (exists po, obeys E po r') /\
    (forall d x, In d ds -> pushes x d -> exists p s, i <= p /\ tok I (S p) (T_Key s) /\ span_of (mkv_key x) = text I (S p) (S (S p))) /\
    (forall d d' x x', In d ds -> In d' ds -> pushes x d -> pushes x' d' -> span_of (mkv_key x) = span_of (mkv_key x') -> x = x').
  Proof.
    intros C F Se T. induction T as [r i Fi|r i j d es r1 ds es' ws r' D T IH]; intros Q Ob.
    - split; [exact Ob|]. split; [intros ? ? []|intros ? ? ? ? []].
    - apply app_eq_nil in Q. destruct Q as [-> ->]. destruct (obeys_after E En I f r i j d r1 C F Ob D) as [Ob1 [Lt _]]. destruct (IH eq_refl Ob1) as (Ob2 & A & B).
      split; [exact Ob2|]. split.
      + intros d0 x [<-|H] P.
        * destruct (declares_push _ _ _ _ _ _ _ _ _ _ D P) as (s & Tk & Q). exists i, s. auto.
        * destruct (A d0 x H P) as (p & s & Le & X). exists p, s. split; [lia|exact X].
      + assert (G : forall d' x x', In d' ds -> pushes x d -> pushes x' d' -> span_of (mkv_key x) = span_of (mkv_key x') -> False).
        { intros d' x x' H P P' Q. destruct (declares_push _ _ _ _ _ _ _ _ _ _ D P) as (s & [[a b] Tk] & Q1). destruct (A d' x' H P') as (p & s' & Le & [[a' b'] Tk'] & Q2).
          rewrite Q1, Q2 in Q. unfold text, text_from, text_upto in Q. rewrite Tk, Tk' in Q. injection Q as -> ->.
          apply (Se (S i) (S p) _ _ _ _ _ _ ltac:(lia) Tk Tk'). reflexivity. }
        intros d0 d1 x x' [<-|H] [<-|H'] P P' Q.
        * unfold pushes in *. congruence.
        * destruct (G _ _ _ H' P P' Q).
        * destruct (G _ _ _ H P' P (eq_sym Q)).
        * exact (B d0 d1 x x' H H' P P' Q).
  Qed.
  Lemma files_pushes cs : NoDup (map (fun x => fst (fst x)) cs) -> forall r fs es ws r', files_tiled L E r cs fs es ws r' -> es = [] -> (forall id f c, In (id, f, c) cs -> fine_content L E id c) -> (exists po, obeys E po r) ->
    (forall y ds d x, In (y, ds) fs -> In d ds -> pushes x d -> In (sp_source (span_of (mkv_key x))) (map (fun x => fst (fst x)) cs)) /\
    (forall y ds d x y' ds' d' x', In (y, ds) fs -> In d ds -> pushes x d -> In (y', ds') fs -> In d' ds' -> pushes x' d' -> span_of (mkv_key x) = span_of (mkv_key x') -> x = x').
  Proof.
    induction cs as [|[[id f] c] cs IH]; intros Nd r fs es ws r' T Q Fi Ob; inversion T as [|r0 id0 file0 c0 toks cs0 ds es1 ws1 r1 fs1 es2 ws2 r2 Lx Ti T']; subst.
    - split; [intros ? ? ? ? []|intros ? ? ? ? ? ? ? ? []].
    - match goal with H : _ ++ _ = [] |- _ => apply app_eq_nil in H; destruct H as [-> ->] end. cbn [map fst] in Nd. apply NoDup_cons_iff in Nd. destruct Nd as [Nu Nd].
      destruct (Fi id f c (or_introl eq_refl)) as (ts & Lx' & Co & Fo). rewrite Lx in Lx'. injection Lx' as <-.
      destruct (tiles_pushes (input_of id c toks) f r 0 ds [] ws1 r1 Co Fo (lexed_separate L U c toks Lx) Ti eq_refl Ob) as (Ob1 & A & B).
      destruct (IH Nd _ _ _ _ _ T' eq_refl (fun id0 f0 c0 H => Fi id0 f0 c0 (or_intror H)) Ob1) as [C D].
      assert (Sr : forall d x, In d ds -> pushes x d -> sp_source (span_of (mkv_key x)) = id).
      { intros d x Hd P. destruct (A d x Hd P) as (p & s & _ & _ & ->). reflexivity. }
      split.
      + intros y ds0 d x [H|H] Hd P; [injection H as <- <-; left; symmetry; exact (Sr d x Hd P)|right; exact (C _ _ _ _ H Hd P)].
      + intros y ds0 d x y' ds1 d' x' [H|H] Hd P [H'|H'] Hd' P' Q; try (injection H as <- <-); try (injection H' as <- <-).
        * exact (B d d' x x' Hd Hd' P P' Q).
        * exfalso. apply Nu. rewrite <- (Sr d x Hd P), Q. exact (C _ _ _ _ H' Hd' P').
        * exfalso. apply Nu. rewrite <- (Sr d' x' Hd' P'), <- Q. exact (C _ _ _ _ H Hd P).
        * exact (D _ _ _ _ _ _ _ _ H Hd P H' Hd' P' Q).
  Qed.
  Lemma walk_one_push globs cs root rootds others es rest ws r' : NoDup (map (fun x => fst (fst x)) cs) -> (forall id f c, In (id, f, c) cs -> fine_content L E id c) ->
    files_tiled L E initial_rules cs ((root, rootds) :: others) [] ws r' -> walk globs others root rootds es rest -> one_push es.
  Proof.
    intros Nd Fi T W f d x f' d' x' H H' P P' Q. destruct (files_pushes cs Nd _ _ _ _ _ T eq_refl Fi (obeyed E En)) as [_ G].
    assert (X : forall f d, In (Declared f d) es -> exists y ds, In (y, ds) ((root, rootds) :: others) /\ In d ds).
    { intros f0 d0 H0. apply (proj1 (walk_from globs) _ _ _ _ _ W) in H0. destruct H0 as [H0|(y & ds & H0 & Hd)]; [exists root, rootds; split; [left; reflexivity|exact H0]|exists y, ds; split; [right; exact H0|exact Hd]]. }
    destruct (X _ _ H) as (y & ds & Hy & Hd). destruct (X _ _ H') as (y' & ds' & Hy' & Hd').
    rewrite (G y ds d x y' ds' d' x' Hy Hd P Hy' Hd' P' Q). reflexivity.
  Qed.
End Once.
