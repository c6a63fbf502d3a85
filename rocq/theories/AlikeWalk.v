(** * The same declarations in other places: the same result *)
From Coq Require Import String Ascii.
From Coq Require Import List NArith ZArith Arith Bool Lia Permutation.
From Verif Require Import Base BaseFacts Text Path SpecPath PathFacts Sources Types SpecTypes SortM SpecSort Options SpecOptions Pragma SpecPragma PragmaRun
  Token Lexer Grammar SpecGrammar SpecDirective SpecDisplay SpecLedger Parse SpecParse SpecWhole P_Parse P_Display SpecAlike DisplayRead AlikeRead AlikeFile.
Import SpecPragma.
Import ListNotations.
Local Open Scope nat_scope.

Lemma forall2_nth {A B} (R : A -> B -> Prop) l m : Forall2 R l m -> forall n x, nth_error l n = Some x -> exists y, nth_error m n = Some y /\ R x y.
Proof. induction 1 as [|x y l m Rx F IH]; intros [|n] z H; try discriminate; cbn in *; [injection H as <-; eauto|eauto]. Qed.
Lemma forall2_in {A B} (R : A -> B -> Prop) l m : Forall2 R l m -> forall x, In x l -> exists y, In y m /\ R x y.
Proof. induction 1 as [|x y l m Rx F IH]; intros z H; [destruct H|]. destruct H as [->|H]; [exists y; cbn; auto|]. destruct (IH _ H) as (w & Hw & Rw). exists w. cbn. auto. Qed.
Lemma forall2_in_r {A B} (R : A -> B -> Prop) l m : Forall2 R l m -> forall y, In y m -> exists x, In x l /\ R x y.
Proof. induction 1 as [|x y l m Rx F IH]; intros z H; [destruct H|]. destruct H as [->|H]; [exists x; cbn; auto|]. destruct (IH _ H) as (w & Hw & Rw). exists w. cbn. auto. Qed.

Lemma forall2_length {A B} (R : A -> B -> Prop) l m : Forall2 R l m -> List.length l = List.length m.
Proof. induction 1; cbn; congruence. Qed.

(** Two lists with the same keys, each once, and the same for each key. *)
Lemma same_keys_elements {A K} (f : A -> K) (Q : A -> A -> Prop) l l' : (forall x y, Q x y -> f x = f y) ->
  NoDup (map f l) -> NoDup (map f l') -> (forall k, In k (map f l) <-> In k (map f l')) -> (forall x, In x l -> exists y, In y l' /\ Q x y) -> same_elements Q l l'.
Proof.
  intros Qf N N' Ks H. assert (P : Permutation (map f l') (map f l)) by (apply NoDup_Permutation; auto; intro k; symmetry; apply Ks).
  apply Permutation_map_inv in P. destruct P as (m & Qm & Pm). exists m. split; [exact Pm|].
  assert (Hm : forall x, In x m -> exists y, In y l' /\ Q x y) by (intros x Hx; apply H; eapply Permutation_in; [symmetry; exact Pm|exact Hx]).
  clear - Qm Hm N' Qf. revert m Qm Hm. induction l' as [|y l' IH]; intros m Qm Hm; destruct m as [|x m]; try discriminate; [constructor|].
  cbn in Qm. injection Qm as Q0 Qm. cbn in N'. apply NoDup_cons_iff in N'. destruct N' as [Ny N']. constructor.
  - destruct (Hm x (or_introl eq_refl)) as (z & [<-|Hz] & Qz); [exact Qz|]. exfalso. apply Ny. rewrite Q0, (Qf _ _ Qz). apply in_map. exact Hz.
  - apply IH; [exact N'|exact Qm|]. intros w Hw. destruct (Hm w (or_intror Hw)) as (z & [<-|Hz] & Qz); [|eauto].
    exfalso. apply Ny. rewrite <- (Qf _ _ Qz), Qm. apply in_map. exact Hw.
Qed.

Section Walk.
  Context (R : span -> span -> Prop).
  Context (Fun : forall a b a' b', R a a' -> R b b' -> a = b -> a' = b').

  Notation alike_table := (Forall2 (alike_file R)).
  Inductive alike_event : event -> event -> Prop :=
  | ae_declared f d d' : alike_declaration R d d' -> alike_event (Declared f d) (Declared f d')
  | ae_offered sp sp' p k : alike_event (Offered sp p k) (Offered sp' p k).

  Lemma alike_takes t p k ds t1 t' : takes t p k ds t1 -> alike_table t t' ->
    exists ds' t1', takes t' p k ds' t1' /\ Forall2 (alike_declaration R) ds ds' /\ alike_table t1 t1'.
  Proof.
    intros (a & b & -> & -> & Sp) F. apply Forall2_app_inv_l in F. destruct F as (a' & c' & Fa & Fc & ->). inversion Fc as [|? [f' ds'] ? b' [Q Fd] Fb]; subst. cbn in Q. subst f'.
    exists ds', (a' ++ b'). split; [exists a', b'; auto|]. split; [exact Fd|apply Forall2_app; assumption].
  Qed.
  Lemma alike_absent t p t' : absent t p -> alike_table t t' -> absent t' p.
  Proof. intros A F k ds Hin. destruct (forall2_in_r _ _ _ F _ Hin) as ([f ds0] & Hin' & Q & _). cbn in Q. subst f. exact (A _ _ Hin'). Qed.
  Lemma alike_offers sp sp' t ps es fs t1 : offers sp t ps es fs t1 -> forall t', alike_table t t' ->
    exists es' fs' t1', offers sp' t' ps es' fs' t1' /\ Forall2 alike_event es es' /\ alike_table fs fs' /\ alike_table t1 t1'.
  Proof.
    induction 1 as [t|t p ps k ds t1 es fs t2 Tk O IH|t p ps es fs t1 Ab O IH]; intros t' F.
    - exists [], [], t'. repeat split; auto. constructor.
    - destruct (alike_takes _ _ _ _ _ _ Tk F) as (ds' & t1' & Tk' & Fd & F1). destruct (IH _ F1) as (es' & fs' & t2' & O' & Fe & Ff & F2).
      exists (Offered sp' p (Some k) :: es'), ((Some k, ds') :: fs'), t2'. split; [econstructor; eassumption|]. split; [constructor; [constructor|exact Fe]|].
      split; [constructor; [split; [reflexivity|exact Fd]|exact Ff]|exact F2].
    - destruct (IH _ F) as (es' & fs' & t2' & O' & Fe & Ff & F2). exists (Offered sp' p None :: es'), fs', t2'.
      split; [apply offers_skip; [eapply alike_absent; eassumption|exact O']|]. split; [constructor; [constructor|exact Fe]|auto].
  Qed.
  Lemma forall2_rev {A B} (Q : A -> B -> Prop) l m : Forall2 Q l m -> Forall2 Q (rev l) (rev m).
  Proof. induction 1 as [|x y l m Qx F IH]; [constructor|]. cbn. apply Forall2_app; auto. Qed.
  Lemma alike_include d d' : alike_declaration R d d' -> is_include (item d) = is_include (item d').
  Proof. intros [x y -> -> _ _|p p' -> -> P]; [reflexivity|]. destruct P; reflexivity. Qed.

  Lemma alike_walk globs :
    (forall t f ds es t1, walk globs t f ds es t1 -> forall t' ds', alike_table t t' -> Forall2 (alike_declaration R) ds ds' ->
       exists es' t1', walk globs t' f ds' es' t1' /\ Forall2 alike_event es es' /\ alike_table t1 t1') /\
    (forall t fs es t1, walks globs t fs es t1 -> forall t' fs', alike_table t t' -> alike_table fs fs' ->
       exists es' t1', walks globs t' fs' es' t1' /\ Forall2 alike_event es es' /\ alike_table t1 t1').
  Proof.
    apply walk_walks_ind.
    - intros t f t' ds' F D. inversion D; subst. exists [], t'. repeat split; auto. constructor.
    - intros t f d ds es t1 Ni W IH t' ds' F D. inversion D as [|? d' ? ds0 Ad Fd]; subst. destruct (IH _ _ F Fd) as (es' & t1' & W' & Fe & F1).
      exists (Declared f d' :: es'), t1'. split; [constructor; [rewrite <- (alike_include _ _ Ad); exact Ni|exact W']|]. split; [constructor; [constructor; exact Ad|exact Fe]|exact F1].
    - intros t f d text ds g offered fs t1 es1 t2 es2 t3 It Gl Of W1 IH1 W2 IH2 t' ds' F D. inversion D as [|? d' ? ds0 Ad Fd]; subst.
      assert (It' : exists text', item d' = D_Pragma (P_Include text') /\ item text = item text').
      { destruct Ad as [x y Q _ _ _|p p' Q Q' P]; rewrite It in Q; [discriminate|]. injection Q as <-. inversion P as [| | | |x text' S| |]; subst. eauto. }
      destruct It' as (text' & It' & Qt). rewrite Qt in Gl.
      destruct (alike_offers (span_of text) (span_of text') _ _ _ _ _ Of _ F) as (of' & fs' & t1' & Of' & Fo & Ff & F1).
      destruct (IH1 _ (rev fs') F1) as (es1' & t2' & W1' & Fe1 & F2); [apply forall2_rev; exact Ff|]. destruct (IH2 _ _ F2 Fd) as (es2' & t3' & W2' & Fe2 & F3).
      exists (Declared f d' :: of' ++ es1' ++ es2'), t3'. split; [eapply walk_include; eassumption|]. split; [|exact F3].
      constructor; [constructor; exact Ad|]. apply Forall2_app; [exact Fo|]. apply Forall2_app; assumption.
    - intros t t' fs' F D. inversion D; subst. exists [], t'. repeat split; auto. constructor.
    - intros t f ds fs es1 t1 es2 t2 W IH W' IH' t' fs' F D. inversion D as [|? [f' ds'] ? fs0 [Q Fd] Ff]; subst. cbn in Q. subst f'.
      destruct (IH _ _ F Fd) as (es1' & t1' & A & Fe1 & F1). destruct (IH' _ _ F1 Ff) as (es2' & t2' & B & Fe2 & F2).
      exists (es1' ++ es2'), t2'. split; [econstructor; eassumption|]. split; [apply Forall2_app; assumption|exact F2].
  Qed.

  (** ** What is pushed *)
  Definition alike_push (x y : span * spanned meta_value) : Prop := R (fst x) (fst y) /\ alike_meta_value (item (snd x)) (item (snd y)).
  Lemma forall2_tl {A B} (Q : A -> B -> Prop) l m : Forall2 Q l m -> Forall2 Q (tl l) (tl m).
  Proof. destruct 1; [constructor|assumption]. Qed.
  Lemma alike_tag_stack t es es' : Forall2 alike_event es es' -> Forall2 same_item (tag_stack t es) (tag_stack t es').
  Proof.
    intro F. unfold tag_stack. assert (H : forall st st', Forall2 same_item st st' -> Forall2 same_item (fold_left (tag_effect t) es st) (fold_left (tag_effect t) es' st')); [|apply H; constructor].
    induction F as [|e e' es es' A F IH]; intros st st' Hs; [exact Hs|]. cbn [fold_left]. apply IH. clear IH F. destruct A as [f d d' A|sp sp' p k]; cbn; [|exact Hs].
    destruct A as [x y -> -> _ _|p p' -> -> P]; [exact Hs|]. destruct P as [x x' S|x x' S|x x' S Rx|x x' S|x x' S|x x' S|x x' S]; try exact Hs; unfold same_item in S; rewrite S;
      destruct (str_eqb _ _); [constructor; [exact S|exact Hs]|exact Hs|apply forall2_tl; exact Hs|exact Hs].
  Qed.
  Lemma alike_meta_stack k es es' : Forall2 alike_event es es' -> Forall2 alike_push (meta_stack k es) (meta_stack k es').
  Proof.
    intro F. unfold meta_stack. assert (H : forall st st', Forall2 alike_push st st' -> Forall2 alike_push (fold_left (meta_effect k) es st) (fold_left (meta_effect k) es' st')); [|apply H; constructor].
    induction F as [|e e' es es' A F IH]; intros st st' Hs; [exact Hs|]. cbn [fold_left]. apply IH. clear IH F. destruct A as [f d d' A|sp sp' p k']; cbn; [|exact Hs].
    destruct A as [x y -> -> _ _|p p' -> -> P]; [exact Hs|]. destruct P as [x x' S|x x' S|x x' S Rx|x x' S|x x' S|x x' S|x x' S]; try exact Hs.
    - destruct S as [S V]. unfold same_item in S. rewrite S. destruct (str_eqb _ _); [constructor; [split; cbn; assumption|exact Hs]|exact Hs].
    - unfold same_item in S. rewrite S. destruct (str_eqb _ _); [apply forall2_tl; exact Hs|exact Hs].
  Qed.
  Lemma alike_none {A B} (Q : A -> B -> Prop) l m : Forall2 Q l m -> (l = [] <-> m = []).
  Proof. destruct 1; split; intro; try discriminate; reflexivity. Qed.

  (** ** The reports *)
  Lemma alike_same_value a b a' b' : same_meta_value a b -> alike_meta_value a a' -> alike_meta_value b b' -> same_meta_value a' b'.
  Proof.
    intros S A B. destruct S as [x y S|m n sa sb c sd se S|v N].
    - destruct a' as [v'|?]; [|destruct A]. destruct b' as [w'|?]; [|destruct B]. cbn in A, B. subst. constructor. exact S.
    - destruct a' as [?|[[x1 x2] [x3 x4]]]; [destruct A|]. destruct b' as [?|[[y1 y2] [y3 y4]]]; [destruct B|]. destruct A as [A1 A2], B as [B1 B2].
      unfold same_item in *. cbn in *. subst. constructor. exact S.
    - destruct a' as [v'|?]; [|destruct A]. destruct b' as [w'|?]; [|destruct B]. cbn in A, B. subst. constructor. exact N.
  Qed.
  Lemma alike_context a b a' b' : Forall2 alike_event a a' -> Forall2 alike_event b b' -> same_context a b -> same_context a' b'.
  Proof.
    intros Fa Fb [T M]. split.
    - intro t. pose proof (forall2_length _ _ _ (alike_tag_stack t _ _ Fa)). pose proof (forall2_length _ _ _ (alike_tag_stack t _ _ Fb)). specialize (T t). lia.
    - intro k. pose proof (alike_meta_stack k _ _ Fa) as A. pose proof (alike_meta_stack k _ _ Fb) as B. specialize (M k). revert A B.
      generalize (meta_stack k a') as sa'. generalize (meta_stack k b') as sb'. induction M as [|x y l m [Sp Sv] M IH]; intros sb' sa' A B.
      + inversion A; inversion B; subst. constructor.
      + inversion A as [|? x' ? l' [Rx Vx] A']; inversion B as [|? y' ? m' [Ry Vy] B']; subst. constructor; [|apply IH; assumption]. split.
        * eapply Fun; eassumption.
        * eapply alike_same_value; eassumption.
  Qed.

  Section Reports.
    Context (canonicalize : path -> option path) (globs : list (path * included_glob)) (error_paths : list (option path * str)).

    Lemma alike_entered c seen sp before seen' : last_entered canonicalize c seen sp before -> Forall2 alike_event seen seen' ->
      exists sp' before', last_entered canonicalize c seen' sp' before' /\ Forall2 alike_event before before'.
    Proof.
      intros (p & k & after & -> & Is & No) F. apply Forall2_app_inv_l in F. destruct F as (before' & c' & Fb & Fc & ->).
      inversion Fc as [|? e ? after' A Fa]; subst. inversion A as [|? sp' ? ?]; subst. exists sp', before'. split; [|exact Fb].
      exists p, k, after'. split; [reflexivity|]. split; [exact Is|]. intros s1 p1 k1 Hin. destruct (forall2_in_r _ _ _ Fa _ Hin) as (e & Hin' & A'). inversion A'; subst. exact (No _ _ _ Hin').
    Qed.
    Lemma alike_options_of es es' : Forall2 alike_event es es' -> map opt_variant (options_of es) = map opt_variant (options_of es').
    Proof.
      induction 1 as [|e e' es es' A F IH]; [reflexivity|]. unfold options_of. cbn [flat_map]. fold (options_of es) (options_of es'). rewrite !map_app, IH. f_equal.
      destruct A as [f d d' A|]; [|reflexivity]. cbn. destruct A as [x y -> -> _ _|p p' -> -> P]; [reflexivity|]. destruct P; try reflexivity. cbn. congruence.
    Qed.
    Lemma find_variant (p : beancount_option -> bool) l l' : (forall x y, opt_variant x = opt_variant y -> p x = p y) -> map opt_variant l = map opt_variant l' ->
      (find p l = None <-> find p l' = None).
    Proof.
      intros H. revert l'. induction l as [|x l IH]; intros [|y l'] Q; try discriminate; [tauto|]. cbn in Q. injection Q as Q0 Q. cbn. rewrite (H _ _ Q0).
      destruct (p y); [split; discriminate|auto].
    Qed.
    Lemma alike_due_report l l' o o' : map opt_variant l = map opt_variant l' -> opt_variant o = opt_variant o' -> due_report l o = None -> due_report l' o' = None.
    Proof.
      intros Q Qo. unfold due_report. rewrite Qo. destruct (setting_of (opt_variant o')) as [s|]; [|reflexivity].
      assert (H : find (sets s) l = None <-> find (sets s) l' = None) by (apply find_variant; [intros x y X; unfold sets; now rewrite X|exact Q]).
      destruct (find (sets s) l); [discriminate|]. rewrite (proj1 H eq_refl). reflexivity.
    Qed.
    Lemma alike_due seen seen' e e' : Forall2 alike_event seen seen' -> alike_event e e' -> due canonicalize globs error_paths seen e [] -> due canonicalize globs error_paths seen' e' [].
    Proof.
      intros F A D. destruct A as [f d d' A|sp sp' p [k|]]; [|reflexivity|].
      - cbn in D |- *. destruct A as [x y Q Q' _ _|p p' Q Q' P]; rewrite Q in D; rewrite Q'; [reflexivity|].
        destruct P as [x x' S|x x' S|x x' S Rx|x x' S|x x' S|x x' S|x x' S]; try reflexivity.
        + unfold same_item in S. rewrite S in D. pose proof (alike_none _ _ _ (alike_tag_stack (item x') _ _ F)) as H.
          destruct (tag_stack (item x') seen'); [|reflexivity]. rewrite (proj2 H eq_refl) in D. discriminate.
        + unfold same_item in S. rewrite S in D. pose proof (alike_none _ _ _ (alike_meta_stack (item x') _ _ F)) as H.
          destruct (meta_stack (item x') seen'); [|reflexivity]. rewrite (proj2 H eq_refl) in D. discriminate.
        + unfold same_item in S. rewrite S in D. destruct (glob_of globs f (item x')) as [[[|]|]|]; try discriminate; reflexivity.
        + destruct (due_report (options_of seen) x) eqn:Dr; [discriminate|]. rewrite (alike_due_report _ _ _ _ (alike_options_of _ _ F) S Dr). reflexivity.
      - cbn in D |- *. inversion D as [|c sp0 before X Ca La Sa| |]; subst.
        destruct (alike_entered _ _ _ _ _ La F) as (sp1 & before' & La' & Fb). eapply due_harmless; [exact X|exact Ca|exact La'|]. eapply alike_context; eassumption.
    Qed.
    Lemma alike_dues seen es : dues canonicalize globs error_paths seen es [] -> forall seen' es', Forall2 alike_event seen seen' -> Forall2 alike_event es es' ->
      dues canonicalize globs error_paths seen' es' [].
    Proof.
      intro D. remember (@nil report) as rs eqn:Q in D. revert Q. induction D as [seen|seen e es rs rs' De D IH]; intros Q seen' es' F Fe; inversion Fe as [|? e' ? es0 A Fr]; subst; [constructor|].
      apply app_eq_nil in Q. destruct Q as [-> ->]. change (@nil report) with (@nil report ++ []). constructor; [eapply alike_due; eassumption|].
      apply IH; [reflexivity| |exact Fr]. apply Forall2_app; auto.
    Qed.
  End Reports.

  Lemma leftover_none es : leftover es [] <-> (forall t, tag_stack t es = []) /\ (forall k, meta_stack k es = []).
  Proof.
    split.
    - intros (ks & ts & _ & K & _ & T & Q). symmetry in Q. apply app_eq_nil in Q. destruct Q as [Qk Qt]. split.
      + intro t. destruct (tag_stack t es) as [|x st] eqn:X; [reflexivity|]. exfalso. assert (Ht : In t ts) by (apply T; rewrite X; discriminate).
        apply in_split in Ht. destruct Ht as (a & b & ->). rewrite flat_map_app in Qt. apply app_eq_nil in Qt. destruct Qt as [_ Qt]. cbn [flat_map] in Qt.
        apply app_eq_nil in Qt. destruct Qt as [Qt _]. apply map_eq_nil in Qt. rewrite X in Qt. cbn in Qt. apply app_eq_nil in Qt. destruct Qt. discriminate.
      + intro k. destruct (meta_stack k es) as [|x st] eqn:X; [reflexivity|]. exfalso. assert (Hk : In k ks) by (apply K; rewrite X; discriminate).
        apply in_split in Hk. destruct Hk as (a & b & ->). rewrite flat_map_app in Qk. apply app_eq_nil in Qk. destruct Qk as [_ Qk]. cbn [flat_map] in Qk.
        apply app_eq_nil in Qk. destruct Qk as [Qk _]. rewrite X in Qk. destruct (rev (x :: st)) as [|[? ?] ?] eqn:Y; [|discriminate].
        apply (f_equal (@List.length _)) in Y. rewrite rev_length in Y. discriminate.
    - intros [T K]. exists [], []. split; [constructor|]. split; [intro k; split; [intros []|intro H; exfalso; apply H; apply K]|]. split; [constructor|].
      split; [intro t; split; [intros []|intro H; exfalso; apply H; apply T]|]. reflexivity.
  Qed.
  Lemma alike_leftover es es' : Forall2 alike_event es es' -> leftover es [] -> leftover es' [].
  Proof.
    intros F Le. apply leftover_none in Le. destruct Le as [T K]. apply leftover_none. split.
    - intro t. apply (alike_none _ _ _ (alike_tag_stack t _ _ F)). apply T.
    - intro k. apply (alike_none _ _ _ (alike_meta_stack k _ _ F)). apply K.
  Qed.
  Lemma alike_plugins_of es es' : Forall2 alike_event es es' -> Forall2 alike_plugin (plugins_of es) (plugins_of es').
  Proof.
    induction 1 as [|e e' es es' A F IH]; [constructor|]. unfold plugins_of. cbn [flat_map]. apply Forall2_app; [|exact IH].
    destruct A as [f d d' A|]; [|constructor]. cbn. destruct A as [x y -> -> _ _|p p' -> -> P]; [constructor|]. destruct P; auto.
  Qed.

  (** ** The directives *)
  Lemma tag_stack_item t es : forall x, In x (tag_stack t es) -> item x = t.
  Proof.
    unfold tag_stack. assert (H : forall st, (forall x, In x st -> item x = t) -> forall x, In x (fold_left (tag_effect t) es st) -> item x = t); [|apply H; intros ? []].
    induction es as [|e es IH]; intros st Hs; [exact Hs|]. cbn [fold_left]. apply IH. destruct e as [f d|]; [|exact Hs]. cbn.
    destruct (item d) as [?|[y|y|y|y|y|y|y]]; try exact Hs; destruct (str_eqb (item y) t) eqn:Q; try exact Hs.
    - intros x [<-|Hx]; [apply str_eqb_eq; exact Q|auto].
    - intros x Hx. apply Hs. destruct st; [destruct Hx|right; exact Hx].
  Qed.
  Lemma augmented_tags seen d d' : augmented seen d d' -> forall t,
    In t (map item (md_tags (item (dir_metadata d')))) <-> In t (map item (md_tags (item (dir_metadata d)))) \/ tag_stack t seen <> [].
  Proof.
    intros A t. rewrite in_map_iff. split.
    - intros (x & <- & Hx). apply (aug_tags _ _ _ A) in Hx. destruct Hx as [Hx|[_ Hx]]; [left; apply in_map; exact Hx|right]. intro Q. rewrite Q in Hx. discriminate.
    - intro H. destruct (in_dec (list_eq_dec N.eq_dec) t (map item (md_tags (item (dir_metadata d))))) as [Y|Y].
      + apply in_map_iff in Y. destruct Y as (x & Q & Hx). exists x. split; [exact Q|]. apply (aug_tags _ _ _ A). auto.
      + destruct H as [H|H]; [contradiction|]. destruct (tag_stack t seen) as [|x st] eqn:X; [contradiction|].
        assert (Q : item x = t) by (apply (tag_stack_item t seen); rewrite X; left; reflexivity). exists x. split; [exact Q|]. apply (aug_tags _ _ _ A). right. rewrite Q, X. auto.
  Qed.
  Lemma augmented_keys seen d d' : augmented seen d d' -> forall k,
    In k (map (fun e => item (fst e)) (md_key_values (item (dir_metadata d')))) <->
    In k (map (fun e => item (fst e)) (md_key_values (item (dir_metadata d)))) \/ meta_stack k seen <> [].
  Proof.
    intros A k. rewrite in_map_iff. split.
    - intros ([x v] & <- & Hx). apply (aug_keys _ _ _ A) in Hx. cbn. destruct Hx as [Hx|[_ Hx]]; [left; apply in_map_iff; exists (x, v); auto|right]. intro Q. rewrite Q in Hx. discriminate.
    - intro H. destruct (in_dec (list_eq_dec N.eq_dec) k (map (fun e => item (fst e)) (md_key_values (item (dir_metadata d))))) as [Y|Y].
      + apply in_map_iff in Y. destruct Y as ([x v] & Q & Hx). exists (x, v). split; [exact Q|]. apply (aug_keys _ _ _ A). auto.
      + destruct H as [H|H]; [contradiction|]. destruct (meta_stack k seen) as [|[sp v] st] eqn:X; [contradiction|].
        exists (mk_spanned k sp, v). split; [reflexivity|]. apply (aug_keys _ _ _ A). right. cbn. rewrite X. auto.
  Qed.
  Lemma elements_map {A B} (f : A -> B) (Q : A -> A -> Prop) l l' : (forall x y, Q x y -> f x = f y) -> same_elements Q l l' -> Permutation (map f l) (map f l').
  Proof. intros H (m & P & F). rewrite (Permutation_map f P). rewrite (forall2_map Q f f _ _ H F). reflexivity. Qed.
  Lemma elements_in {A} (Q : A -> A -> Prop) l l' : same_elements Q l l' -> forall x, In x l -> exists y, In y l' /\ Q x y.
  Proof. intros (m & P & F) x Hx. apply (forall2_in _ _ _ F). eapply Permutation_in; eassumption. Qed.

  Lemma alike_augmented seen seen' d d' x x' : Forall2 alike_event seen seen' -> alike d d' -> distinct_metadata (item (dir_metadata d)) ->
    augmented seen d x -> augmented seen' d' x' -> alike x x'.
  Proof.
    intros F Al (Nt & Nl & Nk) A A'. destruct Al as [Ad [Ak [At Ali]] Av].
    pose proof (elements_map item _ _ _ (fun _ _ H => H) At) as Pt.
    pose proof (elements_map (fun e => item (fst e)) _ _ _ (fun _ _ H => proj1 H) Ak) as Pk.
    constructor; [rewrite (aug_date _ _ _ A), (aug_date _ _ _ A'); exact Ad| |rewrite (aug_variant _ _ _ A), (aug_variant _ _ _ A'); exact Av].
    split; [|split].
    - apply (same_keys_elements (fun e => item (fst e))).
      + intros y z [H _]. exact H.
      + apply (aug_keys_once _ _ _ A). exact Nk.
      + apply (aug_keys_once _ _ _ A'). eapply Permutation_NoDup; [exact Pk|exact Nk].
      + intro k. rewrite (augmented_keys _ _ _ A), (augmented_keys _ _ _ A'). pose proof (alike_none _ _ _ (alike_meta_stack k _ _ F)) as H.
        assert (X : In k (map (fun e => item (fst e)) (md_key_values (item (dir_metadata d)))) <-> In k (map (fun e => item (fst e)) (md_key_values (item (dir_metadata d'))))) by (split; apply Permutation_in; [|symmetry]; exact Pk).
        tauto.
      + intros [k v] H. apply (aug_keys _ _ _ A) in H. destruct H as [H|[No H]].
        * destruct (elements_in _ _ _ Ak _ H) as ([k' v'] & Hin & S). exists (k', v'). split; [apply (aug_keys _ _ _ A'); auto|exact S].
        * pose proof (alike_meta_stack (item k) _ _ F) as Fm. destruct (meta_stack (item k) seen) as [|y st] eqn:Y; [discriminate|]. cbn in H. injection H as ->.
          inversion Fm as [|? [sp' v'] ? st' [_ Sv] _ Q0 Q1]. exists (mk_spanned (item k) sp', v'). split; [|split; [reflexivity|exact Sv]].
          apply (aug_keys _ _ _ A'). right. split; [|cbn; rewrite <- Q1; reflexivity]. intro Hin. apply No. eapply Permutation_in; [symmetry; exact Pk|exact Hin].
    - apply (same_keys_elements item).
      + auto.
      + apply (aug_tags_once _ _ _ A). exact Nt.
      + apply (aug_tags_once _ _ _ A'). eapply Permutation_NoDup; [exact Pt|exact Nt].
      + intro t. rewrite (augmented_tags _ _ _ A), (augmented_tags _ _ _ A'). pose proof (alike_none _ _ _ (alike_tag_stack t _ _ F)) as H.
        assert (X : In t (map item (md_tags (item (dir_metadata d)))) <-> In t (map item (md_tags (item (dir_metadata d'))))) by (split; apply Permutation_in; [|symmetry]; exact Pt).
        tauto.
      + intros t H. apply (in_map item) in H. apply (augmented_tags _ _ _ A) in H.
        assert (H' : In (item t) (map item (md_tags (item (dir_metadata x'))))).
        { apply (augmented_tags _ _ _ A'). destruct H as [H|H]; [left; eapply Permutation_in; [exact Pt|exact H]|right]. intro Q. apply H. apply (alike_none _ _ _ (alike_tag_stack (item t) _ _ F)). exact Q. }
        apply in_map_iff in H'. destruct H' as (y & Q & Hy). exists y. split; [exact Hy|]. symmetry. exact Q.
    - rewrite (aug_links _ _ _ A), (aug_links _ _ _ A'). exact Ali.
  Qed.
  Lemma alike_yields seen es ds : yields seen es ds -> forall seen' es' ds', Forall2 alike_event seen seen' -> Forall2 alike_event es es' -> yields seen' es' ds' ->
    Forall2 (fun d d' => alike (item d) (item d')) ds ds'.
  Proof.
    assert (As : forall e e', alike_event e e' -> match as_directive e, as_directive e' with
              | Some d, Some d' => alike (item d) (item d') /\ distinct_metadata (item (dir_metadata (item d)))
              | None, None => True | _, _ => False end).
    { intros e e' [f d d' A|]; [|exact Logic.I]. cbn. destruct A as [x y -> -> Al Di|p p' -> -> P]; [split; assumption|exact Logic.I]. }
    induction 1 as [seen|seen e es d x ds Ad Au Sp Y IH|seen e es ds Ad Y IH]; intros seen' es' ds' F Fe Y'; inversion Fe as [|? e' ? es0 A Fr]; subst.
    - inversion Y'; subst. constructor.
    - pose proof (As _ _ A) as Z. rewrite Ad in Z. inversion Y' as [|? ? ? d' x' ds0 Ad' Au' Sp' Y0|? ? ? ? Ad' Y0]; subst; rewrite Ad' in Z; [|destruct Z].
      destruct Z as [Al Di]. constructor; [|eapply IH; [|exact Fr|exact Y0]; apply Forall2_app; auto]. exact (alike_augmented _ _ _ _ _ _ F Al Di Au Au').
    - pose proof (As _ _ A) as Z. rewrite Ad in Z. inversion Y' as [|? ? ? d' x' ds0 Ad' Au' Sp' Y0|? ? ? ? Ad' Y0]; subst; rewrite Ad' in Z; [destruct Z|].
      eapply IH; [|exact Fr|exact Y0]. apply Forall2_app; auto.
  Qed.
End Walk.

(** ** The order of the directives *)
Definition kept (d d' : directive) : Prop := same_item (dir_date d) (dir_date d') /\ alike_variant (dir_variant d) (dir_variant d').
Lemma alike_back_variant d d' : kept d d' -> (is_open d <-> is_open d') /\ (is_balance d <-> is_balance d').
Proof.
  intros [_ V]. assert (O : forall x y, alike_variant (dir_variant x) (dir_variant y) -> (is_open x <-> is_open y) /\ (is_balance x <-> is_balance y)); [|apply O; exact V].
  clear. intros x y V. unfold is_open, is_balance. destruct V; cbn; split; split; try tauto; intros; try discriminate; auto;
    repeat match goal with H : exists _, _ |- _ => destruct H end; try discriminate; eauto.
Qed.
Lemma alike_must_precede a b c d : kept a c -> kept b d -> (must_precede a b <-> must_precede c d).
Proof.
  intros Ha Hb. pose proof (alike_back_variant _ _ Ha). pose proof (alike_back_variant _ _ Hb). destruct Ha as [Da _], Hb as [Db _].
  unfold must_precede, same_item in *. rewrite Da, Db. tauto.
Qed.
Lemma kept_sorted (Q : directive -> directive -> Prop) l l' out out' : (forall x y, Q x y -> kept x y) -> Forall2 (fun d d' : spanned directive => Q (item d) (item d')) l l' -> sorted_from l out -> sorted_from l' out' ->
  Forall2 (fun d d' => Q (item d) (item d')) out out'.
Proof.
  intros HQ Sm (pi & P & M & H) (pi' & P' & M' & H').
  assert (At : forall p x x', nth_error l p = Some x -> nth_error l' p = Some x' -> Q (item x) (item x')).
  { clear - Sm. induction Sm as [|a b l l' S Sm IH]; intros [|p] x x' X X'; try discriminate; cbn in *; [injection X as <-; injection X' as <-; exact S|eauto]. }
  assert (Ln : List.length l = List.length l') by (clear - Sm; induction Sm; cbn; congruence).
  assert (Ord : forall (l out : list (spanned directive)) pi, map (nth_error l) pi = map Some out ->
    (forall i j x y, occurs_before out i j x y -> ~ must_precede (item y) (item x) /\
       (tied (item x) (item y) -> forall p q, nth_error pi i = Some p -> nth_error pi j = Some q -> p < q)) ->
    ForallOrdPairs (fun p q => exists x y, nth_error l p = Some x /\ nth_error l q = Some y /\ ~ must_precede (item y) (item x) /\
       (tied (item x) (item y) -> p < q)) pi).
  { clear. intros l out pi M H. apply pairs_nth. intros i j p q Lt Hp Hq.
    destruct (sorted_places _ _ _ M i p Hp) as (x & Ox & Lx), (sorted_places _ _ _ M j q Hq) as (y & Oy & Ly).
    exists x, y. destruct (H i j x y (conj Lt (conj Ox Oy))) as [A B]. repeat split; auto. }
  assert (pi = pi') as <-.
  { eapply (ordered_unique (fun p q => exists x y, nth_error l p = Some x /\ nth_error l q = Some y /\ ~ must_precede (item y) (item x) /\
       (tied (item x) (item y) -> p < q))); [|etransitivity; [exact P|rewrite Ln; symmetry; exact P']|exact (Ord _ _ _ M H)|].
    - intros p q (x & y & Hx & Hy & A & B) (y' & x' & Hy' & Hx' & A' & B'). assert (y' = y) by congruence. assert (x' = x) by congruence. subst.
      assert (T1 : tied (item x) (item y)) by (split; assumption). assert (T2 : tied (item y) (item x)) by (split; assumption).
      specialize (B T1). specialize (B' T2). lia.
    - pose proof (Ord _ _ _ M' H') as O. clear - O At Ln HQ. induction O as [|p pi F O IH]; constructor; [|exact IH].
      eapply Forall_impl; [|exact F]. cbn. intros q (x & y & Hx & Hy & A & B).
      assert (Ex : forall p z, nth_error l' p = Some z -> exists z', nth_error l p = Some z' /\ Q (item z') (item z)).
      { intros p' z Hz. destruct (nth_error l p') as [z'|] eqn:Y; [exists z'; split; [reflexivity|apply (At _ _ _ Y Hz)]|].
        apply nth_error_None in Y. assert (p' < List.length l') by (apply nth_error_Some; congruence). lia. }
      destruct (Ex _ _ Hx) as (x' & Hx' & Cx), (Ex _ _ Hy) as (y' & Hy' & Cy). exists x', y'. split; [exact Hx'|]. split; [exact Hy'|].
      pose proof (alike_must_precede _ _ _ _ (HQ _ _ Cx) (HQ _ _ Cy)). pose proof (alike_must_precede _ _ _ _ (HQ _ _ Cy) (HQ _ _ Cx)). unfold tied in *. tauto. }
  clear - M M' At. revert out out' M M'. induction pi as [|p pi IH]; intros [|x out] [|x' out'] M M'; try discriminate; [constructor|].
  cbn in M, M'. injection M as M0 M. injection M' as M0' M'. constructor; [exact (At _ _ _ M0 M0')|auto].
Qed.
Lemma alike_sorted l l' out out' : Forall2 (fun d d' : spanned directive => alike (item d) (item d')) l l' -> sorted_from l out -> sorted_from l' out' ->
  Forall2 (fun d d' => alike (item d) (item d')) out out'.
Proof. apply (kept_sorted alike). intros x y [A _ B]. split; assumption. Qed.
