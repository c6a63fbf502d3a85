(** * Facts for C85: accounts renamed in files which may set rules, and what is processed *)
From Coq Require Import String Ascii.
From Coq Require Import List NArith ZArith Arith Bool Lia Permutation.
From Verif Require Import Base BaseFacts Path Sources Types SpecTypes SpecSort Options SpecOptions OptionsFacts Pragma SpecPragma PragmaRun Token Grammar SpecGrammar SpecDirective SpecWhole Parse SpecParse
  AlikeWalk SpecPaste Paste P_Paste SpecAppend P_Parse Append SpecRename Rename RenameRun.
Import SpecPragma.
Import ListNotations.
Local Open Scope nat_scope.

(** ** Declarations, under any rules *)
Section Tiles.
  Context (E : grammar_env) (rn : str -> str) (I J : input) (Kt : keeps_types rn (g_unicode E)).
  Context (Src : in_source J = in_source I) (Len : in_len J = in_len I)
          (Tok : in_tokens J = map (fun x => (rename_token rn (fst x), snd x)) (in_tokens I)).
  Context (Lt : forall i j e, sum I i j e -> i < j) (file : option path).
  Context (Next : forall r0 i, (exists j d es r', declares E I file r0 i j d es r') \/ finished I i -> ~ tok I i T_Indent).
  Let down := other_I rn I J Tok.
  Let up := other_J rn I J Tok.
  Definition valid_names (r : rules) : Prop := forall t, account_type_name_lang (g_unicode E) (rl_names r t).
  Lemma valid_carries r : valid_names r -> carries rn (g_unicode E) (rl_names r) (rl_names r).
  Proof. intros V t ws F. exact (Kt _ _ (V t) F). Qed.
  Lemma option_valid r i j o es r1 : valid_names r -> option_at E I file r i j o es r1 -> valid_names r1.
  Proof.
    intros V [a b name value0 o2 e r' _ _ _ Ef]. destruct Ef as [t s R _|t t' s R _ _|m R|v R Hv|_|z _]; auto.
    intro t'. cbn. unfold set_name. inversion R; subst. match goal with |- context [if ?c then _ else _] => destruct c end; [assumption|apply V].
  Qed.
  Lemma declares_any r i j d es r1 : valid_names r -> declares E I file r i j d es r1 -> ~ tok I j T_Indent ->
    valid_names r1 /\ declares E J file r i j (in_place (rename_declaration rn) d) es r1.
  Proof.
    intros V D Ni. pose proof (valid_carries r V) as Car. pose proof (text_J rn I J Src Len Tok) as place.
    destruct D as [x e [W _]|k p P L|k o e r1 O L]; unfold in_place; cbn [item span_of]; rewrite <- place.
    - split; [exact V|]. apply declares_directive.
      assert (Nj : ~ tok J j T_Indent) by (intro X; apply Ni; apply down; [exact Logic.I|exact X]).
      split; [eapply directive_J; eassumption|]. split.
      + intros k m [q T _ _]. exact (Nj T).
      + intros fl py na ps _ k a es' X. inversion X; subst. contradiction.
    - split; [exact V|]. eapply declares_pragma; [eapply pragma_J; eassumption|eapply line_end_J; eassumption].
    - split; [eapply option_valid; eassumption|]. eapply declares_option; [|eapply line_end_J; eassumption].
      destruct O as [a b name value0 o2 e r' T S S' Ef]. apply up in T; [|exact Logic.I].
      econstructor; [exact T| | |exact Ef]; (eapply written_same; [eassumption..| |eassumption]; apply (string_J rn I J Tok)).
  Qed.
  Lemma tiles_any r i ds es ws r' : valid_names r -> tiles E I file r i ds es ws r' ->
    valid_names r' /\ tiles E J file r i (map (in_place (rename_declaration rn)) ds) es ws r'.
  Proof.
    intros V T. revert V. induction T as [r i F|r i j d es r1 ds es' ws r' D T IH]; intro V.
    - split; [exact V|]. constructor. eapply finished_J; eassumption.
    - assert (Ni : ~ tok I j T_Indent).
      { apply (Next r1). inversion T as [r5 i5 F5|r5 i5 j5 d5 e5 r6 ds5 e6 w5 r7 D5 T5]; subst; [right; assumption|left; eauto 6]. }
      destruct (declares_any _ _ _ _ _ _ V D Ni) as [V1 D']. destruct (IH V1) as [V' T']. split; [exact V'|]. cbn [map]. rewrite <- (long_strings_J rn I J Src Tok). econstructor; eassumption.
  Qed.
End Tiles.

(** ** What is processed *)
Definition rename_event (rn : str -> str) (e : event) : event :=
  match e with Declared f d => Declared f (in_place (rename_declaration rn) d) | Offered _ _ _ => e end.
Section Events.
  Context (rn : str -> str).
  Local Notation nm := (in_place (rename_declaration rn)).
  Local Notation nme := (rename_event rn).
  Local Notation nm_push := (fun x : span * spanned meta_value => (fst x, in_place (rename_value rn) (snd x))).

  Lemma any_tags t es : tag_stack t (map nme es) = tag_stack t es.
  Proof.
    unfold tag_stack. generalize (@nil (spanned str)) as st. induction es as [|e es IH]; intro st; [reflexivity|]. cbn [map fold_left]. rewrite IH. f_equal.
    destruct e as [f [[x|[]] sp]|]; reflexivity.
  Qed.
  Lemma any_metas k es : meta_stack k (map nme es) = map nm_push (meta_stack k es).
  Proof.
    unfold meta_stack. change (@nil (span * spanned meta_value)) with (map nm_push []) at 1. generalize (@nil (span * spanned meta_value)) as st.
    induction es as [|e es IH]; intro st; [reflexivity|]. cbn [map fold_left]. rewrite <- IH. f_equal.
    destruct e as [f [[x|[]] sp]|]; try reflexivity; cbn; destruct (str_eqb _ _); try reflexivity. destruct st; reflexivity.
  Qed.
  Lemma any_options es : options_of (map nme es) = options_of es.
  Proof. unfold options_of. induction es as [|e es IH]; [reflexivity|]. cbn [map flat_map]. rewrite IH. f_equal. destruct e as [f [[x|[]] sp]|]; reflexivity. Qed.
  Lemma any_plugins es : plugins_of (map nme es) = plugins_of es.
  Proof. unfold plugins_of. induction es as [|e es IH]; [reflexivity|]. cbn [map flat_map]. rewrite IH. f_equal. destruct e as [f [[x|[]] sp]|]; reflexivity. Qed.
  Lemma any_leftover es : leftover es [] -> leftover (map nme es) [].
  Proof. rewrite !leftover_none. intros [T K]. split; intro x; [rewrite any_tags; apply T|rewrite any_metas, K; reflexivity]. Qed.
  Lemma any_same_value a b : same_meta_value a b -> same_meta_value (rename_value rn a) (rename_value rn b).
  Proof.
    intros [x y S|x y sa sb c sd se S|v N]; cbn.
    - constructor. exact S.
    - constructor. exact S.
    - destruct v; constructor; solve [exact N|discriminate].
  Qed.
  Lemma any_context a b : same_context a b -> same_context (map nme a) (map nme b).
  Proof.
    intros [T M]. split.
    - intro u. rewrite !any_tags. apply T.
    - intro k. rewrite !any_metas. specialize (M k). induction M as [|x y l l' [Q V] M IH]; cbn; constructor; [|exact IH]. cbn. split; [exact Q|]. apply any_same_value. exact V.
  Qed.
  Lemma any_entered canonicalize c seen sp before : last_entered canonicalize c seen sp before -> last_entered canonicalize c (map nme seen) sp (map nme before).
  Proof.
    intros (p & k & after & -> & Is & No). exists p, k, (map nme after). split; [rewrite map_app; reflexivity|]. split; [exact Is|].
    intros s1 p1 k1 Hin. apply in_map_iff in Hin. destruct Hin as ([|] & Q & Hin); [discriminate|]. cbn in Q. injection Q as -> -> ->. exact (No _ _ _ Hin).
  Qed.
  Lemma any_due canonicalize globs errors seen e : due canonicalize globs errors seen e [] -> due canonicalize globs errors (map nme seen) (nme e) [].
  Proof.
    intro De. destruct e as [f [[x|[]] sp]|sp p [k|]]; cbn in De |- *; auto.
    - rewrite any_tags. exact De.
    - rewrite any_metas. destruct (meta_stack (item k) seen); [discriminate|reflexivity].
    - rewrite any_options. exact De.
    - inversion De as [|c sp0 before X Ca La Sa| |]; subst. eapply due_harmless; [exact X|exact Ca|apply any_entered; exact La|apply any_context; exact Sa].
  Qed.
  Lemma any_dues canonicalize globs errors seen es : dues canonicalize globs errors seen es [] -> dues canonicalize globs errors (map nme seen) (map nme es) [].
  Proof.
    intro D. remember (@nil report) as rs eqn:Q in D. revert Q. induction D as [seen|seen e es rs rs' De D IH]; intro Q; [constructor|].
    apply app_eq_nil in Q. destruct Q as [-> ->]. cbn [map]. change (@nil report) with (@nil report ++ []). constructor; [apply any_due; exact De|].
    specialize (IH eq_refl). rewrite map_app in IH. exact IH.
  Qed.
  Lemma any_augmented seen d d' : augmented seen d d' -> augmented (map nme seen) (rename_directive rn d) (rename_directive rn d').
  Proof.
    intros [a b c e F G H K]. constructor; cbn; auto.
    - f_equal. exact b.
    - intro t. rewrite any_tags. apply F.
    - intros k v. rewrite !in_renamed, renamed_keys, any_metas. split.
      + intros (u & -> & Hu). apply G in Hu. destruct Hu as [Hu|[N Hd]]; [left; eauto|right]. split; [exact N|]. destruct (meta_stack (item k) seen); [discriminate|]. cbn in *. injection Hd as ->. reflexivity.
      + intros [(u & -> & Hu)|[N Hd]]; [exists u; split; [reflexivity|apply G; left; exact Hu]|].
        destruct (meta_stack (item k) seen) as [|[sp u] st] eqn:X; [discriminate|]. cbn in Hd. injection Hd as -> <-. exists u. split; [reflexivity|]. apply G. right. split; [exact N|]. rewrite X. reflexivity.
    - rewrite !renamed_keys. exact K.
  Qed.
  Lemma any_yields seen es ys : yields seen es ys -> yields (map nme seen) (map nme es) (map (in_place (rename_directive rn)) ys).
  Proof.
    intro Y. induction Y as [seen|seen e es d x ds Ad Au Sp Y IH|seen e es ds Ad Y IH]; cbn [map]; [constructor| |].
    - rewrite map_app in IH. destruct e as [f [[z|[]] sp]|]; try discriminate. cbn in Ad. injection Ad as <-.
      eapply yields_directive with (d := mk_spanned (rename_directive rn z) sp); [reflexivity|apply any_augmented; exact Au|exact Sp|exact IH].
    - rewrite map_app in IH. apply yields_other; [|exact IH]. destruct e as [f [[z|[]] sp]|]; try discriminate; reflexivity.
  Qed.

  (** The order of processing. *)
  Definition rename_file (x : option path * list (spanned declaration)) : option path * list (spanned declaration) := (fst x, map nm (snd x)).
  Lemma any_takes t p k ds t1 : takes t p k ds t1 -> takes (map rename_file t) p k (map nm ds) (map rename_file t1).
  Proof. intros (a & b & -> & -> & Sp). exists (map rename_file a), (map rename_file b). rewrite !map_app. auto. Qed.
  Lemma any_absent t p : absent t p -> absent (map rename_file t) p.
  Proof. intros A k ds Hin. apply in_map_iff in Hin. destruct Hin as ([f ds0] & Q & Hin). unfold rename_file in Q. cbn in Q. injection Q as -> _. exact (A _ _ Hin). Qed.
  Lemma any_offers sp t ps es fs t1 : offers sp t ps es fs t1 -> offers sp (map rename_file t) ps (map nme es) (map rename_file fs) (map rename_file t1).
  Proof.
    induction 1 as [t|t p ps k ds t1 es fs t2 Tk O IH|t p ps es fs t1 Ab O IH]; cbn [map].
    - constructor.
    - eapply offers_enter; [apply any_takes; exact Tk|exact IH].
    - apply offers_skip; [apply any_absent; exact Ab|exact IH].
  Qed.
  Lemma any_walk globs :
    (forall t f ds es t1, walk globs t f ds es t1 -> walk globs (map rename_file t) f (map nm ds) (map nme es) (map rename_file t1)) /\
    (forall t fs es t1, walks globs t fs es t1 -> walks globs (map rename_file t) (map rename_file fs) (map nme es) (map rename_file t1)).
  Proof.
    apply walk_walks_ind.
    - intros. constructor.
    - intros t f d ds es t1 Ni W IH. cbn [map]. constructor; [|exact IH]. destruct d as [[x|[]] sp]; cbn in *; auto.
    - intros t f d text ds g offered fs t1 es1 t2 es2 t3 It Gl Of W1 IH1 W2 IH2. cbn [map]. rewrite !map_app. rewrite map_rev in IH1.
      eapply walk_include; [|exact Gl|apply any_offers; exact Of|exact IH1|exact IH2]. cbn. rewrite It. reflexivity.
    - intros. constructor.
    - intros t f ds fs es1 t1 es2 t2 W IH W' IH'. cbn [map]. rewrite map_app. econstructor; eassumption.
  Qed.
End Events.
