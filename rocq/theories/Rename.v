(** * Facts about accounts under other names *)
From Coq Require Import String Ascii.
From Coq Require Import List NArith ZArith Arith Bool Lia Permutation.
From Verif Require Import Base BaseFacts Path Types SpecTypes Options SpecOptions Decimal SpecDecimal Cost SpecCost Token Grammar SpecGrammar SpecDirective ExprFacts Parse SpecParse
  SpecPaste SpecRename.
Import ListNotations.
Local Open Scope nat_scope.

Section Rename.
  Context (E : grammar_env) (rn : str -> str) (I J : input) (names names' : account_type -> str).
  Context (Car : carries rn (g_unicode E) names names').
  Context (Src : in_source J = in_source I) (Len : in_len J = in_len I)
          (Tok : in_tokens J = map (fun x => (rename_token rn (fst x), snd x)) (in_tokens I)).

  Lemma nth_J i : nth_error (in_tokens J) i = option_map (fun x => (rename_token rn (fst x), snd x)) (nth_error (in_tokens I) i).
  Proof. rewrite Tok. apply nth_error_map. Qed.
  Lemma tok_J i t : tok I i t -> tok J i (rename_token rn t).
  Proof. intros [r X]. exists r. rewrite nth_J, X. reflexivity. Qed.
  Definition other (t : token) : Prop := match t with T_Account _ => False | _ => True end.
  Lemma other_J i t : other t -> tok I i t -> tok J i t.
  Proof. intros O T. apply tok_J in T. destruct t; try exact T. destruct O. Qed.
  Lemma other_I i t : other t -> tok J i t -> tok I i t.
  Proof.
    intros O [r X]. rewrite nth_J in X. destruct (nth_error (in_tokens I) i) as [[u r']|] eqn:Q; [|discriminate]. cbn in X. injection X as X Y. subst r'.
    exists r. rewrite Q. destruct u; cbn in X; subst t; try reflexivity. destruct O.
  Qed.
  Lemma finished_J i : finished I i -> finished J i.
  Proof. unfold finished. rewrite nth_J. intros ->. reflexivity. Qed.
  Lemma text_J i j : text J i j = text I i j.
  Proof.
    unfold text, text_from, text_upto. rewrite Src, Len, nth_J. f_equal.
    - destruct (nth_error (in_tokens I) i) as [[? []]|]; reflexivity.
    - destruct j as [|k]; [reflexivity|]. rewrite nth_J. destruct (nth_error (in_tokens I) k) as [[? []]|]; reflexivity.
  Qed.

  Ltac same := repeat match goal with T : tok I _ _ |- _ => apply other_J in T; [|exact Logic.I] end.

  Lemma written_same {A} (R R' : nat -> nat -> A -> Prop) i j x : (forall a, R i j a -> R' i j a) -> written I R i j x -> written J R' i j x.
  Proof. intros H [X Y]. split; [auto|]. rewrite text_J. exact Y. Qed.
  Lemma written_by {A} (f : A -> A) (R R' : nat -> nat -> A -> Prop) i j x : (forall a, R i j a -> R' i j (f a)) -> written I R i j x -> written J R' i j (in_place f x).
  Proof. intros H [X Y]. split; [apply H; exact X|]. cbn. rewrite text_J. exact Y. Qed.
  Lemma maybe_same {A} (R R' : nat -> nat -> A -> Prop) i j x : (forall j a, R i j a -> R' i j a) -> maybe R i j x -> maybe R' i j x.
  Proof. intros H X. destruct X; constructor; auto. Qed.
  Lemma star_by {A} (f : A -> A) (R R' : nat -> nat -> A -> list report -> Prop) i j l es : (forall i j a es, R i j a es -> R' i j (f a) es) -> star R i j l es -> star R' i j (map f l) es.
  Proof. intros H X. induction X; cbn [map]; econstructor; eauto. Qed.
  Lemma separated_same {A} (R R' : nat -> nat -> A -> Prop) i j l : (forall i j a, R i j a -> R' i j a) -> separated I R i j l -> separated J R' i j l.
  Proof. intros H X. induction X; same; econstructor; eauto. Qed.

  Lemma line_end_J i j : line_end I i j -> line_end J i j.
  Proof. intro X. destruct X; same; constructor; auto. apply finished_J. assumption. Qed.

  (** ** Single tokens *)
  Lemma account_J i j a : account_at E I names i j a -> account_at E J names' i j (rename_account rn a).
  Proof.
    intro X. destruct X as [t ws T F]. destruct (Car t ws F) as (ws' & F' & Q). apply tok_J in T. cbn [rename_token] in T. unfold rename_account. cbn [acc_type acc_name]. rewrite Q in *. constructor; assumption.
  Qed.
  Lemma currency_J i j x : currency_at I i j x -> currency_at J i j x.
  Proof. intro X. destruct X. same. constructor; assumption. Qed.
  Lemma tag_J i j x : tag_at E I i j x -> tag_at E J i j x.
  Proof. intro X. destruct X. same. constructor; assumption. Qed.
  Lemma link_J i j x : link_at E I i j x -> link_at E J i j x.
  Proof. intro X. destruct X. same. constructor; assumption. Qed.
  Lemma key_J i j x : key_at E I i j x -> key_at E J i j x.
  Proof. intro X. destruct X. same. constructor; assumption. Qed.
  Lemma date_J i j x : date_at I i j x -> date_at J i j x.
  Proof. intro X. destruct X. same. constructor; assumption. Qed.
  Lemma number_J i j x : number_at I i j x -> number_at J i j x.
  Proof. intro X. destruct X. same. constructor; assumption. Qed.
  Lemma string_J i j x : string_at I i j x -> string_at J i j x.
  Proof. intro X. destruct X. same. constructor; assumption. Qed.
  Lemma booking_J i j x : booking_at I i j x -> booking_at J i j x.
  Proof. intro X. destruct X. same. constructor; assumption. Qed.
  Lemma bool_J i j x : bool_at I i j x -> bool_at J i j x.
  Proof. intro X. destruct X; same; constructor; assumption. Qed.
  Lemma flag_J i j x : flag_at I i j x -> flag_at J i j x.
  Proof. intro X. destruct X; same; constructor; assumption. Qed.
  Lemma txn_J i j x : txn_at I i j x -> txn_at J i j x.
  Proof. intro X. destruct X; same; [apply txn_keyword; assumption|apply txn_flag, flag_J; assumption]. Qed.
End Rename.

(** Expressions are the same in both. *)
Section Expr.
  Context (I J : input) (Up : forall k t, other t -> tok I k t -> tok J k t).
  Lemma expr_same :
    (forall i j e, sum I i j e -> sum J i j e) /\ (forall i j e, product I i j e -> product J i j e) /\
    (forall i j e, factor I i j e -> factor J i j e) /\ (forall i j e, primary I i j e -> primary J i j e).
  Proof.
    apply expr_mutind; intros; repeat match goal with T : tok I _ _ |- _ => apply Up in T; [|exact Logic.I] end; try (constructor; assumption).
    - eapply sum_add; eassumption.
    - eapply sum_sub; eassumption.
    - eapply product_mul; eassumption.
    - eapply product_div; eassumption.
  Qed.
  Lemma value_same E i j v : value_at E I i j v -> value_at E J i j v.
  Proof. intros [S W]. split; [apply expr_same; exact S|exact W]. Qed.
End Expr.

Section More.
  Context (E : grammar_env) (rn : str -> str) (I J : input) (names names' : account_type -> str).
  Context (Car : carries rn (g_unicode E) names names').
  Context (Src : in_source J = in_source I) (Len : in_len J = in_len I)
          (Tok : in_tokens J = map (fun x => (rename_token rn (fst x), snd x)) (in_tokens I)).
  Let up := other_J rn I J Tok.
  Let down := other_I rn I J Tok.
  Ltac same := repeat match goal with T : tok I _ _ |- _ => apply up in T; [|exact Logic.I] end.
  Let value := value_same I J up E.
  Let place := text_J rn I J Src Len Tok.
  Ltac w := eapply written_same; [eassumption..|]; intros ? ?.

  Lemma computable_J : computable E I -> computable E J.
  Proof.
    intros [A B]. split.
    - intros i s T. apply down in T; [|exact Logic.I]. eauto.
    - intros i j e M [S Lo]. apply (B i j e).
      + intros k t Q T. assert (T' : tok J k (rename_token rn t)) by (eapply tok_J; eassumption). destruct (M k _ Q T') as [M1 M2]. split.
        * intro H. apply M1. destruct t; try exact H. cbn in H. intuition discriminate.
        * intro H. destruct M2 as [M2 M3]; [destruct H as [->|(d & ->)]; [left; reflexivity|right; exists d; reflexivity]|].
          split; intro X; [apply M2|apply M3]; apply up; auto; exact Logic.I.
      + split; [apply (expr_same J I down); exact S|]. intros k b X. apply (Lo k b). apply (expr_same I J up). exact X.
  Qed.
  Lemma fine_options_J : fine_options I -> fine_options J.
  Proof. intros F i name value0 c T1 T2 T3. apply (F i name value0 c); apply down; auto; exact Logic.I. Qed.

  (** ** Amounts *)
  Let wr {A} (R R' : nat -> nat -> A -> Prop) i j x (H : forall a, R i j a -> R' i j a) : written I R i j x -> written J R' i j x := written_same rn I J Src Len Tok R R' i j x H.
  Let cur := currency_J rn I J Tok.
  Lemma amount_J i j a : amount_at E I i j a -> amount_at E J i j a.
  Proof. intro X. destruct X as [k N C]. econstructor; [eapply wr; [|exact N]; intros; apply value; assumption|eapply wr; [|exact C]; apply cur]. Qed.
  Lemma amount_tol_J i j a : amount_tol_at E I i j a -> amount_tol_at E J i j a.
  Proof.
    intro X. destruct X as [a W|n t c k m N T Nu C]; same.
    - constructor. eapply wr; [|exact W]. apply amount_J.
    - rewrite <- place. eapply amount_tol_with; [eapply wr; [|exact N]; intros; apply value; assumption|exact T|eapply wr; [|exact Nu]; apply (number_J rn I J Tok)|eapply wr; [|exact C]; apply cur].
  Qed.
  Lemma compound_expr_J i j a : compound_expr_at E I i j a -> compound_expr_at E J i j a.
  Proof.
    intro X. destruct X; same; repeat match goal with V : value_at E I _ _ _ |- _ => apply value in V end.
    - eapply compound_both; eassumption.
    - eapply compound_per_unit; eassumption.
    - eapply compound_per_unit_hash; eassumption.
    - eapply compound_total; eassumption.
  Qed.
  Lemma compound_amount_J i j a : compound_amount_at E I i j a -> compound_amount_at E J i j a.
  Proof.
    intro X. destruct X; same; repeat match goal with V : compound_expr_at E I _ _ _ |- _ => apply compound_expr_J in V | C : currency_at I _ _ _ |- _ => apply cur in C end.
    - eapply compound_with_currency; eassumption.
    - eapply compound_bare; eassumption.
    - eapply compound_currency; eassumption.
    - eapply compound_hash_currency; eassumption.
  Qed.
  Lemma price_sign_J i f : price_sign I i f -> price_sign J i f.
  Proof. intro X. destruct X; same; constructor; assumption. Qed.
  Lemma price_J i j a : price_at E I i j a -> price_at E J i j a.
  Proof.
    intro X. destruct X as [sc P|sc k v P V|sc k c P C|sc k m v c P V C]; apply price_sign_J in P; try apply value in V; try apply cur in C.
    - eapply price_bare; eassumption.
    - eapply price_amount; eassumption.
    - eapply price_currency; eassumption.
    - eapply price_both; eassumption.
  Qed.
  Lemma cost_comp_J i j a : cost_comp_at E I i j a -> cost_comp_at E J i j a.
  Proof.
    intro X. destruct X as [k a A|k d D|k s S|T]; same; constructor; auto.
    - apply compound_amount_J; assumption.
    - eapply date_J; eassumption.
    - eapply string_J; eassumption.
  Qed.
  Lemma cost_J i j a : cost_at E I i j a -> cost_at E J i j a.
  Proof.
    intro X. destruct X as [c T1 T2 S|k l c T1 Se T2 S]; same.
    - eapply cost_empty; assumption.
    - eapply cost_; [assumption| |assumption|eassumption]. eapply separated_same; [eassumption| |exact Se]. intros a b x. apply wr. intro. apply cost_comp_J.
  Qed.

  (** ** Metadata *)
  Lemma meta_value_J i j v : meta_value_at E I names i j v -> meta_value_at E J names' i j (rename_value rn v).
  Proof.
    intro X. destruct X as [a A|v V]; [constructor; apply amount_J; exact A|]. destruct V as [k s S|k c C|k a A|k t T|k l L|k d D|k b B|T|k e V]; cbn; apply meta_simple; constructor.
    - eapply string_J; eassumption.
    - apply cur; assumption.
    - eapply account_J; eassumption.
    - eapply tag_J; eassumption.
    - eapply link_J; eassumption.
    - eapply date_J; eassumption.
    - eapply bool_J; eassumption.
    - same. assumption.
    - apply value. assumption.
  Qed.
  Lemma key_value_J i j x : key_value_at E I names i j x -> key_value_at E J names' i j (mk_mkv (mkv_key x) (in_place (rename_value rn) (mkv_value x))).
  Proof.
    intro X. destruct X as [k m key v K T V|k key K T]; same; cbn.
    - econstructor; [eapply wr; [|exact K]; apply (key_J E rn I J Tok)|exact T|]. eapply written_by; try eassumption. intro. apply meta_value_J.
    - unfold in_place. cbn. rewrite <- place. eapply key_null; [eapply wr; [|exact K]; apply (key_J E rn I J Tok)|exact T].
  Qed.
  Definition rename_metadatum (m : metadatum) : metadatum :=
    match m with
    | MD_KeyValue kv => MD_KeyValue (in_place (fun x => mk_mkv (mkv_key x) (in_place (rename_value rn) (mkv_value x))) kv)
    | _ => m
    end.
  Lemma mark_J i j m : mark_at E I i j m -> mark_at E J i j m.
  Proof. intro X. destruct X as [t W|l W]; constructor; (eapply wr; [|exact W]); [apply (tag_J E rn I J Tok)|apply (link_J E rn I J Tok)]. Qed.
  Lemma metadatum_J i j m : metadatum_at E I names i j m -> metadatum_at E J names' i j (rename_metadatum m).
  Proof.
    intro X. destruct X as [kv W|m M].
    - apply metadatum_key_value. eapply written_by; try eassumption. intro. apply key_value_J.
    - replace (rename_metadatum m) with m by (destruct M; reflexivity). apply metadatum_mark, mark_J, M.
  Qed.
  Lemma metadata_line_J i j m : metadata_line E I names i j m -> metadata_line E J names' i j (rename_metadatum m).
  Proof. intro X. destruct X as [k T M L]. same. econstructor; [exact T|apply metadatum_J; exact M|]. eapply line_end_J; eassumption. Qed.
End More.

Lemma dedup_map {A} (label : A -> problem) (f : A -> A) : (forall x, label (f x) = label x) -> forall seen l kept again,
  dedup label seen l kept again -> dedup label seen (map f l) (map f kept) (map f again).
Proof.
  intros H seen l kept again D. induction D; cbn [map]; [constructor| |].
  - rewrite <- H in *. apply dedup_new; [assumption|]. rewrite H in *. assumption.
  - apply dedup_old; [rewrite H|]; assumption.
Qed.
Lemma collects_by rn l md es : collects l md es -> collects (map (rename_metadatum rn) l) (rename_metadata rn md) es.
Proof.
  intros [kept again D].
  replace (map (repeated metadatum_label metadatum_place) again) with (map (repeated metadatum_label metadatum_place) (map (rename_metadatum rn) again)).
  - unfold rename_metadata. cbn.
    replace (map _ (key_values_in kept)) with (key_values_in (map (rename_metadatum rn) kept)).
    2:{ unfold key_values_in. clear D. induction kept as [|m l0 IH]; [reflexivity|]. cbn [map flat_map]. rewrite map_app, <- IH. destruct m; reflexivity. }
    replace (tags_in kept) with (tags_in (map (rename_metadatum rn) kept)).
    2:{ unfold tags_in. clear D. induction kept as [|m l0 IH]; [reflexivity|]. cbn [map flat_map]. rewrite <- IH. destruct m; reflexivity. }
    replace (links_in kept) with (links_in (map (rename_metadatum rn) kept)).
    2:{ unfold links_in. clear D. induction kept as [|m l0 IH]; [reflexivity|]. cbn [map flat_map]. rewrite <- IH. destruct m; reflexivity. }
    constructor. apply dedup_map; [|exact D]. intros []; reflexivity.
  - rewrite map_map. apply map_ext. intros []; reflexivity.
Qed.

Section Whole.
  Context (E : grammar_env) (rn : str -> str) (I J : input) (names names' : account_type -> str).
  Context (Car : carries rn (g_unicode E) names names').
  Context (Src : in_source J = in_source I) (Len : in_len J = in_len I)
          (Tok : in_tokens J = map (fun x => (rename_token rn (fst x), snd x)) (in_tokens I)).
  Let up := other_J rn I J Tok.
  Let down := other_I rn I J Tok.
  Ltac same := repeat match goal with T : tok I _ _ |- _ => apply up in T; [|exact Logic.I] end.
  Let value := value_same I J up E.
  Let place := text_J rn I J Src Len Tok.
  Let cur := currency_J rn I J Tok.
  Let wr {A} (R R' : nat -> nat -> A -> Prop) i j x (H : forall a, R i j a -> R' i j a) : written I R i j x -> written J R' i j x := written_same rn I J Src Len Tok R R' i j x H.
  Let acc i j x : written I (account_at E I names) i j x -> written J (account_at E J names') i j (in_place (rename_account rn) x) :=
    written_by rn I J Src Len Tok _ _ _ _ _ _ (account_J E rn I J names names' Car Tok i j).

  Lemma silent_by {A} (f : A -> A) (R R' : nat -> nat -> A -> Prop) : (forall i j a, R i j a -> R' i j (f a)) -> forall i j a es, silent R i j a es -> silent R' i j (f a) es.
  Proof. intros H i j a es [X Y]. split; auto. Qed.
  Lemma metadata_J i j md es : metadata_at E I names i j md es -> metadata_at E J names' i j (in_place (rename_metadata rn) md) es.
  Proof.
    intro X. destruct X as [l S C P]. exists (map (rename_metadatum rn) l); [|apply collects_by; exact C|cbn; rewrite place; exact P].
    eapply star_by; [|exact S]. apply silent_by. intros. eapply metadata_line_J; eassumption.
  Qed.
  Lemma posting_J i j p es : posting_at E I names i j p es -> posting_at E J names' i j (in_place (rename_posting rn) p) es.
  Proof.
    intro X. destruct X as [a b c d e f g j fl ac am cu co pr md es T F A Am Cu Co Pr L M]. same. unfold in_place at 1. cbn [item span_of]. unfold rename_posting. cbn. rewrite <- place.
    econstructor; [exact T| |apply acc; exact A| | | | |eapply line_end_J; eassumption|apply metadata_J; exact M].
    - eapply maybe_same; [|exact F]. intros ? ?. apply wr. apply (flag_J rn I J Tok).
    - eapply maybe_same; [|exact Am]. intros ? ?. apply wr. intro. apply value.
    - eapply maybe_same; [|exact Cu]. intros ? ?. apply wr. apply cur.
    - eapply maybe_same; [|exact Co]. intros ? ?. apply wr. intro. eapply cost_J; eassumption.
    - eapply maybe_same; [|exact Pr]. intros ? ?. apply wr. intro. eapply price_J; eassumption.
  Qed.
  Lemma currencies_J i j cs es : currencies_at I i j cs es -> currencies_at J i j cs es.
  Proof.
    intro X. destruct X as [|j first rest kept again S D]; [constructor|]. econstructor; [|exact D]. eapply separated_same; [eassumption| |exact S]. intros ? ? ?. apply wr. apply cur.
  Qed.
  Lemma fields_J i k j v es : fields_at E I names i k j v es -> fields_at E J names' i k j (rename_variant rn v) es.
  Proof.
    intro X. destruct X as [a b c x C A|a b x t A T|a b c x cs bk es A C B|a x A|a c C|a b x s A A'|a b x s A S|a b x s A S|a b x s A S|a b x s A S]; cbn; econstructor;
      try (apply acc; eassumption); try (eapply wr; [|eassumption]; intro; first [apply cur|eapply amount_J; eassumption|eapply amount_tol_J; eassumption|eapply string_J; eassumption]).
    - apply currencies_J. exact C.
    - eapply maybe_same; [|exact B]. intros ? ?. apply wr. apply (booking_J rn I J Tok).
  Qed.
  Lemma joined_J md marks md' es es' : joined E md marks md' es es' -> joined E (in_place (rename_metadata rn) md) marks (in_place (rename_metadata rn) md') es es'.
  Proof. intro X. destruct X as [kept again tags links es es' D M M']. unfold in_place at 2. unfold rename_metadata. cbn. change (span_of md) with (span_of (in_place (rename_metadata rn) md)). exact (joined_ E (in_place (rename_metadata rn) md) marks kept again tags links es es' D M M'). Qed.

  (** A value read where accounts are renamed is a single account, or was there
      before. *)
  Lemma meta_value_I i k v : meta_value_at E J names' i k v -> k = S i \/ exists u, meta_value_at E I names i k u.
  Proof.
    intro X. destruct X as [a A|v V].
    - right. exists (MV_Amount a). constructor. destruct A as [m [N P] [C P']]. exists m; (split; [|rewrite <- place; assumption]); [apply (value_same J I down); exact N|].
      destruct C as [s T L]. apply down in T; [|exact Logic.I]. constructor; assumption.
    - destruct V as [j s S|j c C|j a A|j t T|j l L|j d D|j b B|T|j e V]; try (left; first [reflexivity|match goal with H : _ |- _ => destruct H; reflexivity end]).
      right. exists (MV_Simple (SV_Expr e)). constructor. constructor. apply (value_same J I down). exact V.
  Qed.
  Context (Lt : forall i j e, sum I i j e -> i < j).
  Lemma meta_value_lt i j v : meta_value_at E I names i j v -> i < j.
  Proof.
    intro X. destruct X as [a [m [N _] [C _]]|v V].
    - destruct N as [N _]. apply Lt in N. destruct C. lia.
    - destruct V as [j s S|j c C|j a A|j t T|j l L|j d D|j b B|T|j e [V _]]; try lia; try (match goal with H : _ |- _ => destruct H; lia end). exact (Lt _ _ _ V).
  Qed.
  Lemma longest_J i j x : longest (written I (meta_value_at E I names)) i j x -> longest (written J (meta_value_at E J names')) i j (in_place (rename_value rn) x).
  Proof.
    intros [W Lo]. split.
    - eapply written_by; try eassumption. intro. eapply meta_value_J; eassumption.
    - intros k b [V P]. destruct (meta_value_I _ _ _ V) as [->|(u & V')]; [destruct W as [W _]; exact (meta_value_lt _ _ _ W)|].
      apply (Lo k (mk_spanned u (text I i k))). split; [exact V'|reflexivity].
  Qed.

  Lemma directive_J i j d es : directive_at E I names i j d es -> directive_at E J names' i j (rename_directive rn d) es.
  Proof.
    assert (Dt : forall i j x, written I (date_at I) i j x -> written J (date_at J) i j x) by (intros ? ? ?; apply wr; apply (date_J rn I J Tok)).
    assert (St : forall i j x, written I (string_at I) i j x -> written J (string_at J) i j x) by (intros ? ? ?; apply wr; apply (string_J rn I J Tok)).
    assert (Mk : forall i j l, star (silent (mark_at E I)) i j l [] -> star (silent (mark_at E J)) i j l []).
    { intros a b l S. rewrite <- (map_id l). eapply star_by; [|exact S]. apply (silent_by (fun x => x)). intros. eapply mark_J; eassumption. }
    intro X. destruct X as [a b c d e f j date flag strings payee narration marks md md' postings es1 es2 es3 es4 D T S Ti M L Md P Jo
                           |a b c d j k date v marks md md' es1 es2 es3 es4 D T F M L Md Jo|a b c d j date ty values md es D T S V L Md]; unfold rename_directive; cbn.
    - eapply directive_transaction; [apply Dt; exact D| | |exact Ti|apply Mk; exact M|eapply line_end_J; eassumption|apply metadata_J; exact Md| |apply joined_J; exact Jo].
      + eapply wr; [|exact T]. apply (txn_J rn I J Tok).
      + rewrite <- (map_id strings). eapply star_by; [|exact S]. apply (silent_by (fun x => x)). intros. apply St. assumption.
      + eapply star_by; [|exact P]. intros. apply posting_J. assumption.
    - same. eapply directive_line; [apply Dt; exact D|exact T|apply fields_J; exact F|apply Mk; exact M|eapply line_end_J; eassumption|apply metadata_J; exact Md|apply joined_J; exact Jo].
    - same. eapply directive_custom; [apply Dt; exact D|exact T|apply St; exact S| |eapply line_end_J; eassumption|apply metadata_J; exact Md].
      eapply star_by; [|exact V]. apply silent_by. intros. apply longest_J. assumption.
  Qed.

  (** ** Declarations *)
  Context (file : option path) (r r2 : rules) (Nr : rl_names r = names) (Nr2 : rl_names r2 = names') (Lr : rl_limit r = rl_limit r2).
  Definition rename_pragma (p : pragma) : pragma :=
    match p with P_Pushmeta x => P_Pushmeta (mk_mkv (mkv_key x) (in_place (rename_value rn) (mkv_value x))) | _ => p end.
  Definition rename_declaration (d : declaration) : declaration :=
    match d with D_Directive x => D_Directive (rename_directive rn x) | D_Pragma p => D_Pragma (rename_pragma p) end.
  Lemma pragma_J i j p : pragma_at E I names i j p -> pragma_at E J names' i j (rename_pragma p).
  Proof.
    intro X. destruct X as [k t T G|k t T G|k kv T K|k key T K T'|k s T S|k m s c T S C]; same; cbn; try rewrite <- place.
    - econstructor; [assumption|eapply tag_J; eassumption].
    - econstructor; [assumption|eapply tag_J; eassumption].
    - econstructor; [assumption|eapply key_value_J; eassumption].
    - econstructor; [assumption|eapply key_J; eassumption|assumption].
    - econstructor; [assumption|]. eapply wr; [|exact S]. apply (string_J rn I J Tok).
    - econstructor; [assumption| |].
      + eapply wr; [|exact S]. apply (string_J rn I J Tok).
      + eapply maybe_same; [|exact C]. intros ? ?. apply wr. apply (string_J rn I J Tok).
  Qed.
  Context (Ns : forall i, ~ sets_rule_at I i).
  Lemma option_J i j o es r' : option_at E I file r i j o es r' -> r' = r /\ option_at E J file r2 i j o es r2.
  Proof.
    intro X. destruct X as [a b name value0 o es r' T S S' Ef]. pose proof S as [W _]. pose proof S' as [W' _]. inversion W as [x T1 Y]; subst. inversion W' as [x' T2 Y']; subst.
    assert (No : forall v, reads (g_unicode E) (g_decimal E) file (item name) (item value0) v -> match v with O_AccountTypeName _ _ | O_LongStringMaxlines _ => False | _ => True end).
    { intros v R. destruct v; try exact Logic.I; apply (Ns i); exists (item name), (item value0); (split; [exact T|split; [exact T1|split; [exact T2|]]]); inversion R; subst; [destruct t|]; cbn; tauto. }
    assert (Q : r' = r /\ option_effect E file r2 name value0 o es r2).
    { destruct Ef as [t s R _|t t' s R _ _|m R|v R Hv|U0|e We]; try (destruct (No _ R)); (split; [reflexivity|]); [eapply effect_none; eassumption|apply effect_unknown; assumption|apply effect_bad; assumption]. }
    destruct Q as [-> Q]. split; [reflexivity|]. same. econstructor; [exact T| | |exact Q]; (eapply wr; [|eassumption]; apply (string_J rn I J Tok)).
  Qed.
  Lemma long_strings_J lim i j : long_strings lim J i j = long_strings lim I i j.
  Proof.
    unfold long_strings. apply flat_map_ext. intro k. rewrite (nth_J rn I J Tok), Src. destruct (nth_error (in_tokens I) k) as [[t [a b]]|]; [|reflexivity]. destruct t; reflexivity.
  Qed.
  Lemma declares_J i j d es r1 : declares E I file r i j d es r1 -> ~ tok I j T_Indent -> r1 = r /\ declares E J file r2 i j (in_place rename_declaration d) es r2.
  Proof.
    intros D Ni. destruct D as [x e [W _]|k p P L|k o e r1 O L]; unfold in_place; cbn [item span_of]; rewrite <- place.
    - split; [reflexivity|]. apply declares_directive. rewrite Nr in W. rewrite Nr2.
      assert (Nj : ~ tok J j T_Indent) by (intro X; apply Ni; apply down; [exact Logic.I|exact X]).
      split; [apply directive_J; exact W|]. split.
      + intros k m [q T _ _]. exact (Nj T).
      + intros fl py na ps _ k a es' X. inversion X; subst. contradiction.
    - split; [reflexivity|]. eapply declares_pragma; [rewrite Nr2; rewrite Nr in P; apply pragma_J; exact P|eapply line_end_J; eassumption].
    - destruct (option_J _ _ _ _ _ O) as [-> O']. split; [reflexivity|]. eapply declares_option; [exact O'|eapply line_end_J; eassumption].
  Qed.
  Context (Next : forall r0 i, (exists j d es r', declares E I file r0 i j d es r') \/ finished I i -> ~ tok I i T_Indent).
  Lemma tiles_J i ds es ws r' : tiles E I file r i ds es ws r' -> r' = r /\ tiles E J file r2 i (map (in_place rename_declaration) ds) es ws r2.
  Proof.
    intro T. remember r as r0 eqn:Q0 in T at 1. revert Q0. induction T as [r0 i F|r0 i j d es r1 ds es' ws r' D T IH]; intros ->.
    - split; [reflexivity|]. constructor. eapply finished_J; eassumption.
    - assert (Ni : ~ tok I j T_Indent).
      { apply (Next r1). inversion T as [r5 i5 F5|r5 i5 j5 d5 e5 r6 ds5 e6 w5 r7 D5 T5]; subst; [right; assumption|left; eauto 6]. }
      destruct (declares_J _ _ _ _ _ D Ni) as [-> D']. destruct (IH eq_refl) as [-> T']. split; [reflexivity|]. cbn [map]. rewrite Lr, <- long_strings_J. econstructor; eassumption.
  Qed.
End Whole.
