(** * Facts about other numbers *)
From Coq Require Import String Ascii.
From Coq Require Import List NArith ZArith Arith Bool Lia Permutation.
From Verif Require Import Base BaseFacts Path Types SpecTypes Options SpecOptions Decimal SpecDecimal Cost SpecCost Token Grammar SpecGrammar SpecDirective ExprFacts P_Expr Parse SpecParse
  SpecPaste SpecRename SpecNumbers.
Import ListNotations.
Local Open Scope nat_scope.

Section Numbers.
  Context (E : grammar_env) (nu : decimal -> decimal) (I J : input) (names : account_type -> str).
  Context (Ci : calculable E I) (Cj : calculable E J).
  Context (Src : in_source J = in_source I) (Len : in_len J = in_len I)
          (Tok : in_tokens J = map (fun x => (number_token nu (fst x), snd x)) (in_tokens I)).

  Lemma nth_J i : nth_error (in_tokens J) i = option_map (fun x => (number_token nu (fst x), snd x)) (nth_error (in_tokens I) i).
  Proof. rewrite Tok. apply nth_error_map. Qed.
  Lemma tok_J i t : tok I i t -> tok J i (number_token nu t).
  Proof. intros [r X]. exists r. rewrite nth_J, X. reflexivity. Qed.
  Lemma tok_I i t : tok J i t -> exists u, tok I i u /\ t = number_token nu u.
  Proof.
    intros [r X]. rewrite nth_J in X. destruct (nth_error (in_tokens I) i) as [[u r']|] eqn:Q; [|discriminate]. cbn in X. injection X as X Y.
    exists u. split; [exists r'; exact Q|auto].
  Qed.
  Definition other (t : token) : Prop := match t with T_Number _ => False | _ => True end.
  Lemma other_J i t : other t -> tok I i t -> tok J i t.
  Proof. intros O T. apply tok_J in T. destruct t; try exact T. destruct O. Qed.
  Lemma other_I i t : other t -> tok J i t -> tok I i t.
  Proof.
    intros O [r X]. rewrite nth_J in X. destruct (nth_error (in_tokens I) i) as [[u r']|] eqn:Q; [|discriminate]. cbn in X. injection X as X Y. subst r'.
    exists r. rewrite Q. destruct u; cbn in X; subst t; try reflexivity. destruct O.
  Qed.
  Lemma finished_J i : finished I i -> finished J i.
  Proof. unfold finished. rewrite nth_J. intros ->. reflexivity. Qed.
  Lemma text_J i j : text J i j = text I i j.
  Proof.
    unfold text, text_from, text_upto. rewrite Src, Len, nth_J. f_equal.
    - destruct (nth_error (in_tokens I) i) as [[? []]|]; reflexivity.
    - destruct j as [|k]; [reflexivity|]. rewrite nth_J. destruct (nth_error (in_tokens I) k) as [[? []]|]; reflexivity.
  Qed.

  Ltac same := repeat match goal with T : tok I _ _ |- _ => apply other_J in T; [|exact Logic.I] end.

  Lemma written_same {A} (R R' : nat -> nat -> A -> Prop) i j x : (forall a, R i j a -> R' i j a) -> written I R i j x -> written J R' i j x.
  Proof. intros H [X Y]. split; [auto|]. rewrite text_J. exact Y. Qed.
  Lemma written_by {A} (f : A -> A) (R R' : nat -> nat -> A -> Prop) i j x : (forall a, R i j a -> R' i j (f a)) -> written I R i j x -> written J R' i j (in_place f x).
  Proof. intros H [X Y]. split; [apply H; exact X|]. cbn. rewrite text_J. exact Y. Qed.
  Lemma maybe_same {A} (R R' : nat -> nat -> A -> Prop) i j x : (forall j a, R i j a -> R' i j a) -> maybe R i j x -> maybe R' i j x.
  Proof. intros H X. destruct X; constructor; auto. Qed.
  Lemma maybe_by {A} (f : A -> A) (R R' : nat -> nat -> A -> Prop) i j x : (forall j a, R i j a -> R' i j (f a)) -> maybe R i j x -> maybe R' i j (option_map f x).
  Proof. intros H X. destruct X; constructor; auto. Qed.
  Lemma separated_by {A} (f : A -> A) (R R' : nat -> nat -> A -> Prop) i j l : (forall i j a, R i j a -> R' i j (f a)) -> separated I R i j l -> separated J R' i j (map f l).
  Proof. intros H X. induction X; same; cbn [map]; econstructor; eauto. Qed.
  Lemma star_by {A} (f : A -> A) (R R' : nat -> nat -> A -> list report -> Prop) i j l es : (forall i j a es, R i j a es -> R' i j (f a) es) -> star R i j l es -> star R' i j (map f l) es.
  Proof. intros H X. induction X; cbn [map]; econstructor; eauto. Qed.
  Lemma separated_same {A} (R R' : nat -> nat -> A -> Prop) i j l : (forall i j a, R i j a -> R' i j a) -> separated I R i j l -> separated J R' i j l.
  Proof. intros H X. induction X; same; econstructor; eauto. Qed.

  Lemma line_end_J i j : line_end I i j -> line_end J i j.
  Proof. intro X. destruct X; same; constructor; auto. apply finished_J. assumption. Qed.

  (** ** Single tokens *)
  Lemma account_J i j a : account_at E I names i j a -> account_at E J names i j a.
  Proof. intro X. destruct X. same. constructor; assumption. Qed.
  Lemma currency_J i j x : currency_at I i j x -> currency_at J i j x.
  Proof. intro X. destruct X. same. constructor; assumption. Qed.
  Lemma tag_J i j x : tag_at E I i j x -> tag_at E J i j x.
  Proof. intro X. destruct X. same. constructor; assumption. Qed.
  Lemma link_J i j x : link_at E I i j x -> link_at E J i j x.
  Proof. intro X. destruct X. same. constructor; assumption. Qed.
  Lemma key_J i j x : key_at E I i j x -> key_at E J i j x.
  Proof. intro X. destruct X. same. constructor; assumption. Qed.
  Lemma date_J i j x : date_at I i j x -> date_at J i j x.
  Proof. intro X. destruct X. same. constructor; assumption. Qed.
  Lemma number_J i j x : number_at I i j x -> number_at J i j (nu x).
  Proof. intro X. destruct X as [d T]. apply tok_J in T. constructor. exact T. Qed.
  Lemma string_J i j x : string_at I i j x -> string_at J i j x.
  Proof. intro X. destruct X. same. constructor; assumption. Qed.
  Lemma booking_J i j x : booking_at I i j x -> booking_at J i j x.
  Proof. intro X. destruct X. same. constructor; assumption. Qed.
  Lemma bool_J i j x : bool_at I i j x -> bool_at J i j x.
  Proof. intro X. destruct X; same; constructor; assumption. Qed.
  Lemma flag_J i j x : flag_at I i j x -> flag_at J i j x.
  Proof. intro X. destruct X; same; constructor; assumption. Qed.
  Lemma txn_J i j x : txn_at I i j x -> txn_at J i j x.
  Proof. intro X. destruct X; same; [apply txn_keyword; assumption|apply txn_flag, flag_J; assumption]. Qed.
End Numbers.

(** ** Expressions *)
Section Expr.
  Context (nu : decimal -> decimal) (I J : input) (Up : forall k t, tok I k t -> tok J k (number_token nu t)) (Down : forall k t, tok J k t -> exists u, tok I k u /\ t = number_token nu u).
  Lemma expr_up :
    (forall i j e, sum I i j e -> sum J i j (number_expr nu e)) /\ (forall i j e, product I i j e -> product J i j (number_expr nu e)) /\
    (forall i j e, factor I i j e -> factor J i j (number_expr nu e)) /\ (forall i j e, primary I i j e -> primary J i j (number_expr nu e)).
  Proof.
    apply expr_mutind; intros; repeat match goal with T : tok I _ _ |- _ => apply Up in T; cbn [number_token] in T end; cbn [number_expr]; try (constructor; assumption).
    - eapply sum_add; eassumption.
    - eapply sum_sub; eassumption.
    - eapply product_mul; eassumption.
    - eapply product_div; eassumption.
  Qed.
  Lemma other_down k t : other t -> tok J k t -> tok I k t.
  Proof. intros O T. apply Down in T. destruct T as (u & T & ->). destruct u; try exact T. destruct O. Qed.
  Lemma expr_down :
    (forall i j e, sum J i j e -> exists e', sum I i j e') /\ (forall i j e, product J i j e -> exists e', product I i j e') /\
    (forall i j e, factor J i j e -> exists e', factor I i j e') /\ (forall i j e, primary J i j e -> exists e', primary I i j e').
  Proof.
    apply expr_mutind; intros;
      try match goal with T : tok J _ (T_Number _) |- _ => apply Down in T; destruct T as (u & T & Q); destruct u; try discriminate; eexists; constructor; exact T end;
      repeat match goal with T : tok J _ _ |- _ => apply other_down in T; [|exact Logic.I] | H : exists _, _ |- _ => destruct H end.
    - eexists. apply sum_one. eassumption.
    - eexists. eapply sum_add; eassumption.
    - eexists. eapply sum_sub; eassumption.
    - eexists. apply product_one. eassumption.
    - eexists. eapply product_mul; eassumption.
    - eexists. eapply product_div; eassumption.
    - eexists. apply factor_plain. eassumption.
    - eexists. apply factor_plus; eassumption.
    - eexists. apply factor_minus; eassumption.
    - eexists. eapply primary_parens; eassumption.
  Qed.
  Context (E : grammar_env) (Ci : calculable E I) (Cj : calculable E J).
  Lemma value_up i j v : value_at E I i j v -> value_at E J i j (number_value (g_ops E) nu v).
  Proof.
    intros [S W]. apply expr_up in S. destruct (Cj _ _ _ S) as (v' & W' & Q).
    assert (X : expr_value_from (g_ops E) (number_expr nu (ev_expr v)) = Fine v').
    { apply C20_evaluates_tree. destruct W' as (d & s & A & B & C). rewrite Q in A, B. exists d, s. auto. }
    unfold number_value. rewrite X. split; [rewrite Q; exact S|exact W'].
  Qed.
  Lemma value_down i j v : value_at E J i j v -> exists u, value_at E I i j u.
  Proof.
    intros [S W]. apply expr_down in S. destruct S as (e & S). destruct (Ci _ _ _ S) as (u & Wu & Q). exists u. split; [rewrite Q; exact S|exact Wu].
  Qed.
End Expr.

(** ** Costs *)
Definition number_compound_expr (ops : dec_ops) (nu : decimal -> decimal) (e : compound_expr) : compound_expr :=
  match e with
  | CE_PerUnit v => CE_PerUnit (number_value ops nu v)
  | CE_Total v => CE_Total (number_value ops nu v)
  | CE_Both v w => CE_Both (number_value ops nu v) (number_value ops nu w)
  end.
Definition number_compound (ops : dec_ops) (nu : decimal -> decimal) (a : compound_amount) : compound_amount :=
  match a with CA_Currency c => CA_Currency c | CA_CurrencyAmount e c => CA_CurrencyAmount (number_compound_expr ops nu e) c | CA_Amount e => CA_Amount (number_compound_expr ops nu e) end.
Definition number_comp (ops : dec_ops) (nu : decimal -> decimal) (c : cost_comp) : cost_comp := match c with CC_Amount a => CC_Amount (number_compound ops nu a) | _ => c end.
Lemma given_kept {A} ops nu (f : cost_comp -> option A) : (forall c, f (number_comp ops nu c) = f c) -> forall l, given f (map (in_place (number_comp ops nu)) l) = given f l.
Proof. intros H l. unfold given. induction l as [|x l IH]; [reflexivity|]. cbn [map flat_map]. rewrite IH. cbn. rewrite H. reflexivity. Qed.
Lemma given_value ops nu (f : cost_comp -> option expr_value) : (forall c, f (number_comp ops nu c) = option_map (number_value ops nu) (f c)) ->
  forall l, given f (map (in_place (number_comp ops nu)) l) = map (in_place (number_value ops nu)) (given f l).
Proof. intros H l. unfold given. induction l as [|[x p] l IH]; [reflexivity|]. cbn [map flat_map]. rewrite IH, map_app. f_equal. cbn. rewrite H. destruct (f x); reflexivity. Qed.
Lemma spells_number ops nu l c : spells_cost l c -> spells_cost (map (in_place (number_comp ops nu)) l) (number_cost ops nu c).
Proof.
  intros [A B C D F G]. constructor; cbn; try (rewrite given_kept; [assumption|intros [[]| | |]; reflexivity]).
  - rewrite given_value by (intros [[|[]|[]]| | |]; reflexivity). destruct A; constructor.
  - rewrite given_value by (intros [[|[]|[]]| | |]; reflexivity). destruct B; constructor.
Qed.

Section More.
  Context (E : grammar_env) (nu : decimal -> decimal) (I J : input) (names : account_type -> str).
  Context (Ci : calculable E I) (Cj : calculable E J).
  Context (Src : in_source J = in_source I) (Len : in_len J = in_len I)
          (Tok : in_tokens J = map (fun x => (number_token nu (fst x), snd x)) (in_tokens I)).
  Let up := other_J nu I J Tok.
  Let down := other_I nu I J Tok.
  Ltac same := repeat match goal with T : tok I _ _ |- _ => apply up in T; [|exact Logic.I] end.
  Let value := value_up nu I J (tok_J nu I J Tok) E Cj.
  Let place := text_J nu I J Src Len Tok.

  Lemma fine_options_J : fine_options I -> fine_options J.
  Proof. intros F i name value0 c T1 T2 T3. apply (F i name value0 c); apply down; auto; exact Logic.I. Qed.

  (** ** Amounts *)
  Let wr {A} (R R' : nat -> nat -> A -> Prop) i j x (H : forall a, R i j a -> R' i j a) : written I R i j x -> written J R' i j x := written_same nu I J Src Len Tok R R' i j x H.
  Let cur := currency_J nu I J Tok.
  Let wb {A} (f : A -> A) (R R' : nat -> nat -> A -> Prop) i j x (H : forall a, R i j a -> R' i j (f a)) : written I R i j x -> written J R' i j (in_place f x) := written_by nu I J Src Len Tok f R R' i j x H.
  Lemma amount_J i j a : amount_at E I i j a -> amount_at E J i j (number_amount (g_ops E) nu a).
  Proof. intro X. destruct X as [k N C]. econstructor; [eapply wb; [|exact N]; intros; apply value; assumption|eapply wr; [|exact C]; apply cur]. Qed.
  Lemma amount_tol_J i j a : amount_tol_at E I i j a -> amount_tol_at E J i j (number_amount_tol (g_ops E) nu a).
  Proof.
    intro X. destruct X as [a W|n t c k m N T Nu C]; same.
    - constructor. eapply wb; [|exact W]. apply amount_J.
    - unfold number_amount_tol, in_place, number_amount. cbn. rewrite <- place.
      refine (amount_tol_with E J i _ (in_place (number_value (g_ops E) nu) n) (in_place nu t) c k m _ T _ _); [eapply wb; [|exact N]; intros; apply value; assumption|eapply wb; [|exact Nu]; apply (number_J nu I J Tok)|eapply wr; [|exact C]; apply cur].
  Qed.
  Lemma compound_expr_J i j a : compound_expr_at E I i j a -> compound_expr_at E J i j (number_compound_expr (g_ops E) nu a).
  Proof.
    intro X. destruct X; same; repeat match goal with V : value_at E I _ _ _ |- _ => apply value in V end; cbn.
    - eapply compound_both; eassumption.
    - eapply compound_per_unit; eassumption.
    - eapply compound_per_unit_hash; eassumption.
    - eapply compound_total; eassumption.
  Qed.
  Lemma compound_amount_J i j a : compound_amount_at E I i j a -> compound_amount_at E J i j (number_compound (g_ops E) nu a).
  Proof.
    intro X. destruct X; same; repeat match goal with V : compound_expr_at E I _ _ _ |- _ => apply compound_expr_J in V | C : currency_at I _ _ _ |- _ => apply cur in C end; cbn.
    - eapply compound_with_currency; eassumption.
    - eapply compound_bare; eassumption.
    - eapply compound_currency; eassumption.
    - eapply compound_hash_currency; eassumption.
  Qed.
  Lemma price_sign_J i f : price_sign I i f -> price_sign J i f /\ forall v, number_scoped (g_ops E) nu (f v) = f (number_value (g_ops E) nu v).
  Proof. intro X. destruct X; same; (split; [constructor; assumption|reflexivity]). Qed.
  Lemma price_J i j a : price_at E I i j a -> price_at E J i j (number_price (g_ops E) nu a).
  Proof.
    intro X. destruct X as [sc P|sc k v P V|sc k c P C|sc k m v c P V C]; apply price_sign_J in P; destruct P as [P Q]; try apply value in V; try apply cur in C; cbn; rewrite ?Q.
    - eapply price_bare; eassumption.
    - eapply price_amount; eassumption.
    - eapply price_currency; eassumption.
    - eapply price_both; eassumption.
  Qed.
  Lemma cost_comp_J i j a : cost_comp_at E I i j a -> cost_comp_at E J i j (number_comp (g_ops E) nu a).
  Proof.
    intro X. destruct X as [k a A|k d D|k s S|T]; same; cbn; constructor; auto.
    - apply compound_amount_J; assumption.
    - eapply date_J; eassumption.
    - eapply string_J; eassumption.
  Qed.
  Lemma cost_J i j a : cost_at E I i j a -> cost_at E J i j (number_cost (g_ops E) nu a).
  Proof.
    intro X. destruct X as [c T1 T2 S|k l c T1 Se T2 S]; same; apply (spells_number (g_ops E) nu) in S.
    - eapply cost_empty; assumption.
    - eapply cost_; [assumption| |assumption|exact S]. eapply separated_by; [eassumption| |exact Se]. intros a b x. apply wb. intro. apply cost_comp_J.
  Qed.

  (** ** Metadata *)
  Lemma meta_value_J i j v : meta_value_at E I names i j v -> meta_value_at E J names i j (number_meta (g_ops E) nu v).
  Proof.
    intro X. destruct X as [a A|v V]; [constructor; apply amount_J; exact A|]. destruct V as [k s S|k c C|k a A|k t T|k l L|k d D|k b B|T|k e V]; cbn; apply meta_simple; constructor.
    - eapply string_J; eassumption.
    - apply cur; assumption.
    - eapply account_J; eassumption.
    - eapply tag_J; eassumption.
    - eapply link_J; eassumption.
    - eapply date_J; eassumption.
    - eapply bool_J; eassumption.
    - same. assumption.
    - apply value. assumption.
  Qed.
  Lemma key_value_J i j x : key_value_at E I names i j x -> key_value_at E J names i j (mk_mkv (mkv_key x) (in_place (number_meta (g_ops E) nu) (mkv_value x))).
  Proof.
    intro X. destruct X as [k m key v K T V|k key K T]; same; cbn.
    - econstructor; [eapply wr; [|exact K]; apply (key_J E nu I J Tok)|exact T|]. eapply written_by; try eassumption. intro. apply meta_value_J.
    - unfold in_place. cbn. rewrite <- place. eapply key_null; [eapply wr; [|exact K]; apply (key_J E nu I J Tok)|exact T].
  Qed.
  Definition number_metadatum (m : metadatum) : metadatum :=
    match m with
    | MD_KeyValue kv => MD_KeyValue (in_place (fun x => mk_mkv (mkv_key x) (in_place (number_meta (g_ops E) nu) (mkv_value x))) kv)
    | _ => m
    end.
  Lemma mark_J i j m : mark_at E I i j m -> mark_at E J i j m.
  Proof. intro X. destruct X as [t W|l W]; constructor; (eapply wr; [|exact W]); [apply (tag_J E nu I J Tok)|apply (link_J E nu I J Tok)]. Qed.
  Lemma metadatum_J i j m : metadatum_at E I names i j m -> metadatum_at E J names i j (number_metadatum m).
  Proof.
    intro X. destruct X as [kv W|m M].
    - apply metadatum_key_value. eapply written_by; try eassumption. intro. apply key_value_J.
    - replace (number_metadatum m) with m by (destruct M; reflexivity). apply metadatum_mark, mark_J, M.
  Qed.
  Lemma metadata_line_J i j m : metadata_line E I names i j m -> metadata_line E J names i j (number_metadatum m).
  Proof. intro X. destruct X as [k T M L]. same. econstructor; [exact T|apply metadatum_J; exact M|]. eapply line_end_J; eassumption. Qed.
End More.

Lemma dedup_map {A} (label : A -> problem) (f : A -> A) : (forall x, label (f x) = label x) -> forall seen l kept again,
  dedup label seen l kept again -> dedup label seen (map f l) (map f kept) (map f again).
Proof.
  intros H seen l kept again D. induction D; cbn [map]; [constructor| |].
  - rewrite <- H in *. apply dedup_new; [assumption|]. rewrite H in *. assumption.
  - apply dedup_old; [rewrite H|]; assumption.
Qed.
Lemma collects_by E nu l md es : collects l md es -> collects (map (number_metadatum E nu) l) (number_metadata (g_ops E) nu md) es.
Proof.
  intros [kept again D].
  replace (map (repeated metadatum_label metadatum_place) again) with (map (repeated metadatum_label metadatum_place) (map (number_metadatum E nu) again)).
  - unfold number_metadata. cbn.
    replace (map (fun x => (fst x, in_place (number_meta (g_ops E) nu) (snd x))) (key_values_in kept)) with (key_values_in (map (number_metadatum E nu) kept)).
    2:{ unfold key_values_in. clear D. induction kept as [|m l0 IH]; [reflexivity|]. cbn [map flat_map]. rewrite map_app, <- IH. destruct m; reflexivity. }
    replace (tags_in kept) with (tags_in (map (number_metadatum E nu) kept)).
    2:{ unfold tags_in. clear D. induction kept as [|m l0 IH]; [reflexivity|]. cbn [map flat_map]. rewrite <- IH. destruct m; reflexivity. }
    replace (links_in kept) with (links_in (map (number_metadatum E nu) kept)).
    2:{ unfold links_in. clear D. induction kept as [|m l0 IH]; [reflexivity|]. cbn [map flat_map]. rewrite <- IH. destruct m; reflexivity. }
    constructor. apply dedup_map; [|exact D]. intros []; reflexivity.
  - rewrite map_map. apply map_ext. intros []; reflexivity.
Qed.

Section Whole.
  Context (E : grammar_env) (nu : decimal -> decimal) (I J : input) (names : account_type -> str).
  Context (Ci : calculable E I) (Cj : calculable E J).
  Context (Src : in_source J = in_source I) (Len : in_len J = in_len I)
          (Tok : in_tokens J = map (fun x => (number_token nu (fst x), snd x)) (in_tokens I)).
  Let up := other_J nu I J Tok.
  Let down := other_I nu I J Tok.
  Ltac same := repeat match goal with T : tok I _ _ |- _ => apply up in T; [|exact Logic.I] end.
  Let value := value_up nu I J (tok_J nu I J Tok) E Cj.
  Let place := text_J nu I J Src Len Tok.
  Let cur := currency_J nu I J Tok.
  Let wr {A} (R R' : nat -> nat -> A -> Prop) i j x (H : forall a, R i j a -> R' i j a) : written I R i j x -> written J R' i j x := written_same nu I J Src Len Tok R R' i j x H.
  Let wb {A} (f : A -> A) (R R' : nat -> nat -> A -> Prop) i j x (H : forall a, R i j a -> R' i j (f a)) : written I R i j x -> written J R' i j (in_place f x) := written_by nu I J Src Len Tok f R R' i j x H.
  Let acc i j x : written I (account_at E I names) i j x -> written J (account_at E J names) i j x := wr _ _ i j x (account_J E nu I J names Tok i j).

  Lemma silent_by {A} (f : A -> A) (R R' : nat -> nat -> A -> Prop) : (forall i j a, R i j a -> R' i j (f a)) -> forall i j a es, silent R i j a es -> silent R' i j (f a) es.
  Proof. intros H i j a es [X Y]. split; auto. Qed.
  Lemma metadata_J i j md es : metadata_at E I names i j md es -> metadata_at E J names i j (in_place (number_metadata (g_ops E) nu) md) es.
  Proof.
    intro X. destruct X as [l S C P]. exists (map (number_metadatum E nu) l); [|apply collects_by; exact C|cbn; rewrite place; exact P].
    eapply star_by; [|exact S]. apply silent_by. intros. eapply metadata_line_J; eassumption.
  Qed.
  Lemma posting_J i j p es : posting_at E I names i j p es -> posting_at E J names i j (in_place (number_posting (g_ops E) nu) p) es.
  Proof.
    intro X. destruct X as [a b c d e f g j fl ac am cu co pr md es T F A Am Cu Co Pr L M]. same. unfold in_place at 1. cbn [item span_of]. unfold number_posting. cbn. rewrite <- place.
    econstructor; [exact T| |apply acc; exact A| | | | |eapply line_end_J; eassumption|apply metadata_J; exact M].
    - eapply maybe_same; [|exact F]. intros ? ?. apply wr. apply (flag_J nu I J Tok).
    - eapply maybe_by; [|exact Am]. intros ? ?. apply wb. intro. apply value.
    - eapply maybe_same; [|exact Cu]. intros ? ?. apply wr. apply cur.
    - eapply maybe_by; [|exact Co]. intros ? ?. apply wb. intro. eapply cost_J; eassumption.
    - eapply maybe_by; [|exact Pr]. intros ? ?. apply wb. intro. eapply price_J; eassumption.
  Qed.
  Lemma currencies_J i j cs es : currencies_at I i j cs es -> currencies_at J i j cs es.
  Proof.
    intro X. destruct X as [|j first rest kept again S D]; [constructor|]. econstructor; [|exact D]. eapply separated_same; [eassumption| |exact S]. intros ? ? ?. apply wr. apply cur.
  Qed.
  Lemma fields_J i k j v es : fields_at E I names i k j v es -> fields_at E J names i k j (number_variant (g_ops E) nu v) es.
  Proof.
    intro X. destruct X as [a b c x C A|a b x t A T|a b c x cs bk es A C B|a x A|a c C|a b x s A A'|a b x s A S|a b x s A S|a b x s A S|a b x s A S]; cbn; econstructor;
      try (apply acc; eassumption); try (eapply wr; [|eassumption]; intro; first [apply cur|eapply string_J; eassumption]).
    - eapply wb; [|exact A]. intro. eapply amount_J; eassumption.
    - eapply wb; [|exact T]. intro. eapply amount_tol_J; eassumption.
    - apply currencies_J. exact C.
    - eapply maybe_same; [|exact B]. intros ? ?. apply wr. apply (booking_J nu I J Tok).
  Qed.
  Lemma joined_J md marks md' es es' : joined E md marks md' es es' -> joined E (in_place (number_metadata (g_ops E) nu) md) marks (in_place (number_metadata (g_ops E) nu) md') es es'.
  Proof. intro X. destruct X as [kept again tags links es es' D M M']. unfold in_place at 2. unfold number_metadata. cbn. change (span_of md) with (span_of (in_place (number_metadata (g_ops E) nu) md)). exact (joined_ E (in_place (number_metadata (g_ops E) nu) md) marks kept again tags links es es' D M M'). Qed.

  (** A value read among the other numbers was there before. *)
  Lemma meta_value_I i k v : meta_value_at E J names i k v -> k = S i \/ exists u, meta_value_at E I names i k u.
  Proof.
    intro X. destruct X as [a A|v V].
    - right. destruct A as [m [N P] [C P']]. apply (value_down nu I J (tok_I nu I J Tok) E Ci) in N. destruct N as (u & N).
      inversion C as [s T L Q1 Q2]; subst k. apply down in T; [|exact Logic.I].
      exists (MV_Amount (mk_amount (mk_spanned u (text I i m)) (mk_spanned s (text I m (S m))))). constructor. exists m; (split; [|reflexivity]); [exact N|]. rewrite Q2. constructor; assumption.
    - destruct V as [j s S|j c C|j a A|j t T|j l L|j d D|j b B|T|j e V]; try (left; first [reflexivity|match goal with H : _ |- _ => destruct H; reflexivity end]).
      right. apply (value_down nu I J (tok_I nu I J Tok) E Ci) in V. destruct V as (u & V). exists (MV_Simple (SV_Expr u)). constructor. constructor. exact V.
  Qed.
  Context (Lt : forall i j e, sum I i j e -> i < j).
  Lemma meta_value_lt i j v : meta_value_at E I names i j v -> i < j.
  Proof.
    intro X. destruct X as [a [m [N _] [C _]]|v V].
    - destruct N as [N _]. apply Lt in N. destruct C. lia.
    - destruct V as [j s S|j c C|j a A|j t T|j l L|j d D|j b B|T|j e [V _]]; try lia; try (match goal with H : _ |- _ => destruct H; lia end). exact (Lt _ _ _ V).
  Qed.
  Lemma longest_J i j x : longest (written I (meta_value_at E I names)) i j x -> longest (written J (meta_value_at E J names)) i j (in_place (number_meta (g_ops E) nu) x).
  Proof.
    intros [W Lo]. split.
    - eapply written_by; try eassumption. intro. eapply meta_value_J; eassumption.
    - intros k b [V P]. destruct (meta_value_I _ _ _ V) as [->|(u & V')]; [destruct W as [W _]; exact (meta_value_lt _ _ _ W)|].
      apply (Lo k (mk_spanned u (text I i k))). split; [exact V'|reflexivity].
  Qed.

  Lemma directive_J i j d es : directive_at E I names i j d es -> directive_at E J names i j (number_directive (g_ops E) nu d) es.
  Proof.
    assert (Dt : forall i j x, written I (date_at I) i j x -> written J (date_at J) i j x) by (intros ? ? ?; apply wr; apply (date_J nu I J Tok)).
    assert (St : forall i j x, written I (string_at I) i j x -> written J (string_at J) i j x) by (intros ? ? ?; apply wr; apply (string_J nu I J Tok)).
    assert (Mk : forall i j l, star (silent (mark_at E I)) i j l [] -> star (silent (mark_at E J)) i j l []).
    { intros a b l S. rewrite <- (map_id l). eapply star_by; [|exact S]. apply (silent_by (fun x => x)). intros. eapply mark_J; eassumption. }
    intro X. destruct X as [a b c d e f j date flag strings payee narration marks md md' postings es1 es2 es3 es4 D T S Ti M L Md P Jo
                           |a b c d j k date v marks md md' es1 es2 es3 es4 D T F M L Md Jo|a b c d j date ty values md es D T S V L Md]; unfold number_directive; cbn.
    - eapply directive_transaction; [apply Dt; exact D| | |exact Ti|apply Mk; exact M|eapply line_end_J; eassumption|apply metadata_J; exact Md| |apply joined_J; exact Jo].
      + eapply wr; [|exact T]. apply (txn_J nu I J Tok).
      + rewrite <- (map_id strings). eapply star_by; [|exact S]. apply (silent_by (fun x => x)). intros. apply St. assumption.
      + eapply star_by; [|exact P]. intros. apply posting_J. assumption.
    - same. eapply directive_line; [apply Dt; exact D|exact T|apply fields_J; exact F|apply Mk; exact M|eapply line_end_J; eassumption|apply metadata_J; exact Md|apply joined_J; exact Jo].
    - same. eapply directive_custom; [apply Dt; exact D|exact T|apply St; exact S| |eapply line_end_J; eassumption|apply metadata_J; exact Md].
      eapply star_by; [|exact V]. apply silent_by. intros. apply longest_J. assumption.
  Qed.

End Whole.

(** ** Declarations *)
Section Tiles.
  Context (E : grammar_env) (nu : decimal -> decimal) (I J : input).
  Context (Ci : calculable E I) (Cj : calculable E J).
  Context (Src : in_source J = in_source I) (Len : in_len J = in_len I)
          (Tok : in_tokens J = map (fun x => (number_token nu (fst x), snd x)) (in_tokens I)).
  Context (Lt : forall i j e, sum I i j e -> i < j) (file : option path).
  Context (Next : forall r0 i, (exists j d es r', declares E I file r0 i j d es r') \/ finished I i -> ~ tok I i T_Indent).
  Let up := other_J nu I J Tok.
  Let down := other_I nu I J Tok.
  Let place := text_J nu I J Src Len Tok.
  Ltac same := repeat match goal with T : tok I _ _ |- _ => apply up in T; [|exact Logic.I] end.
  Let wr {A} (R R' : nat -> nat -> A -> Prop) i j x (H : forall a, R i j a -> R' i j a) : written I R i j x -> written J R' i j x := written_same nu I J Src Len Tok R R' i j x H.

  Definition number_pragma (p : pragma) : pragma :=
    match p with P_Pushmeta x => P_Pushmeta (mk_mkv (mkv_key x) (in_place (number_meta (g_ops E) nu) (mkv_value x))) | _ => p end.
  Definition number_declaration (d : declaration) : declaration :=
    match d with D_Directive x => D_Directive (number_directive (g_ops E) nu x) | D_Pragma p => D_Pragma (number_pragma p) end.
  Lemma pragma_J names i j p : pragma_at E I names i j p -> pragma_at E J names i j (number_pragma p).
  Proof.
    intro X. destruct X as [k t T G|k t T G|k kv T K|k key T K T'|k s T S|k m s c T S C]; same; cbn; try rewrite <- place.
    - econstructor; [assumption|eapply tag_J; eassumption].
    - econstructor; [assumption|eapply tag_J; eassumption].
    - econstructor; [assumption|eapply key_value_J; eassumption].
    - econstructor; [assumption|eapply key_J; eassumption|assumption].
    - econstructor; [assumption|]. eapply wr; [|exact S]. apply (string_J nu I J Tok).
    - econstructor; [assumption| |].
      + eapply wr; [|exact S]. apply (string_J nu I J Tok).
      + eapply maybe_same; [|exact C]. intros ? ?. apply wr. apply (string_J nu I J Tok).
  Qed.
  Lemma long_strings_J lim i j : long_strings lim J i j = long_strings lim I i j.
  Proof.
    unfold long_strings. apply flat_map_ext. intro k. rewrite (nth_J nu I J Tok), Src. destruct (nth_error (in_tokens I) k) as [[t [a b]]|]; [|reflexivity]. destruct t; reflexivity.
  Qed.
  Lemma declares_J r i j d es r1 : declares E I file r i j d es r1 -> ~ tok I j T_Indent -> declares E J file r i j (in_place number_declaration d) es r1.
  Proof.
    intros D Ni. destruct D as [x e [W _]|k p P L|k o e r1 O L]; unfold in_place; cbn [item span_of]; rewrite <- place.
    - apply declares_directive.
      assert (Nj : ~ tok J j T_Indent) by (intro X; apply Ni; apply down; [exact Logic.I|exact X]).
      split; [apply (directive_J E nu I J (rl_names r) Ci Cj Src Len Tok Lt); assumption|]. split.
      + intros k m [q T _ _]. exact (Nj T).
      + intros fl py na ps _ k a es' X. inversion X; subst. contradiction.
    - eapply declares_pragma; [apply pragma_J; exact P|eapply line_end_J; eassumption].
    - eapply declares_option; [|eapply line_end_J; eassumption].
      destruct O as [a b name value0 o2 e r' T S S' Ef]. same.
      econstructor; [exact T| | |exact Ef]; (eapply wr; [|eassumption]; apply (string_J nu I J Tok)).
  Qed.
  Lemma tiles_J r i ds es ws r' : tiles E I file r i ds es ws r' -> tiles E J file r i (map (in_place number_declaration) ds) es ws r'.
  Proof.
    intro T. induction T as [r i F|r i j d es r1 ds es' ws r' D T IH].
    - constructor. eapply finished_J; eassumption.
    - assert (Ni : ~ tok I j T_Indent).
      { apply (Next r1). inversion T as [r5 i5 F5|r5 i5 j5 d5 e5 r6 ds5 e6 w5 r7 D5 T5]; subst; [right; assumption|left; eauto 6]. }
      cbn [map]. rewrite <- long_strings_J. econstructor; [eapply declares_J; eassumption|exact IH].
  Qed.
End Tiles.
