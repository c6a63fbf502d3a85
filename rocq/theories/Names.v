(** * Facts about currencies, tags, links and keys under other names *)
From Coq Require Import String Ascii.
From Coq Require Import List NArith ZArith Arith Bool Lia Permutation.
From Verif Require Import Base BaseFacts Path Types SpecTypes Options SpecOptions Decimal SpecDecimal Cost SpecCost Token Grammar SpecGrammar SpecDirective SpecDisplay ExprFacts Parse SpecParse
  SpecPaste SpecPragma SpecAlike AlikeEquiv AlikeRead AlikeFile SimCopy SpecRename SpecNames.
Import ListNotations.
Local Open Scope nat_scope.

Section Names.
  Context (E : grammar_env) (n : naming) (I J : input) (names : account_type -> str).
  Context (Fa : faithful (g_unicode E) n).
  Context (Src : in_source J = in_source I) (Len : in_len J = in_len I)
          (Tok : in_tokens J = map (fun x => (name_token n (fst x), snd x)) (in_tokens I)).

  Lemma nth_J i : nth_error (in_tokens J) i = option_map (fun x => (name_token n (fst x), snd x)) (nth_error (in_tokens I) i).
  Proof. rewrite Tok. apply nth_error_map. Qed.
  Lemma tok_J i t : tok I i t -> tok J i (name_token n t).
  Proof. intros [r X]. exists r. rewrite nth_J, X. reflexivity. Qed.
  Lemma tok_I i t : tok J i t -> exists u, tok I i u /\ t = name_token n u.
  Proof.
    intros [r X]. rewrite nth_J in X. destruct (nth_error (in_tokens I) i) as [[u r']|] eqn:Q; [|discriminate]. cbn in X. injection X as X Y.
    exists u. split; [exists r'; exact Q|auto].
  Qed.
  Definition other (t : token) : Prop := match t with T_Currency _ | T_Tag _ | T_Link _ | T_Key _ | T_Date _ | T_String _ => False | _ => True end.
  Lemma other_J i t : other t -> tok I i t -> tok J i t.
  Proof. intros O T. apply tok_J in T. destruct t; try exact T; destruct O. Qed.
  Lemma other_I i t : other t -> tok J i t -> tok I i t.
  Proof. intros O T. apply tok_I in T. destruct T as (u & T & ->). destruct u; try exact T; destruct O. Qed.
  Lemma finished_J i : finished I i -> finished J i.
  Proof. unfold finished. rewrite nth_J. intros ->. reflexivity. Qed.
  Lemma text_J i j : text J i j = text I i j.
  Proof.
    unfold text, text_from, text_upto. rewrite Src, Len, nth_J. f_equal.
    - destruct (nth_error (in_tokens I) i) as [[? []]|]; reflexivity.
    - destruct j as [|k]; [reflexivity|]. rewrite nth_J. destruct (nth_error (in_tokens I) k) as [[? []]|]; reflexivity.
  Qed.

  Ltac same := repeat match goal with T : tok I _ _ |- _ => apply other_J in T; [|exact Logic.I] end.

  Lemma written_same {A} (R R' : nat -> nat -> A -> Prop) i j x : (forall a, R i j a -> R' i j a) -> written I R i j x -> written J R' i j x.
  Proof. intros H [X Y]. split; [auto|]. rewrite text_J. exact Y. Qed.
  Lemma written_by {A} (f : A -> A) (R R' : nat -> nat -> A -> Prop) i j x : (forall a, R i j a -> R' i j (f a)) -> written I R i j x -> written J R' i j (in_place f x).
  Proof. intros H [X Y]. split; [apply H; exact X|]. cbn. rewrite text_J. exact Y. Qed.
  Lemma maybe_same {A} (R R' : nat -> nat -> A -> Prop) i j x : (forall j a, R i j a -> R' i j a) -> maybe R i j x -> maybe R' i j x.
  Proof. intros H X. destruct X; constructor; auto. Qed.
  Lemma maybe_by {A} (f : A -> A) (R R' : nat -> nat -> A -> Prop) i j x : (forall j a, R i j a -> R' i j (f a)) -> maybe R i j x -> maybe R' i j (option_map f x).
  Proof. intros H X. destruct X; constructor; auto. Qed.
  Lemma star_by {A} (f : A -> A) (R R' : nat -> nat -> A -> list report -> Prop) i j l : (forall i j a, R i j a [] -> R' i j (f a) []) -> star R i j l [] -> star R' i j (map f l) [].
  Proof.
    intros H X. remember (@nil report) as es eqn:Q in X. revert Q. induction X as [i|i j k a l es es' X S IH]; intro Q; cbn [map]; [constructor|].
    apply app_eq_nil in Q. destruct Q as [-> ->]. change (@nil report) with (@nil report ++ []). econstructor; eauto.
  Qed.
  Lemma separated_by {A} (f : A -> A) (R R' : nat -> nat -> A -> Prop) i j l : (forall i j a, R i j a -> R' i j (f a)) -> separated I R i j l -> separated J R' i j (map f l).
  Proof. intros H X. induction X; same; cbn [map]; econstructor; eauto. Qed.

  Lemma line_end_J i j : line_end I i j -> line_end J i j.
  Proof. intro X. destruct X; same; constructor; auto. apply finished_J. assumption. Qed.

  (** ** Single tokens *)
  Lemma account_J i j a : account_at E I names i j a -> account_at E J names i j a.
  Proof. intro X. destruct X. same. constructor; assumption. Qed.
  Lemma currency_J i j x : currency_at I i j x -> currency_at J i j (on_currency n x).
  Proof. intro X. destruct X as [s T W]. apply tok_J in T. constructor; [exact T|]. exact (proj1 (proj1 (proj2 (fa_currency _ _ Fa)) s) W). Qed.
  Lemma tag_J i j x : tag_at E I i j x -> tag_at E J i j (on_tag n x).
  Proof. intro X. destruct X as [s T W]. apply tok_J in T. constructor; [exact T|]. exact (proj1 (proj2 (fa_tag _ _ Fa) s) W). Qed.
  Lemma link_J i j x : link_at E I i j x -> link_at E J i j (on_link n x).
  Proof. intro X. destruct X as [s T W]. apply tok_J in T. constructor; [exact T|]. exact (proj1 (proj2 (fa_link _ _ Fa) s) W). Qed.
  Lemma key_J i j x : key_at E I i j x -> key_at E J i j (on_key n x).
  Proof. intro X. destruct X as [s T W]. apply tok_J in T. constructor; [exact T|]. exact (proj1 (proj2 (fa_key _ _ Fa) s) W). Qed.
  Lemma date_J i j x : date_at I i j x -> date_at J i j (on_date n x).
  Proof. intro X. destruct X as [d T]. apply tok_J in T. constructor. exact T. Qed.
  Lemma number_J i j x : number_at I i j x -> number_at J i j x.
  Proof. intro X. destruct X. same. constructor; assumption. Qed.
  Lemma string_J i j x : string_at I i j x -> string_at J i j (on_string n x).
  Proof. intro X. destruct X as [s T]. apply tok_J in T. constructor. exact T. Qed.
  Lemma booking_J i j x : booking_at I i j x -> booking_at J i j x.
  Proof. intro X. destruct X as [b T]. apply tok_J in T. cbn in T. rewrite (fa_booking _ _ Fa) in T. constructor. exact T. Qed.
  Lemma bool_J i j x : bool_at I i j x -> bool_at J i j x.
  Proof. intro X. destruct X; same; constructor; assumption. Qed.
  Lemma flag_J i j x : flag_at I i j x -> flag_at J i j x.
  Proof. intro X. destruct X; same; constructor; assumption. Qed.
  Lemma txn_J i j x : txn_at I i j x -> txn_at J i j x.
  Proof. intro X. destruct X; same; [apply txn_keyword; assumption|apply txn_flag, flag_J; assumption]. Qed.
End Names.

(** What an option says is kept. *)
Lemma option_kept n I : keeps_options (on_string n) (map fst (in_tokens I)) -> forall i s t,
  tok I i (T_Keyword K_Option) -> tok I (S i) (T_String s) -> tok I (S (S i)) (T_String t) -> on_string n s = s /\ on_string n t = t.
Proof.
  intros Ko i s t [r A] [r' B] [r'' C]. apply nth_error_split in A. destruct A as (l & m & Q & Ll).
  assert (F : forall k, nth_error (in_tokens I) (S k + i) = nth_error m k).
  { intro k. rewrite Q, nth_error_app2 by lia. replace (S k + i - List.length l) with (S k) by lia. reflexivity. }
  pose proof (F 0) as F0. pose proof (F 1) as F1. cbn [Nat.add] in F0, F1. rewrite F0 in B. rewrite F1 in C. destruct m as [|[a ra] [|[b rb] m]]; try discriminate. cbn in B, C. injection B as -> ->. injection C as -> ->.
  apply (Ko (map fst l) s t (map fst m)). rewrite Q, map_app. reflexivity.
Qed.
Lemma include_kept n I : keeps_includes (on_string n) (map fst (in_tokens I)) -> forall i s,
  tok I i (T_Keyword K_Include) -> tok I (S i) (T_String s) -> on_string n s = s.
Proof.
  intros Ki i s [r A] [r' B]. apply nth_error_split in A. destruct A as (l & m & Q & Ll).
  assert (F : nth_error (in_tokens I) (S i) = nth_error m 0).
  { rewrite Q, nth_error_app2 by lia. replace (S i - List.length l) with 1 by lia. reflexivity. }
  rewrite F in B. destruct m as [|[a ra] m]; try discriminate. cbn in B. injection B as -> ->.
  apply (Ki (map fst l) s (map fst m)). rewrite Q, map_app. reflexivity.
Qed.
Lemma titles_named U n l p na : faithful U n -> titles l p na -> titles (map (in_place (on_string n)) l) (option_map (in_place (on_string n)) p) (option_map (in_place (on_string n)) na).
Proof.
  intros Fa T.
  assert (H : forall s o, unless_empty s o -> unless_empty (in_place (on_string n) s) (option_map (in_place (on_string n)) o)).
  { intros s o X. destruct (fa_string _ _ Fa (item s)) as [Q _]. destruct X; constructor; cbn; tauto. }
  destruct T; cbn; constructor; auto.
Qed.

(** Expressions are the same in both. *)
Section Expr.
  Context (I J : input) (Up : forall k t, other t -> tok I k t -> tok J k t).
  Lemma expr_same :
    (forall i j e, sum I i j e -> sum J i j e) /\ (forall i j e, product I i j e -> product J i j e) /\
    (forall i j e, factor I i j e -> factor J i j e) /\ (forall i j e, primary I i j e -> primary J i j e).
  Proof.
    apply expr_mutind; intros; repeat match goal with T : tok I _ _ |- _ => apply Up in T; [|exact Logic.I] end; try (constructor; assumption).
    - eapply sum_add; eassumption.
    - eapply sum_sub; eassumption.
    - eapply product_mul; eassumption.
    - eapply product_div; eassumption.
  Qed.
  Lemma value_same E i j v : value_at E I i j v -> value_at E J i j v.
  Proof. intros [S W]. split; [apply expr_same; exact S|exact W]. Qed.
End Expr.

(** ** Costs *)
Definition name_compound (n : naming) (a : compound_amount) : compound_amount :=
  match a with CA_Currency c => CA_Currency (on_currency n c) | CA_CurrencyAmount e c => CA_CurrencyAmount e (on_currency n c) | _ => a end.
Definition name_comp (n : naming) (c : cost_comp) : cost_comp := match c with CC_Amount a => CC_Amount (name_compound n a) | CC_Date d => CC_Date (on_date n d) | CC_Label s => CC_Label (on_string n s) | _ => c end.
Lemma given_same {A} n (f : cost_comp -> option A) : (forall c, f (name_comp n c) = f c) -> forall l, given f (map (in_place (name_comp n)) l) = given f l.
Proof. intros H l. unfold given. induction l as [|x l IH]; [reflexivity|]. cbn [map flat_map]. rewrite IH. cbn. rewrite H. reflexivity. Qed.
Lemma given_currency n l : given currency_of (map (in_place (name_comp n)) l) = map (in_place (on_currency n)) (given currency_of l).
Proof. unfold given. induction l as [|[x p] l IH]; [reflexivity|]. cbn [map flat_map]. rewrite IH, map_app. f_equal. destruct x as [[]| | |]; reflexivity. Qed.
Lemma given_date n l : given date_of (map (in_place (name_comp n)) l) = map (in_place (on_date n)) (given date_of l).
Proof. unfold given. induction l as [|[x p] l IH]; [reflexivity|]. cbn [map flat_map]. rewrite IH, map_app. f_equal. destruct x as [[]| | |]; reflexivity. Qed.
Lemma given_label n l : given label_of (map (in_place (name_comp n)) l) = map (in_place (on_string n)) (given label_of l).
Proof. unfold given. induction l as [|[x p] l IH]; [reflexivity|]. cbn [map flat_map]. rewrite IH, map_app. f_equal. destruct x as [[]| | |]; reflexivity. Qed.
Lemma spells_named n l c : spells_cost l c -> spells_cost (map (in_place (name_comp n)) l) (name_cost n c).
Proof.
  intros [A B C D F G]. constructor; cbn; try (rewrite given_same; [assumption|intros [[]| | |]; reflexivity]).
  - rewrite given_currency. destruct C; constructor.
  - rewrite given_date. destruct D; constructor.
  - rewrite given_label. destruct F; constructor.
Qed.

Section More.
  Context (E : grammar_env) (n : naming) (I J : input) (names : account_type -> str).
  Context (Fa : faithful (g_unicode E) n).
  Context (Src : in_source J = in_source I) (Len : in_len J = in_len I)
          (Tok : in_tokens J = map (fun x => (name_token n (fst x), snd x)) (in_tokens I)).
  Let up := other_J n I J Tok.
  Let down := other_I n I J Tok.
  Ltac same := repeat match goal with T : tok I _ _ |- _ => apply up in T; [|exact Logic.I] end.
  Let value := value_same I J up E.
  Let place := text_J n I J Src Len Tok.

  Lemma computable_J : computable E I -> computable E J.
  Proof.
    intros [A B]. split.
    - intros i s T. apply (tok_I n I J Tok) in T. destruct T as (u & T & Q). destruct u; try discriminate. cbn in Q. injection Q as ->. apply (fa_currency _ _ Fa). eauto.
    - intros i j e M [S Lo]. apply (B i j e).
      + intros k t Q T. assert (T' : tok J k (name_token n t)) by (eapply tok_J; eassumption). destruct (M k _ Q T') as [M1 M2]. split.
        * intro H. apply M1. destruct t; try exact H; cbn in H; intuition discriminate.
        * intro H. destruct M2 as [M2 M3]; [destruct H as [->|(d & ->)]; [left; reflexivity|right; exists d; reflexivity]|].
          split; intro X; [apply M2|apply M3]; apply up; auto; exact Logic.I.
      + split; [apply (expr_same J I down); exact S|]. intros k b X. apply (Lo k b). apply (expr_same I J up). exact X.
  Qed.
  Lemma fine_options_J : keeps_options (on_string n) (map fst (in_tokens I)) -> fine_options I -> fine_options J.
  Proof.
    intros Ko F i name value0 c T1 T2 T3. apply down in T1; [|exact Logic.I].
    apply (tok_I n I J Tok) in T2. destruct T2 as (u & T2 & Q2). destruct u; try discriminate. cbn in Q2. injection Q2 as ->.
    apply (tok_I n I J Tok) in T3. destruct T3 as (u & T3 & Q3). destruct u; try discriminate. cbn in Q3. injection Q3 as ->.
    destruct (option_kept n I Ko _ _ _ T1 T2 T3) as [-> ->]. apply (F i _ _ c T1 T2 T3).
  Qed.

  (** ** Amounts *)
  Let wr {A} (R R' : nat -> nat -> A -> Prop) i j x (H : forall a, R i j a -> R' i j a) : written I R i j x -> written J R' i j x := written_same n I J Src Len Tok R R' i j x H.
  Let wb {A} (f : A -> A) (R R' : nat -> nat -> A -> Prop) i j x (H : forall a, R i j a -> R' i j (f a)) : written I R i j x -> written J R' i j (in_place f x) := written_by n I J Src Len Tok f R R' i j x H.
  Let cur := currency_J E n I J Fa Tok.
  Let wcur i j x : written I (currency_at I) i j x -> written J (currency_at J) i j (in_place (on_currency n) x) := wb _ _ _ i j x (cur i j).
  Lemma amount_J i j a : amount_at E I i j a -> amount_at E J i j (name_amount n a).
  Proof. intro X. destruct X as [k N C]. econstructor; [eapply wr; [|exact N]; intros; apply value; assumption|apply wcur; exact C]. Qed.
  Lemma amount_tol_J i j a : amount_tol_at E I i j a -> amount_tol_at E J i j (name_amount_tol n a).
  Proof.
    intro X. destruct X as [a W|b t c k m N T Nu C]; same.
    - constructor. eapply wb; [|exact W]. apply amount_J.
    - unfold name_amount_tol, in_place, name_amount. cbn. rewrite <- place. eapply amount_tol_with; [eapply wr; [|exact N]; intros; apply value; assumption|exact T|eapply wr; [|exact Nu]; apply (number_J n I J Tok)|apply wcur; exact C].
  Qed.
  Lemma compound_expr_J i j a : compound_expr_at E I i j a -> compound_expr_at E J i j a.
  Proof.
    intro X. destruct X; same; repeat match goal with V : value_at E I _ _ _ |- _ => apply value in V end.
    - eapply compound_both; eassumption.
    - eapply compound_per_unit; eassumption.
    - eapply compound_per_unit_hash; eassumption.
    - eapply compound_total; eassumption.
  Qed.
  Lemma compound_amount_J i j a : compound_amount_at E I i j a -> compound_amount_at E J i j (name_compound n a).
  Proof.
    intro X. destruct X; same; repeat match goal with V : compound_expr_at E I _ _ _ |- _ => apply compound_expr_J in V | C : currency_at I _ _ _ |- _ => apply cur in C end; cbn.
    - eapply compound_with_currency; eassumption.
    - eapply compound_bare; eassumption.
    - eapply compound_currency; eassumption.
    - eapply compound_hash_currency; eassumption.
  Qed.
  Lemma price_sign_J i f : price_sign I i f -> price_sign J i f.
  Proof. intro X. destruct X; same; constructor; assumption. Qed.
  Lemma price_J i j a : price_at E I i j a -> price_at E J i j (name_price n a).
  Proof.
    intro X. destruct X as [sc P|sc k v P V|sc k c P C|sc k m v c P V C]; apply price_sign_J in P; try apply value in V; try apply cur in C; cbn.
    - eapply price_bare; eassumption.
    - eapply price_amount; eassumption.
    - eapply price_currency; eassumption.
    - eapply price_both; eassumption.
  Qed.
  Lemma cost_comp_J i j a : cost_comp_at E I i j a -> cost_comp_at E J i j (name_comp n a).
  Proof.
    intro X. destruct X as [k a A|k d D|k s S|T]; same; cbn; constructor; auto.
    - apply compound_amount_J; assumption.
    - eapply date_J; eassumption.
    - eapply string_J; eassumption.
  Qed.
  Lemma cost_J i j a : cost_at E I i j a -> cost_at E J i j (name_cost n a).
  Proof.
    intro X. destruct X as [c T1 T2 S|k l c T1 Se T2 S]; same; apply (spells_named n) in S.
    - eapply cost_empty; assumption.
    - eapply cost_; [assumption| |assumption|exact S]. eapply separated_by; [eassumption| |exact Se]. intros a b x. apply wb. intro. apply cost_comp_J.
  Qed.

  (** ** Metadata *)
  Lemma meta_value_J i j v : meta_value_at E I names i j v -> meta_value_at E J names i j (name_value n v).
  Proof.
    intro X. destruct X as [a A|v V]; [constructor; apply amount_J; exact A|]. destruct V as [k s S|k c C|k a A|k t T|k l L|k d D|k b B|T|k e V]; cbn; apply meta_simple; constructor.
    - eapply string_J; eassumption.
    - apply cur; assumption.
    - eapply account_J; eassumption.
    - eapply tag_J; eassumption.
    - eapply link_J; eassumption.
    - eapply date_J; eassumption.
    - eapply bool_J; eassumption.
    - same. assumption.
    - apply value. assumption.
  Qed.
  Definition name_key_value (x : meta_key_value) : meta_key_value := mk_mkv (in_place (on_key n) (mkv_key x)) (in_place (name_value n) (mkv_value x)).
  Lemma key_value_J i j x : key_value_at E I names i j x -> key_value_at E J names i j (name_key_value x).
  Proof.
    intro X. destruct X as [k m key v K T V|k key K T]; same; unfold name_key_value; cbn.
    - econstructor; [eapply wb; [|exact K]; apply (key_J E n I J Fa Tok)|exact T|]. eapply wb; [|exact V]. intro. apply meta_value_J.
    - unfold in_place at 2. cbn. rewrite <- place. eapply key_null; [eapply wb; [|exact K]; apply (key_J E n I J Fa Tok)|exact T].
  Qed.
  Definition name_metadatum (m : metadatum) : metadatum :=
    match m with
    | MD_KeyValue kv => MD_KeyValue (in_place name_key_value kv)
    | MD_Tag t => MD_Tag (in_place (on_tag n) t)
    | MD_Link l => MD_Link (in_place (on_link n) l)
    end.
  Lemma mark_J i j m : mark_at E I i j m -> mark_at E J i j (name_metadatum m).
  Proof. intro X. destruct X as [t W|l W]; constructor; (eapply wb; [|exact W]); [apply (tag_J E n I J Fa Tok)|apply (link_J E n I J Fa Tok)]. Qed.
  Lemma metadatum_J i j m : metadatum_at E I names i j m -> metadatum_at E J names i j (name_metadatum m).
  Proof.
    intro X. destruct X as [kv W|m M].
    - apply metadatum_key_value. eapply wb; [|exact W]. intro. apply key_value_J.
    - apply metadatum_mark, mark_J, M.
  Qed.
  Lemma metadata_line_J i j m : metadata_line E I names i j m -> metadata_line E J names i j (name_metadatum m).
  Proof. intro X. destruct X as [k T M L]. same. econstructor; [exact T|apply metadatum_J; exact M|]. eapply line_end_J; eassumption. Qed.
End More.

(** ** No repetitions *)
Section Distinct.
  Context (U : unicode) (n : naming) (Fa : faithful U n).
  Lemma label_named x y : metadatum_label (name_metadatum n x) = metadatum_label (name_metadatum n y) -> metadatum_label x = metadatum_label y.
  Proof.
    destruct Fa as [_ [Jt _] [Jl _] [Jk _] _ _]. destruct x, y; cbn; intro H; try discriminate; injection H as H; f_equal; [apply Jk in H|apply Jt in H|apply Jl in H]; exact H.
  Qed.
  Lemma nodup_named {A} (f : A -> problem) (g : A -> A) l : (forall x y, f (g x) = f (g y) -> f x = f y) -> NoDup (map f l) -> NoDup (map f (map g l)).
  Proof.
    intros H N. induction l as [|x l IH]; cbn; [constructor|]. cbn in N. inversion N as [|? ? X Y]; subst. constructor; [|auto].
    intro Q. apply X. apply in_map_iff in Q. destruct Q as (y & Qy & Hy). apply in_map_iff in Hy. destruct Hy as (z & <- & Hz). apply in_map_iff. exists z. split; [apply H; exact Qy|exact Hz].
  Qed.
  Lemma dedup_named {A} (f : A -> problem) (g : A -> A) l kept : (forall x y, f (g x) = f (g y) -> f x = f y) -> dedup f [] l kept [] -> kept = l /\ dedup f [] (map g l) (map g l) [].
  Proof.
    intros H D. destruct (AlikeRead.dedup_none _ _ _ _ _ D eq_refl) as (-> & N & _). split; [reflexivity|]. apply DedupFacts.dedup_none; [apply nodup_named; assumption|intros ? _ []].
  Qed.
  Lemma tags_named l : tags_in (map (name_metadatum n) l) = map (in_place (on_tag n)) (tags_in l).
  Proof. unfold tags_in. induction l as [|m l IH]; [reflexivity|]. cbn [map flat_map]. rewrite IH, map_app. destruct m; reflexivity. Qed.
  Lemma links_named l : links_in (map (name_metadatum n) l) = map (in_place (on_link n)) (links_in l).
  Proof. unfold links_in. induction l as [|m l IH]; [reflexivity|]. cbn [map flat_map]. rewrite IH, map_app. destruct m; reflexivity. Qed.
  Lemma key_values_named l : key_values_in (map (name_metadatum n) l) = map (fun x => (in_place (on_key n) (fst x), in_place (name_value n) (snd x))) (key_values_in l).
  Proof. unfold key_values_in. induction l as [|m l IH]; [reflexivity|]. cbn [map flat_map]. rewrite IH, map_app. destruct m; reflexivity. Qed.
  Lemma collects_named l md : collects l md [] -> collects (map (name_metadatum n) l) (name_metadata n md) [].
  Proof.
    intro C. remember (@nil report) as es eqn:Q in C. destruct C as [kept again D]. apply map_eq_nil in Q. subst again.
    destruct (dedup_named _ (name_metadatum n) _ _ label_named D) as [-> D']. unfold name_metadata. cbn.
    rewrite <- tags_named, <- links_named, <- key_values_named. exact (collects_ _ _ [] D').
  Qed.
  Lemma distinct_named md : distinct_metadata md -> distinct_metadata (name_metadata n md).
  Proof.
    destruct Fa as [_ [Jt _] [Jl _] [Jk _] _ _].
    assert (Q : forall {A B} (f : A -> str) (g : A -> B) (h : B -> str) (k : str -> str) l, injective k -> (forall x, h (g x) = k (f x)) -> NoDup (map f l) -> NoDup (map h (map g l))).
    { intros A B f g h k l Jn H N. rewrite map_map. rewrite (map_ext _ (fun x => k (f x)) H). rewrite <- (map_map f k). clear - Jn N. induction N as [|x l0 X N IH]; cbn; constructor; [|exact IH].
      intro H. apply in_map_iff in H. destruct H as (y & Q & Hy). apply Jn in Q. subst y. contradiction. }
    intros (A & B & C). split; [|split]; cbn.
    - apply (Q _ _ item (in_place (on_tag n)) item (on_tag n)); auto.
    - apply (Q _ _ item (in_place (on_link n)) item (on_link n)); auto.
    - apply (Q _ _ (fun e : spanned str * spanned meta_value => item (fst e)) _ (fun e : spanned str * spanned meta_value => item (fst e)) (on_key n)); auto.
  Qed.
  Context (E : grammar_env) (Go : forall l, Permutation l (g_order E l)).
  Lemma merges_named dup (f : str -> str) old new result : (forall x y : str, dup x = dup y -> x = y) -> injective f -> merges dup old (g_order E new) result [] ->
    exists result', merges dup (map (in_place f) old) (g_order E (map (in_place f) new)) result' [] /\ same_elements same_item (map (in_place f) result) result'.
  Proof.
    intros Di Jn M. destruct M as [fresh again D -> F2]. inversion F2; subst. destruct (AlikeRead.dedup_none _ _ _ _ _ D eq_refl) as (-> & Nd & Ns).
    set (new' := map (in_place f) new). exists (map (in_place f) old ++ g_order E new'). split.
    - apply (merges_ dup _ (g_order E new') _ [] (g_order E new') []); [|reflexivity|constructor].
      assert (Lb : forall x y : spanned str, dup (item (in_place f x)) = dup (item (in_place f y)) -> dup (item x) = dup (item y)) by (intros x y H; apply Di in H; cbn in H; apply Jn in H; congruence).
      apply DedupFacts.dedup_none.
      + eapply Permutation_NoDup; [apply Permutation_map, Go|]. unfold new'. apply nodup_named; [exact Lb|]. eapply Permutation_NoDup; [apply Permutation_sym, Permutation_map, Go|exact Nd].
      + intros x Hx Hin. apply (Permutation_in _ (Permutation_sym (Go new'))) in Hx. unfold new' in Hx. apply in_map_iff in Hx. destruct Hx as (y & <- & Hy).
        apply (Ns y); [apply (Permutation_in _ (Go new)); exact Hy|]. rewrite map_map in Hin. apply in_map_iff in Hin. destruct Hin as (z & Qz & Hz). apply Lb in Qz. rewrite <- Qz.
        apply (in_map (fun x => dup (item x))). exact Hz.
    - exists (map (in_place f) old ++ g_order E new'). split; [|apply forall2_refl; intro; reflexivity].
      rewrite map_app. apply Permutation_app_head. etransitivity; [apply Permutation_map, Permutation_sym, Go|]. apply Go.
  Qed.
  Lemma joined_named md marks md1 : distinct_metadata (item md) -> joined E md marks md1 [] [] ->
    exists md2, joined E (in_place (name_metadata n) md) (map (name_metadatum n) marks) md2 [] [] /\ alike_metadata (name_metadata n (item md1)) (item md2) /\ distinct_metadata (item md1).
  Proof.
    intros Dm Jo. assert (D1 : distinct_metadata (item md1)).
    { destruct (same_joined E Go md marks md1 md marks) as (x & _ & _ & D1); auto.
      - split; apply forall2_refl; try (intro; reflexivity). intro. split; [reflexivity|apply meta_value_refl].
      - apply forall2_refl. intros []; cbn; try reflexivity. split; [reflexivity|apply meta_value_refl]. }
    destruct Fa as [_ [Jt _] [Jl _] _ _ _]. remember (@nil report) as e1 eqn:Q1 in Jo at 1. remember (@nil report) as e2 eqn:Q2 in Jo. destruct Jo as [kept again tags links es es' D Mt Ml].
    apply map_eq_nil in Q1. apply app_eq_nil in Q2. destruct Q2. subst.
    destruct (dedup_named _ (name_metadatum n) _ _ label_named D) as [-> D'].
    destruct (merges_named DuplicateTag (on_tag n) _ _ _ ltac:(congruence) Jt Mt) as (tags' & Mt' & St).
    destruct (merges_named DuplicateLink (on_link n) _ _ _ ltac:(congruence) Jl Ml) as (links' & Ml' & Sl).
    rewrite <- tags_named in Mt'. rewrite <- links_named in Ml'.
    eexists. split; [exact (joined_ E (in_place (name_metadata n) md) _ _ [] tags' links' [] [] D' Mt' Ml')|]. split; [|exact D1].
    split; [|split]; cbn; [|exact St|exact Sl]. eexists. split; [apply Permutation_refl|]. apply forall2_refl. intro. split; [reflexivity|apply meta_value_refl].
  Qed.
End Distinct.

Section Whole.
  Context (E : grammar_env) (n : naming) (I J : input) (names : account_type -> str).
  Context (Fa : faithful (g_unicode E) n) (Go : forall l, Permutation l (g_order E l)).
  Context (Src : in_source J = in_source I) (Len : in_len J = in_len I)
          (Tok : in_tokens J = map (fun x => (name_token n (fst x), snd x)) (in_tokens I)).
  Let up := other_J n I J Tok.
  Let down := other_I n I J Tok.
  Ltac same := repeat match goal with T : tok I _ _ |- _ => apply up in T; [|exact Logic.I] end.
  Let value := value_same I J up E.
  Let place := text_J n I J Src Len Tok.
  Let wr {A} (R R' : nat -> nat -> A -> Prop) i j x (H : forall a, R i j a -> R' i j a) : written I R i j x -> written J R' i j x := written_same n I J Src Len Tok R R' i j x H.
  Let wb {A} (f : A -> A) (R R' : nat -> nat -> A -> Prop) i j x (H : forall a, R i j a -> R' i j (f a)) : written I R i j x -> written J R' i j (in_place f x) := written_by n I J Src Len Tok f R R' i j x H.
  Let cur := currency_J E n I J Fa Tok.
  Let wcur i j x : written I (currency_at I) i j x -> written J (currency_at J) i j (in_place (on_currency n) x) := wb _ _ _ i j x (cur i j).
  Let acc i j x : written I (account_at E I names) i j x -> written J (account_at E J names) i j x := wr _ _ i j x (account_J E n I J names Tok i j).

  Lemma metadata_J i j md : metadata_at E I names i j md [] -> metadata_at E J names i j (in_place (name_metadata n) md) [].
  Proof.
    intro X. destruct X as [l S C P]. exists (map (name_metadatum n) l); [|eapply collects_named; eassumption|cbn; rewrite place; exact P].
    eapply star_by; [|exact S]. intros a b x [H _]. split; [|reflexivity]. eapply metadata_line_J; eassumption.
  Qed.
  Lemma posting_J i j p : posting_at E I names i j p [] -> posting_at E J names i j (in_place (name_posting n) p) [].
  Proof.
    intro X. remember (@nil report) as es0 eqn:Q in X. destruct X as [a b c d e f g j fl ac am cu co pr md es T F A Am Cu Co Pr L M]. subst es. same. unfold in_place at 1. cbn [item span_of]. unfold name_posting. cbn. rewrite <- place.
    econstructor; [exact T| |apply acc; exact A| | | | |eapply line_end_J; eassumption|apply metadata_J; exact M].
    - eapply maybe_same; [|exact F]. intros ? ?. apply wr. apply (flag_J n I J Tok).
    - eapply maybe_same; [|exact Am]. intros ? ?. apply wr. intro. apply value.
    - eapply maybe_by; [|exact Cu]. intros ? ?. apply wcur.
    - eapply maybe_by; [|exact Co]. intros ? ?. apply wb. intro. eapply cost_J; eassumption.
    - eapply maybe_by; [|exact Pr]. intros ? ?. apply wb. intro. eapply price_J; eassumption.
  Qed.
  Lemma currencies_J i j cs : currencies_at I i j cs [] -> currencies_at J i j (map (in_place (on_currency n)) cs) [].
  Proof.
    intro X. remember (@nil report) as es0 eqn:Q in X. destruct X as [|j first rest kept again S D]; [constructor|]. apply map_eq_nil in Q. subst again.
    destruct (dedup_named (fun x : spanned str => DuplicateCurrency (item x)) (in_place (on_currency n)) (rest ++ [first]) kept) with (2 := D) as [-> D'].
    { intros x y H. cbn in H. injection H as H. apply (proj1 (fa_currency _ _ Fa)) in H. congruence. }
    assert (D2 : dedup (fun x : spanned str => DuplicateCurrency (item x)) [] (map (in_place (on_currency n)) rest ++ [in_place (on_currency n) first]) (map (in_place (on_currency n)) (rest ++ [first])) []).
    { rewrite map_app in D' |- *. exact D'. }
    refine (currencies_ J i j _ _ _ [] _ D2). change (in_place (on_currency n) first :: map (in_place (on_currency n)) rest) with (map (in_place (on_currency n)) (first :: rest)).
    eapply separated_by; [eassumption| |exact S]. intros ? ? ?. apply wcur.
  Qed.
  Lemma fields_J i k j v : fields_at E I names i k j v [] -> fields_at E J names i k j (name_variant n v) [].
  Proof.
    intro X. remember (@nil report) as es0 eqn:Q in X. destruct X as [a b c x C A|a b x t A T|a b c x cs bk es A C B|a x A|a c C|a b x s A A'|a b x s A S|a b x s A S|a b x s A S|a b x s A S]; cbn; try subst es; econstructor;
      try (apply acc; eassumption); try (apply wcur; eassumption); try (eapply wb; [|eassumption]; intro; eapply string_J; eassumption).
    - eapply wb; [|exact A]. intro. eapply amount_J; eassumption.
    - eapply wb; [|exact T]. intro. eapply amount_tol_J; eassumption.
    - apply currencies_J. exact C.
    - eapply maybe_same; [|exact B]. intros ? ?. apply wr. apply (booking_J E n I J Fa Tok).
  Qed.

  (** A value read under the other names was a single token, or was there
      before. *)
  Lemma meta_value_I i k v : meta_value_at E J names i k v -> k = S i \/ exists u, meta_value_at E I names i k u.
  Proof.
    intro X. destruct X as [a A|v V].
    - right. destruct A as [m [N P] [C P']]. destruct C as [s T L]. apply (tok_I n I J Tok) in T. destruct T as (u & T & Q). destruct u; try discriminate. cbn in Q. injection Q as Q.
      match goal with H : tok I m (T_Currency ?c) |- _ => exists (MV_Amount (mk_amount (am_number a) (mk_spanned c (text I m (S m))))) end. constructor. exists m; (split; cbn; [|reflexivity || (rewrite <- place; assumption)]); [apply (value_same J I down); exact N|].
      constructor; [exact T|]. apply (proj1 (proj2 (fa_currency _ _ Fa))). rewrite <- Q. exact L.
    - destruct V as [j s S|j c C|j a A|j t T|j l L|j d D|j b B|T|j e V]; try (left; first [reflexivity|match goal with H : _ |- _ => destruct H; reflexivity end]).
      right. exists (MV_Simple (SV_Expr e)). constructor. constructor. apply (value_same J I down). exact V.
  Qed.
  Context (Lt : forall i j e, sum I i j e -> i < j).
  Lemma meta_value_lt i j v : meta_value_at E I names i j v -> i < j.
  Proof.
    intro X. destruct X as [a [m [N _] [C _]]|v V].
    - destruct N as [N _]. apply Lt in N. destruct C. lia.
    - destruct V as [j s S|j c C|j a A|j t T|j l L|j d D|j b B|T|j e [V _]]; try lia; try (match goal with H : _ |- _ => destruct H; lia end). exact (Lt _ _ _ V).
  Qed.
  Lemma longest_J i j x : longest (written I (meta_value_at E I names)) i j x -> longest (written J (meta_value_at E J names)) i j (in_place (name_value n) x).
  Proof.
    intros [W Lo]. split.
    - eapply wb; [|exact W]. intro. eapply meta_value_J; eassumption.
    - intros k b [V P]. destruct (meta_value_I _ _ _ V) as [->|(u & V')]; [destruct W as [W _]; exact (meta_value_lt _ _ _ W)|].
      apply (Lo k (mk_spanned u (text I i k))). split; [exact V'|reflexivity].
  Qed.

  Lemma directive_J i j d : directive_at E I names i j d [] ->
    exists d', directive_at E J names i j d' [] /\ alike (name_directive n d) d' /\ distinct_metadata (item (dir_metadata (name_directive n d))).
  Proof.
    assert (Dt : forall i j x, written I (date_at I) i j x -> written J (date_at J) i j (in_place (on_date n) x)) by (intros ? ? ?; apply wb; apply (date_J n I J Tok)).
    assert (St : forall i j x, written I (string_at I) i j x -> written J (string_at J) i j (in_place (on_string n) x)) by (intros ? ? ?; apply wb; apply (string_J n I J Tok)).
    assert (Mk : forall i j l, star (silent (mark_at E I)) i j l [] -> star (silent (mark_at E J)) i j (map (name_metadatum n) l) []).
    { intros a b l S. eapply star_by; [|exact S]. intros p q x [H _]. split; [|reflexivity]. eapply mark_J; eassumption. }
    intro X. inversion X as [a b c d0 e f j0 date flag strings payee narration marks md md' postings es1 es2 es3 es4 D T S Ti M L Md P Jo Q1 Q2
                           |a b c d0 j0 k date v marks md md' es1 es2 es3 es4 D T F M L Md Jo Q1 Q2|a b c d0 j0 date ty values md es D T S V L Md Q1 Q2]; subst;
      repeat match goal with H : _ ++ _ = [] |- _ => apply app_eq_nil in H; destruct H end; subst.
    - destruct (joined_named _ n Fa E Go _ _ _ (metadata_distinct E names I _ _ _ Md) Jo) as (md2 & Jo' & Al & Di).
      exists (mk_directive (in_place (on_date n) date) md2 (name_variant n (V_Transaction flag payee narration postings))). split; [|split; [|eapply distinct_named; eassumption]].
      + change (@nil report) with (@nil report ++ [] ++ [] ++ []). eapply directive_transaction; [apply Dt; exact D| | |eapply titles_named; eassumption|apply Mk; exact M|eapply line_end_J; eassumption|apply metadata_J; exact Md| |exact Jo'].
        * eapply wr; [|exact T]. apply (txn_J n I J Tok).
        * eapply star_by; [|exact S]. intros ? ? ? [H _]. split; [|reflexivity]. apply St. exact H.
        * eapply star_by; [|exact P]. intros. apply posting_J. assumption.
      + constructor; cbn; [reflexivity|exact Al|apply variant_refl].
    - destruct (joined_named _ n Fa E Go _ _ _ (metadata_distinct E names I _ _ _ Md) Jo) as (md2 & Jo' & Al & Di). same.
      exists (mk_directive (in_place (on_date n) date) md2 (name_variant n v)). split; [|split; [|eapply distinct_named; eassumption]].
      + change (@nil report) with (@nil report ++ [] ++ [] ++ []).
        eapply directive_line; [apply Dt; exact D|exact T|apply fields_J; exact F|apply Mk; exact M|eapply line_end_J; eassumption|apply metadata_J; exact Md|exact Jo'].
      + constructor; cbn; [reflexivity|exact Al|apply variant_refl].
    - same. eexists. split; [|split; [apply alike_refl|eapply distinct_named; [eassumption|exact (metadata_distinct E names I _ _ _ Md)]]].
      eapply directive_custom; [apply Dt; exact D|exact T|apply St; exact S| |eapply line_end_J; eassumption|apply metadata_J; exact Md].
      eapply star_by; [|exact V]. intros p q x [H _]. split; [|reflexivity]. apply longest_J. exact H.
  Qed.
  Definition name_pragma (p : pragma) : pragma :=
    match p with
    | P_Pushtag t => P_Pushtag (in_place (on_tag n) t)
    | P_Poptag t => P_Poptag (in_place (on_tag n) t)
    | P_Pushmeta x => P_Pushmeta (name_key_value n x)
    | P_Popmeta k => P_Popmeta (in_place (on_key n) k)
    | P_Plugin x => P_Plugin (name_plugin n x)
    | P_Include _ | P_Option _ => p
    end.
  Definition name_declaration (d : declaration) : declaration :=
    match d with D_Directive x => D_Directive (name_directive n x) | D_Pragma p => D_Pragma (name_pragma p) end.
  Lemma pragma_J i j p : keeps_includes (on_string n) (map fst (in_tokens I)) -> pragma_at E I names i j p -> pragma_at E J names i j (name_pragma p).
  Proof.
    intros Ki X. destruct X as [k t T G|k t T G|k kv T K|k key T K T'|k s T S|k m s c T S C]; 
      [| | | |assert (Q : in_place (on_string n) s = s) by (destruct s as [s sp], S as [S P]; cbn in S; destruct S as [s S]; unfold in_place; cbn; rewrite (include_kept n I Ki _ _ T S); reflexivity)|]; same; cbn; unfold in_place; cbn; try rewrite <- place.
    - econstructor; [assumption|eapply tag_J; eassumption].
    - econstructor; [assumption|eapply tag_J; eassumption].
    - econstructor; [assumption|eapply key_value_J; eassumption].
    - econstructor; [assumption|eapply key_J; eassumption|assumption].
    - econstructor; [assumption|]. rewrite <- Q. eapply wb; [|exact S]. apply (string_J n I J Tok).
    - econstructor; [assumption| |].
      + eapply wb; [|exact S]. apply (string_J n I J Tok).
      + eapply maybe_by; [|exact C]. intros ? ?. apply wb. apply (string_J n I J Tok).
  Qed.
End Whole.

Section Tiles.
  Context (E : grammar_env) (n : naming) (I J : input).
  Context (Fa : faithful (g_unicode E) n) (Go : forall l, Permutation l (g_order E l)).
  Context (Src : in_source J = in_source I) (Len : in_len J = in_len I)
          (Tok : in_tokens J = map (fun x => (name_token n (fst x), snd x)) (in_tokens I)).
  Let up := other_J n I J Tok.
  Let down := other_I n I J Tok.
  Let place := text_J n I J Src Len Tok.
  Context (Lt : forall i j e, sum I i j e -> i < j) (file : option path).
  Context (Ko : keeps_options (on_string n) (map fst (in_tokens I))) (Ki : keeps_includes (on_string n) (map fst (in_tokens I))).
  Context (R : span -> span -> Prop) (Rr : forall sp, R sp sp).
  Let wr {A} (R R' : nat -> nat -> A -> Prop) i j x (H : forall a, R i j a -> R' i j a) : written I R i j x -> written J R' i j x := written_same n I J Src Len Tok R R' i j x H.

  Lemma option_J r i j o es r' : option_at E I file r i j o es r' -> option_at E J file r i j o es r'.
  Proof.
    intro X. destruct X as [a b name value0 o es r' T S S' Ef]. pose proof T as T0. apply up in T; [|exact Logic.I].
    destruct S as [S P], S' as [S' P']. destruct name as [name sp], value0 as [value0 sp']. cbn in *. destruct S as [s S], S' as [s' S'].
    destruct (option_kept n I Ko _ _ _ T0 S S') as [Q Q']. apply (tok_J n I J Tok) in S, S'. cbn in S, S'. rewrite Q in S. rewrite Q' in S'.
    econstructor; [exact T| | |exact Ef]; (split; cbn; [constructor; assumption|rewrite place; assumption]).
  Qed.
  Lemma long_strings_J lim i j : long_strings lim J i j = long_strings lim I i j.
  Proof.
    unfold long_strings. apply flat_map_ext. intro k. rewrite (nth_J n I J Tok), Src. destruct (nth_error (in_tokens I) k) as [[t [a b]]|]; [|reflexivity]. destruct t; try reflexivity. cbn [option_map name_token fst snd]. rewrite (proj2 (fa_string _ _ Fa _)). reflexivity.
  Qed.
  Lemma pragma_alike p : alike_pragma R p p.
  Proof.
    destruct p; constructor; try reflexivity; try apply Rr.
    - split; [reflexivity|apply meta_value_refl].
    - apply plugin_refl.
  Qed.
  Lemma declares_J r i j d r1 : declares E I file r i j d [] r1 -> ~ tok I j T_Indent -> exists d', declares E J file r i j d' [] r1 /\ alike_declaration R (in_place (name_declaration n) d) d'.
  Proof.
    intros D Ni. inversion D as [x e [W _]|k p P L|k o e r2 O L]; subst.
    - destruct (directive_J E n I J _ Fa Go Src Len Tok Lt _ _ _ W) as (d' & W' & Al & Di). exists (mk_spanned (D_Directive d') (text J i j)). split; [|eapply ad_directive; [reflexivity|reflexivity|exact Al|exact Di]].
      apply declares_directive. assert (Nj : ~ tok J j T_Indent) by (intro X; apply Ni; apply down; [exact Logic.I|exact X]).
      split; [exact W'|]. split.
      + intros k m [q T _ _]. exact (Nj T).
      + intros fl py na ps _ k a es' X. inversion X; subst. contradiction.
    - exists (mk_spanned (D_Pragma (name_pragma n p)) (text J i j)). split; [|eapply ad_pragma; [reflexivity|reflexivity|apply pragma_alike]].
      eapply declares_pragma; [eapply pragma_J; eassumption|eapply line_end_J; eassumption].
    - exists (mk_spanned (D_Pragma (P_Option o)) (text J i j)). split; [|eapply ad_pragma; [reflexivity|reflexivity|apply pragma_alike]].
      eapply declares_option; [apply option_J; exact O|eapply line_end_J; eassumption].
  Qed.
  Context (Next : forall r0 i, (exists j d es r', declares E I file r0 i j d es r') \/ finished I i -> ~ tok I i T_Indent).
  Lemma tiles_J r i ds ws r' : tiles E I file r i ds [] ws r' -> exists ds', tiles E J file r i ds' [] ws r' /\ Forall2 (alike_declaration R) (map (in_place (name_declaration n)) ds) ds'.
  Proof.
    intro T. remember (@nil report) as es0 eqn:Q in T. revert Q. induction T as [r i F|r i j d es r1 ds es' ws r' D T IH]; intro Q.
    - exists []. split; [constructor; eapply finished_J; eassumption|constructor].
    - apply app_eq_nil in Q. destruct Q as [-> ->].
      assert (Ni : ~ tok I j T_Indent).
      { apply (Next r1). inversion T as [r5 i5 F5|r5 i5 j5 d5 e5 r6 ds5 e6 w5 r7 D5 T5]; subst; [right; assumption|left; eauto 6]. }
      destruct (declares_J _ _ _ _ _ D Ni) as (d' & D' & Al). destruct (IH eq_refl) as (ds' & T' & Fs). exists (d' :: ds'). split; [|cbn [map]; constructor; assumption].
      rewrite <- long_strings_J. change (@nil report) with (@nil report ++ []). econstructor; eassumption.
  Qed.
End Tiles.
