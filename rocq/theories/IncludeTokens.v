(** * The keyword of an include is nowhere but in an include *)
From Coq Require Import String Ascii.
From Coq Require Import List NArith ZArith Arith Bool Lia.
From Verif Require Import Base BaseFacts Path Sources Types Options SpecOptions Pragma Token Lexer Grammar SpecExpr SpecCost SpecGrammar SpecDirective Parse SpecParse ParseFile P_File.
Import ListNotations.
Local Open Scope nat_scope.

Section Free.
  Context (E : grammar_env) (I : input) (names : account_type -> str).
  Local Notation tok := (tok I).

  Definition free (i j : nat) : Prop := forall k, i <= k < j -> ~ tok k (T_Keyword K_Include).
  Lemma free_none i : free i i.
  Proof. intros k H. lia. Qed.
  Lemma free_tok i t : tok i t -> t <> T_Keyword K_Include -> free i (S i).
  Proof. intros [r H] N k Hk [r' H']. replace k with i in H' by lia. congruence. Qed.
  Lemma free_app i j k : free i j -> free j k -> free i k.
  Proof. intros A B m H. destruct (Nat.lt_ge_cases m j); [apply A|apply B]; lia. Qed.
  Definition freeing {A} (R : nat -> nat -> A -> Prop) : Prop := forall i j a, R i j a -> free i j.

  Local Hint Resolve free_none : free.
  Ltac one := eapply free_tok; [eassumption|discriminate].
  (** from the left to the right *)
  Ltac chain := repeat first [eassumption | apply free_none | (eapply free_tok; [eassumption|discriminate]) | (eapply free_app; [first [eassumption|one]|])].

  Lemma free_written {A} (R : nat -> nat -> A -> Prop) : freeing R -> freeing (fun i j (x : spanned A) => written I R i j x).
  Proof. intros H i j x [W _]. eauto. Qed.
  Lemma free_maybe {A} (R : nat -> nat -> A -> Prop) : freeing R -> freeing (maybe R).
  Proof. intros H i j a M. destruct M; eauto using free_none. Qed.
  Lemma free_star {A} (R : nat -> nat -> A -> list report -> Prop) : (forall i j a es, R i j a es -> free i j) -> forall i j l es, star R i j l es -> free i j.
  Proof. intros H i j l es S. induction S; eauto using free_none, free_app. Qed.
  Lemma free_separated {A} (R : nat -> nat -> A -> Prop) : freeing R -> freeing (separated I R).
  Proof. intros H i j l S. induction S as [i j x Rx|i j k x l Rx T S IH]; [eauto|]. eapply free_app; [eauto|]. eapply free_app; [one|exact IH]. Qed.
  Lemma free_line_end i j : line_end I i j -> free i j.
  Proof. destruct 1; [one|apply free_none]. Qed.

  Lemma free_account : freeing (account_at E I names).
  Proof. intros i j a []. one. Qed.
  Lemma free_currency : freeing (currency_at I).
  Proof. intros i j a []. one. Qed.
  Lemma free_tag : freeing (tag_at E I).
  Proof. intros i j a []. one. Qed.
  Lemma free_link : freeing (link_at E I).
  Proof. intros i j a []. one. Qed.
  Lemma free_key : freeing (key_at E I).
  Proof. intros i j a []. one. Qed.
  Lemma free_date : freeing (date_at I).
  Proof. intros i j a []. one. Qed.
  Lemma free_number : freeing (number_at I).
  Proof. intros i j a []. one. Qed.
  Lemma free_string : freeing (string_at I).
  Proof. intros i j a []. one. Qed.
  Lemma free_booking : freeing (booking_at I).
  Proof. intros i j a []. one. Qed.
  Lemma free_bool : freeing (bool_at I).
  Proof. intros i j a []; one. Qed.
  Lemma free_flag : freeing (flag_at I).
  Proof. intros i j a []; one. Qed.
  Lemma free_txn : freeing (txn_at I).
  Proof. intros i j a []; [one|eapply free_flag; eassumption]. Qed.

  Scheme sum_mind := Minimality for sum Sort Prop with product_mind := Minimality for product Sort Prop
    with factor_mind := Minimality for factor Sort Prop with primary_mind := Minimality for primary Sort Prop.
  Lemma free_sum : forall i j e, sum I i j e -> free i j.
  Proof.
    apply (sum_mind I (fun i j _ => free i j) (fun i j _ => free i j) (fun i j _ => free i j) (fun i j _ => free i j)); intros; chain.
  Qed.
  Lemma free_value : freeing (value_at E I).
  Proof. intros i j v [S _]. eapply free_sum. exact S. Qed.

  Lemma free_amount : freeing (amount_at E I).
  Proof. intros i k a [j A B]. eapply free_app; [eapply (free_written _ free_value); exact A|eapply (free_written _ free_currency); exact B]. Qed.
  Lemma free_amount_tol : freeing (amount_tol_at E I).
  Proof.
    intros i k a [a' A|n t c j m A T B C]; [eapply (free_written _ free_amount); exact A|].
    apply (free_written _ free_value) in A. apply (free_written _ free_number) in B. apply (free_written _ free_currency) in C. chain.
  Qed.
  Lemma free_compound_expr : freeing (compound_expr_at E I).
  Proof. intros i k e [j k' p t A T B|j p A|j p A T|j t T A]; try apply free_value in A; try apply free_value in B; chain. Qed.
  Lemma free_compound : freeing (compound_amount_at E I).
  Proof.
    intros i k e [j k' x c A B|j x A|j c A|j c T A]; first [apply free_compound_expr in A|apply free_currency in A]; try apply free_currency in B; chain.
  Qed.
  Lemma free_price : freeing (price_at E I).
  Proof.
    assert (Sg : forall i sc, price_sign I i sc -> free i (S i)) by (intros i sc []; one).
    intros i k p [sc S|sc j v S A|sc j c S A|sc j k' v c S A B]; apply Sg in S; try apply free_value in A; try apply free_currency in A; try apply free_currency in B; chain.
  Qed.
  Lemma free_cost_comp : freeing (cost_comp_at E I).
  Proof. intros i k c [j a A|j d A|j s A|T]; [eapply free_compound|eapply free_date|eapply free_string|one]; eassumption. Qed.
  Lemma free_cost : freeing (cost_at E I).
  Proof.
    intros i k c [c' T T' _|j l c' T S T' _]; [chain|]. apply (free_separated _ (free_written _ free_cost_comp)) in S. chain.
  Qed.

  Lemma free_simple : freeing (simple_value_at E I names).
  Proof.
    intros i k v [j s A|j s A|j s A|j s A|j s A|j s A|j s A|T|j s A];
      [eapply free_string|eapply free_currency|eapply free_account|eapply free_tag|eapply free_link|eapply free_date|eapply free_bool|one|eapply free_value]; eassumption.
  Qed.
  Lemma free_meta_value : freeing (meta_value_at E I names).
  Proof. intros i k v [a A|a A]; [eapply free_amount|eapply free_simple]; exact A. Qed.
  Lemma free_key_value : freeing (key_value_at E I names).
  Proof.
    intros i k v [j k' key v' A T B|j key A T]; apply (free_written _ free_key) in A; [apply (free_written _ free_meta_value) in B|]; chain.
  Qed.
  Lemma free_mark : freeing (mark_at E I).
  Proof. intros i k v [a A|a A]; [eapply (free_written _ free_tag)|eapply (free_written _ free_link)]; exact A. Qed.
  Lemma free_metadatum : freeing (metadatum_at E I names).
  Proof. intros i k v [a A|a A]; [eapply (free_written _ free_key_value)|eapply free_mark]; exact A. Qed.
  Lemma free_metadata_line : freeing (metadata_line E I names).
  Proof. intros i k m [j T A L]. apply free_metadatum in A. apply free_line_end in L. chain. Qed.
  Lemma free_metadata i j md es : metadata_at E I names i j md es -> free i j.
  Proof. intros [l S _ _]. eapply free_star; [|exact S]. intros a b c d [H _]. eapply free_metadata_line. exact H. Qed.
  Lemma free_posting i j p es : posting_at E I names i j p es -> free i j.
  Proof.
    intros [a b c d e f g j' flag account amount currency cost price md es' T F A V C Co P L M].
    apply (free_maybe _ (free_written _ free_flag)) in F. apply (free_written _ free_account) in A. apply (free_maybe _ (free_written _ free_value)) in V.
    apply (free_maybe _ (free_written _ free_currency)) in C. apply (free_maybe _ (free_written _ free_cost)) in Co. apply (free_maybe _ (free_written _ free_price)) in P.
    apply free_line_end in L. apply free_metadata in M. chain.
  Qed.
  Lemma free_currencies i j cs es : currencies_at I i j cs es -> free i j.
  Proof. intros [|j' first rest kept again S _]; [apply free_none|]. eapply (free_separated _ (free_written _ free_currency)). exact S. Qed.
  Lemma free_fields i k j v es : fields_at E I names i k j v es -> free i j /\ k <> K_Include.
  Proof.
    intros [j' k' c a A B|j' k' a t A B|j' k' l a cs b es' A B C|j' a A|j' c A|j' k' a s A B|j' k' a s A B|j' k' a s A B|j' k' a s A B|j' k' a s A B]; (split; [|discriminate]).
    - apply (free_written _ free_currency) in A. apply (free_written _ free_amount) in B. chain.
    - apply (free_written _ free_account) in A. apply (free_written _ free_amount_tol) in B. chain.
    - apply (free_written _ free_account) in A. apply free_currencies in B. apply (free_maybe _ (free_written _ free_booking)) in C. chain.
    - apply (free_written _ free_account) in A. exact A.
    - apply (free_written _ free_currency) in A. exact A.
    - apply (free_written _ free_account) in A. apply (free_written _ free_account) in B. chain.
    - apply (free_written _ free_account) in A. apply (free_written _ free_string) in B. chain.
    - apply (free_written _ free_account) in A. apply (free_written _ free_string) in B. chain.
    - apply (free_written _ free_string) in A. apply (free_written _ free_string) in B. chain.
    - apply (free_written _ free_string) in A. apply (free_written _ free_string) in B. chain.
  Qed.
  Lemma free_silent_star {A} (R : nat -> nat -> A -> Prop) i j l es : freeing R -> star (silent R) i j l es -> free i j.
  Proof. intros H. apply free_star. intros a b c d [X _]. eauto. Qed.
  Lemma free_directive i j d es : directive_at E I names i j d es -> free i j.
  Proof.
    intros [a b c d' e f j' date flag strings payee narration marks md md' postings es1 es2 es3 es4 D T S _ M L Md P _
      |a b c d' j' k date v marks md md' es1 es2 es3 es4 D T F M L Md _|a b c d' j' date type_ values md es' D T S V L Md].
    - apply (free_written _ free_date) in D. apply (free_written _ free_txn) in T. apply (free_silent_star _ _ _ _ _ (free_written _ free_string)) in S.
      apply (free_silent_star _ _ _ _ _ free_mark) in M. apply free_line_end in L. apply free_metadata in Md. apply (free_star _ free_posting) in P. chain.
    - apply (free_written _ free_date) in D. apply free_fields in F. destruct F as [F Nk]. apply (free_silent_star _ _ _ _ _ free_mark) in M.
      apply free_line_end in L. apply free_metadata in Md. assert (T' : free a (S a)) by (eapply free_tok; [exact T|congruence]). chain.
    - apply (free_written _ free_date) in D. apply (free_written _ free_string) in S. assert (V' : free b c).
      { eapply free_silent_star; [|exact V]. intros x y z [H _]. eapply (free_written _ free_meta_value). exact H. }
      apply free_line_end in L. apply free_metadata in Md. chain.
  Qed.
  Lemma free_pragma i j p : pragma_at E I names i j p -> (forall s, p <> P_Include s) -> free i j.
  Proof.
    intros [j' t T A|j' t T A|j' t T A|j' t T A T'|j' t T A|j' k m c T A B] N.
    - apply free_tag in A. chain.
    - apply free_tag in A. chain.
    - apply free_key_value in A. chain.
    - apply free_key in A. chain.
    - destruct (N _ eq_refl).
    - apply (free_written _ free_string) in A. apply (free_maybe _ (free_written _ free_string)) in B. chain.
  Qed.
End Free.

(** What the scan finds in a file of declarations. *)
Definition include_text (d : spanned declaration) : list str :=
  match item d with D_Pragma (P_Include s) => [item s] | _ => [] end.

Section Tiled.
  Context (E : grammar_env) (I : input) (path_ : option path).
  Local Notation n := (List.length (in_tokens I)).

  Lemma included_free i j : free I i j -> flat_map (included_at I) (List.seq i (j - i)) = [].
  Proof.
    intro F. assert (H : forall m k, i <= k -> k + m <= j -> flat_map (included_at I) (List.seq k m) = []).
    { induction m as [|m IH]; intros k Hk Hm; [reflexivity|]. cbn [List.seq flat_map]. rewrite IH by lia. rewrite app_nil_r.
      unfold included_at. destruct (nth_error (in_tokens I) k) as [[t r]|] eqn:X; [|reflexivity]. destruct t; try reflexivity.
      match goal with kw : keyword |- _ => destruct kw end; try reflexivity. exfalso. apply (F k ltac:(lia)). exists r. exact X. }
    destruct (Nat.le_gt_cases i j); [apply H; lia|]. replace (j - i) with 0 by lia. reflexivity.
  Qed.
  Lemma included_declares r i j d es r' : i < j -> declares E I path_ r i j d es r' -> flat_map (included_at I) (List.seq i (j - i)) = include_text d.
  Proof.
    intros Hij [d' es' [W _]|k p P L|k o es' r2 O L]; unfold include_text; cbn [item].
    - apply included_free. eapply free_directive. exact W.
    - assert (V : (exists s, p = P_Include s) \/ forall s, p <> P_Include s) by (destruct p; eauto; right; intros ? ?; discriminate).
      destruct V as [[s ->]|V].
      + inversion P as [| | | |j' s' T [W _]|]; subst. inversion W as [s' T' Y]. subst. replace (j - i) with (S (S (j - S (S i)))).
        2:{ inversion L; subst; lia. }
        cbn [List.seq flat_map]. apply free_line_end in L. rewrite (included_free _ _ L), app_nil_r.
        destruct T as [t T], T' as [t' T']. unfold included_at. rewrite T, T'. reflexivity.
      + assert (F : free I i j) by (eapply free_app; [eapply free_pragma; eassumption|eapply free_line_end; exact L]). rewrite (included_free _ _ F).
        destruct p; try reflexivity. destruct (V s eq_refl).
    - destruct O as [a b name value o es2 r3 T A B _]. apply included_free. apply (free_written _ _ (free_string I)) in A. apply (free_written _ _ (free_string I)) in B. apply free_line_end in L.
      eapply free_app; [eapply free_tok; [exact T|discriminate]|]. eapply free_app; [exact A|]. eapply free_app; [exact B|exact L].
  Qed.

  Lemma included_tiles (En : environment_ok E) (Comp : computable E I) (Fo : fine_options I) : forall r i ds es ws r', tiles E I path_ r i ds es ws r' -> (exists po, obeys E po r) -> i <= n ->
    flat_map (included_at I) (List.seq i (n - i)) = flat_map include_text ds.
  Proof.
    intros r i ds es ws r' T. induction T as [r i F|r i j d es r1 ds es' ws r' D T IH]; intros Ob Hi.
    - assert (n <= i) by (apply nth_error_None; exact F). replace (n - i) with 0 by lia. reflexivity.
    - pose proof (declares_positions E I path_ En Comp Fo _ _ _ _ _ _ D Ob) as B. cbn [flat_map].
      rewrite <- (included_declares _ _ _ _ _ _ (proj1 B) D), <- IH; [|eapply declares_obeys; eassumption|lia]. rewrite <- flat_map_app. f_equal.
      replace (n - i) with ((j - i) + (n - j)) by lia. rewrite seq_app. replace (i + (j - i)) with j by lia. reflexivity.
  Qed.
End Tiled.
