(** * Facts for C73 and C75: what can be computed in a text can be in its parts *)
From Coq Require Import String Ascii.
From Coq Require Import List NArith ZArith Arith Bool Lia.
From Verif Require Import Base Types SpecTypes Token Lexer Grammar SpecGrammar SpecDirective SpecParse Parse P_Parse SpecAppend AppendText.
Import ListNotations.
Local Open Scope nat_scope.
Local Notation tok := SpecGrammar.tok.
Local Notation longest := SpecGrammar.longest.
Local Notation ended := SpecAppend.ended.

Section Parts.
  Context (A B J : input) (Q : map fst (in_tokens J) = map fst (in_tokens A) ++ map fst (in_tokens B)) (Ed : ended (map fst (in_tokens A))).
  Let n := List.length (in_tokens A).

  Lemma first_computable E : computable E J -> computable E A.
  Proof.
    intros [J1 J2]. split.
    - intros i s T. apply (J1 (0 + i)). exact (up_A A B J Q _ _ T).
    - intros i j e M [S0 Lo]. assert (Hi : forall j e, sum A i j e -> i < n).
      { intros j0 e0 Sm. destruct (proj1 (joined_expr A B J Q Ed) _ _ _ (proj1 (joined_up J A 0 (up_A A B J Q)) _ _ _ Sm)) as [X Y]. cbn in X, Y. destruct (lt_dec i n) as [|Ge]; [assumption|].
        exfalso. clear - Sm Ge. assert (Z : (forall i j e, sum A i j e -> i < n) /\ (forall i j e, product A i j e -> i < n) /\ (forall i j e, factor A i j e -> i < n) /\ (forall i j e, primary A i j e -> i < n)).
        { assert (Tk : forall k t, tok A k t -> k < n) by (intros k t [r T]; apply nth_error_Some; congruence). apply ExprFacts.expr_mutind; intros; eauto. }
        apply (proj1 Z) in Sm. lia. }
      apply (J2 i j e).
      + intros k t Qk T. apply (joined_tok A B J Q) in T. destruct T as [[_ T]|[Z _]]; [|specialize (Hi _ _ S0); fold n in Z; lia].
        destruct (M k t Qk T) as [M1 M2]. split; [exact M1|]. intro Et. destruct (M2 Et) as [Z1 Z2]. split; intro Z; [apply Z1|apply Z2]; apply (joined_tok A B J Q) in Z;
          (destruct Z as [[_ Z]|[Z _]]; [exact Z|specialize (Hi _ _ S0); fold n in Z; lia]).
      + split; [exact (proj1 (joined_up J A 0 (up_A A B J Q)) _ _ _ S0)|]. intros k b Sk. destruct (proj1 (joined_expr A B J Q Ed) _ _ _ Sk) as [X _]. destruct (X (Hi _ _ S0)) as [_ Sa]. exact (Lo _ _ Sa).
  Qed.
  Lemma second_computable E : computable E J -> computable E B.
  Proof.
    intros [J1 J2]. split.
    - intros i s T. apply (J1 (n + i)). exact (up_B A B J Q _ _ T).
    - intros i j e M [S0 Lo]. apply (J2 (n + i) (n + j) e).
      + intros k t Qk T. destruct i as [|i].
        * apply (joined_tok A B J Q) in T. destruct T as [[Hk T]|[Z _]]; [|fold n in Z; lia]. fold n in Hk.
          assert (t = T_Eol) as -> by (apply (joined_last A Ed); [fold n; lia|fold n; replace (n - 1) with k by lia; exact T]). split; [intro X; cbn in X; repeat (destruct X as [X|X]; [discriminate X|]); exact X|intros [X|[d X]]; discriminate X].
        * apply (joined_tok A B J Q) in T. destruct T as [[Z _]|[Hk T]]; [fold n in Z; lia|]. fold n in Hk, T. destruct (M (k - n) t ltac:(lia) T) as [M1 M2]. split; [exact M1|].
          intro Et. destruct (M2 Et) as [Z1 Z2]. split; intro Z; [apply Z1|apply Z2]; apply (joined_later A B J Q) in Z; try (fold n; lia); fold n in Z; replace (n + S i - n) with (S i) in Z by lia; exact Z.
      + split; [exact (proj1 (joined_up J B n (up_B A B J Q)) _ _ _ S0)|]. intros k b Sk. destruct (proj1 (joined_expr A B J Q Ed) _ _ _ Sk) as [_ Y]. fold n in Y. destruct (Y ltac:(lia)) as [Hk Sb].
        replace (n + i - n) with i in Sb by lia. specialize (Lo _ _ Sb). lia.
  Qed.
  Lemma first_options : fine_options J -> fine_options A.
  Proof. intros F i name value c T1 T2 T3. apply (F (0 + i)); [exact (up_A A B J Q _ _ T1)|exact (up_A A B J Q _ _ T2)|exact (up_A A B J Q _ _ T3)]. Qed.
  Lemma second_options : fine_options J -> fine_options B.
  Proof.
    intros F i name value c T1 T2 T3. apply (F (n + i)); [exact (up_B A B J Q _ _ T1)| |]; rewrite <- !Nat.add_succ_r; [exact (up_B A B J Q _ _ T2)|exact (up_B A B J Q _ _ T3)].
  Qed.
End Parts.

(** Tokens, wherever they are. *)
Definition placed (us : list token) : input := mk_input 0 (map (fun t => (t, (0, 0))) us) 0.
Lemma placed_tokens us : map fst (in_tokens (placed us)) = us.
Proof. cbn. rewrite map_map. apply map_id. Qed.
Definition fine_tokens (E : grammar_env) (us : list token) : Prop := computable E (placed us) /\ fine_options (placed us).

Lemma fine_of E I us : map fst (in_tokens I) = us -> computable E I -> fine_options I -> fine_tokens E us.
Proof.
  intros Q C O. assert (Q' : map fst (in_tokens I) = map fst (in_tokens (placed [])) ++ map fst (in_tokens (placed us))) by (rewrite !placed_tokens; exact Q).
  assert (Ed : ended (map fst (in_tokens (placed [])))) by (left; reflexivity).
  split; [exact (second_computable _ _ _ Q' Ed E C)|exact (second_options _ _ _ Q' O)].
Qed.
Lemma of_fine E I us : map fst (in_tokens I) = us -> fine_tokens E us -> computable E I /\ fine_options I.
Proof.
  intros Q [C O]. assert (Q' : map fst (in_tokens (placed us)) = map fst (in_tokens (placed [])) ++ map fst (in_tokens I)) by (rewrite !placed_tokens; symmetry; exact Q).
  assert (Ed : ended (map fst (in_tokens (placed [])))) by (left; reflexivity).
  split; [exact (second_computable _ _ _ Q' Ed E C)|exact (second_options _ _ _ Q' O)].
Qed.
Lemma fine_app E ua ub : ended ua -> (fine_tokens E (ua ++ ub) <-> fine_tokens E ua /\ fine_tokens E ub).
Proof.
  intro Ed. assert (Q : map fst (in_tokens (placed (ua ++ ub))) = map fst (in_tokens (placed ua)) ++ map fst (in_tokens (placed ub))) by (rewrite !placed_tokens; reflexivity).
  assert (Ed' : ended (map fst (in_tokens (placed ua)))) by (rewrite placed_tokens; exact Ed). split.
  - intros [C O]. split; split; [exact (first_computable _ _ _ Q Ed' E C)|exact (first_options _ _ _ Q O)|exact (second_computable _ _ _ Q Ed' E C)|exact (second_options _ _ _ Q O)].
  - intros [[C1 O1] [C2 O2]]. split; [exact (joined_computable _ _ _ Q Ed' E C1 C2)|exact (joined_fine_options _ _ _ Q Ed' O1 O2)].
Qed.

Lemma content_tokens L E id c ts : lex L c = Fine (Some ts) -> (fine_content L E id c <-> fine_tokens E (map fst ts)).
Proof.
  intro Lx. split.
  - intros (t & X & C & O). rewrite Lx in X. injection X as <-. exact (fine_of E _ _ eq_refl C O).
  - intro F. exists ts. split; [exact Lx|]. exact (of_fine E (input_of id c ts) _ eq_refl F).
Qed.


(** Where there are no numbers, currencies or options there is nothing to compute. *)
Lemma no_number I : (forall i d, ~ tok I i (T_Number d)) ->
  (forall i j e, sum I i j e -> False) /\ (forall i j e, product I i j e -> False) /\ (forall i j e, factor I i j e -> False) /\ (forall i j e, primary I i j e -> False).
Proof. intro N. apply ExprFacts.expr_mutind; intros; eauto. eapply N. eassumption. Qed.
Lemma fine_plain E us : (forall d, ~ In (T_Number d) us) -> (forall s, ~ In (T_Currency s) us) -> without K_Option us -> fine_tokens E us.
Proof.
  intros Nn Nc No. assert (At : forall i t, tok (placed us) i t -> In t us).
  { intros i t [r Q]. rewrite <- (placed_tokens us). apply in_map_iff. exists (t, r). split; [reflexivity|]. eapply nth_error_In. exact Q. }
  split; [split|].
  - intros i s T. exfalso. exact (Nc s (At _ _ T)).
  - intros i j e _ [S0 _]. exfalso. eapply (proj1 (no_number (placed us) (fun i d T => Nn d (At _ _ T)))). exact S0.
  - intros i name value c T _ _. exfalso. exact (No (At _ _ T)).
Qed.
