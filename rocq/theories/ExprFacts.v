(** * Facts about the parser of expressions *)
From Coq Require Import List NArith Arith Bool Lia.
From Verif Require Import Base Types Decimal Cost Token Peg Grammar SpecGrammar PegFacts.
Import ListNotations.
Local Open Scope nat_scope.

Scheme sum_mut := Induction for sum Sort Prop
  with product_mut := Induction for product Sort Prop
  with factor_mut := Induction for factor Sort Prop
  with primary_mut := Induction for primary Sort Prop.
Combined Scheme expr_mutind from sum_mut, product_mut, factor_mut, primary_mut.

Lemma select_got {A} toks (f : token -> option A) i a j ws es :
  select toks f i = Got a j ws es <->
  (exists t r, nth_error toks i = Some (t, r) /\ f t = Some a) /\ j = S i /\ ws = [] /\ es = [].
Proof.
  unfold select. destruct (nth_error toks i) as [[t r]|].
  - destruct (f t) eqn:F.
    + split.
      * intro H. injection H as <- <- <- <-. repeat split. exists t, r. auto.
      * intros ((t' & r' & H1 & H2) & -> & -> & ->). congruence.
    + split; [discriminate|]. intros ((t' & r' & H1 & H2) & _). congruence.
  - split; [discriminate|]. intros ((t' & r' & H1 & H2) & _). congruence.
Qed.

Lemma just_got I t i a j ws es :
  just I t i = Got a j ws es <-> tok I i t /\ a = t /\ j = S i /\ ws = [] /\ es = [].
Proof.
  unfold just, sel. rewrite select_got. unfold tok. split.
  - intros ((x & r & H1 & H2) & -> & -> & ->). destruct (token_eq_dec x t) as [->|]; [|discriminate].
    injection H2 as <-. repeat split. exists r. exact H1.
  - intros ((r & H) & -> & -> & -> & ->). repeat split. exists t, r. split; [exact H|].
    destruct (token_eq_dec t t); congruence.
Qed.

Lemma just_at I t i : tok I i t -> just I t i = Got t (S i) [] [].
Proof. intro H. apply just_got. auto. Qed.

Lemma just_not I t i : ~ tok I i t -> just I t i = Not [].
Proof.
  intro H. unfold just, sel, select. destruct (nth_error (in_tokens I) i) as [[x r]|] eqn:N; auto.
  destruct (token_eq_dec x t) as [->|]; auto. exfalso. apply H. exists r. exact N.
Qed.

Lemma tok_fun I i t t' : tok I i t -> tok I i t' -> t = t'.
Proof. intros [r H] [r' H']. congruence. Qed.
Lemma tok_lt I i t : tok I i t -> i < List.length (in_tokens I).
Proof. intros [r H]. apply nth_error_Some. congruence. Qed.

Section Expr.
  Context (I : input).
  Let n := List.length (in_tokens I).
  Notation toks := (in_tokens I).

  (** ** Where the parsers end *)

  Lemma just_steps lo t : steps toks lo (just I t).
  Proof. apply steps_select. Qed.

  Lemma primary_steps lo p : safe toks (S lo) p -> steps toks lo (p_primary I p).
  Proof.
    intro P. apply steps_alt; [apply steps_select|]. apply steps_pmap. apply steps_bind_after; [apply just_steps|].
    intro a. apply safe_bind; [exact P|]. intro x. apply safe_bind; [apply steps_safe, just_steps|].
    intro b. apply safe_ret.
  Qed.

  Lemma factor_steps lo p : safe toks (S lo) p -> steps toks lo (p_factor I p).
  Proof.
    intro P. apply steps_bind_r.
    - apply safe_opt, safe_choice. repeat constructor; apply steps_safe, just_steps.
    - intro a. apply steps_bind_l; [apply primary_steps; exact P|]. intro x. apply safe_ret.
  Qed.

  Lemma product_rest_steps lo p : safe toks (S lo) p -> steps toks lo (p_product_rest I p).
  Proof.
    intro P. apply steps_bind_l.
    - apply steps_choice. repeat constructor; apply steps_pmap, just_steps.
    - intro op. apply safe_bind; [apply steps_safe, factor_steps; exact P|]. intro x. apply safe_ret.
  Qed.

  Lemma product_steps lo p : safe toks (S lo) p -> steps toks lo (p_product I p).
  Proof.
    intro P. apply foldl_steps; [apply factor_steps; exact P|]. apply product_rest_steps. exact P.
  Qed.

  Lemma sum_rest_steps lo p : safe toks (S lo) p -> steps toks lo (p_sum_rest I p).
  Proof.
    intro P. apply steps_bind_l.
    - apply steps_choice. repeat constructor; apply steps_pmap, just_steps.
    - intro op. apply safe_bind; [apply steps_safe, product_steps; exact P|]. intro x. apply safe_ret.
  Qed.

  Lemma sum_steps lo p : safe toks (S lo) p -> steps toks lo (p_sum I p).
  Proof.
    intro P. apply foldl_steps; [apply product_steps; exact P|]. apply sum_rest_steps. exact P.
  Qed.

  Lemma expr_n_steps : forall k lo, n < lo + k -> steps toks lo (expr_n I k).
  Proof.
    induction k as [|k IH]; intros lo H.
    - intros i Lo Hi. fold n in Hi. lia.
    - cbn [expr_n]. apply sum_steps. apply steps_safe. apply IH. lia.
  Qed.

  Lemma p_expr_steps lo : steps toks lo (p_expr I).
  Proof.
    intros i Lo Hi. unfold p_expr. apply (expr_n_steps _ i); auto. fold n. lia.
  Qed.

  (** ** Expressions do not panic, warn or emit errors *)

  Definition plain {A} (p : parser A) : Prop :=
    forall i, match p i with Got _ _ ws es => ws = [] /\ es = [] | Not ws => ws = [] | Crash => False | Loop => True end.

  Lemma plain_ret {A} (a : A) : plain (ret a).
  Proof. intro i. cbn. auto. Qed.
  Lemma plain_bind {A B} (p : parser A) (f : A -> parser B) : plain p -> (forall a, plain (f a)) -> plain (bind p f).
  Proof.
    intros P F i. unfold bind. specialize (P i). destruct (p i) as [a j w e|w| |]; auto.
    destruct P as [-> ->]. specialize (F a j). destruct (f a j); auto.
  Qed.
  Lemma plain_pmap {A B} (f : A -> B) p : plain p -> plain (pmap f p).
  Proof. intro P. apply plain_bind; [exact P|]. intro a. apply plain_ret. Qed.
  Lemma plain_alt {A} (p q : parser A) : plain p -> plain q -> plain (alt p q).
  Proof.
    intros P Q i. unfold alt. specialize (P i). specialize (Q i). destruct (p i); auto. subst.
    destruct (q i); auto.
  Qed.
  Lemma plain_choice {A} (ps : list (parser A)) : Forall plain ps -> plain (choice ps).
  Proof.
    induction 1 as [|p ps P F IH]; [intro i; reflexivity|]. destruct ps; [exact P|]. apply plain_alt; assumption.
  Qed.
  Lemma plain_opt {A} (p : parser A) : plain p -> plain (opt p).
  Proof. intros P i. unfold opt. specialize (P i). destruct (p i); auto. Qed.
  Lemma plain_many {A} (p : parser A) : plain p -> plain (many toks p).
  Proof.
    intros P i. unfold many. generalize (S (List.length toks - i)). intro f. revert i.
    induction f as [|f IH]; intro i; cbn [many_n]; auto. specialize (P i).
    destruct (p i) as [a j w e|w| |]; auto. destruct P as [-> ->]. specialize (IH j). destruct (many_n f p j); auto.
  Qed.
  Lemma plain_select {A} (f : token -> option A) : plain (select toks f).
  Proof. intro i. unfold select. destruct (nth_error toks i) as [[t r]|]; auto. destruct (f t); auto. Qed.

  Lemma primary_plain p : plain p -> plain (p_primary I p).
  Proof.
    intro P. apply plain_alt; [apply plain_select|]. apply plain_pmap. apply plain_bind; [apply plain_select|].
    intro a. apply plain_bind; [exact P|]. intro x. apply plain_bind; [apply plain_select|]. intro b. apply plain_ret.
  Qed.
  Lemma factor_plain_ p : plain p -> plain (p_factor I p).
  Proof.
    intro P. apply plain_bind.
    - apply plain_opt, plain_choice. repeat constructor; apply plain_select.
    - intro a. apply plain_bind; [apply primary_plain; exact P|]. intro x. apply plain_ret.
  Qed.
  Lemma product_rest_plain p : plain p -> plain (p_product_rest I p).
  Proof.
    intro P. apply plain_bind.
    - apply plain_choice. repeat constructor; apply plain_pmap, plain_select.
    - intro op. apply plain_bind; [apply factor_plain_; exact P|]. intro x. apply plain_ret.
  Qed.
  Lemma product_plain p : plain p -> plain (p_product I p).
  Proof.
    intro P. apply plain_bind; [apply factor_plain_; exact P|]. intro a.
    apply plain_bind; [apply plain_many, product_rest_plain; exact P|]. intro l. apply plain_ret.
  Qed.
  Lemma sum_rest_plain p : plain p -> plain (p_sum_rest I p).
  Proof.
    intro P. apply plain_bind.
    - apply plain_choice. repeat constructor; apply plain_pmap, plain_select.
    - intro op. apply plain_bind; [apply product_plain; exact P|]. intro x. apply plain_ret.
  Qed.
  Lemma expr_n_plain k : plain (expr_n I k).
  Proof.
    induction k as [|k IH]; [intro i; exact Logic.I|]. cbn [expr_n].
    apply plain_bind; [apply product_plain; exact IH|]. intro a.
    apply plain_bind; [apply plain_many, sum_rest_plain; exact IH|]. intro l. apply plain_ret.
  Qed.
  Lemma p_expr_plain : plain (p_expr I).
  Proof. intro i. unfold p_expr. apply expr_n_plain. Qed.

  (** ** What they read is an expression *)

  Definition sound {A} (p : parser A) (R : nat -> nat -> A -> Prop) : Prop :=
    forall i a j ws es, p i = Got a j ws es -> R i j a.

  Lemma primary_sound p : sound p (sum I) -> sound (p_primary I p) (primary I).
  Proof.
    intros P i a j ws es H. apply alt_got in H. destruct H as [H|(w1 & w2 & _ & H & _)].
    - apply select_got in H. destruct H as ((t & r & Ht & F) & -> & _). destruct t; try discriminate.
      injection F as <-. constructor. exists r. exact Ht.
    - apply pmap_got in H. destruct H as (e & H & ->).
      apply bind_got in H. destruct H as (x & j1 & w3 & e3 & w4 & e4 & H1 & H2 & _ & _).
      apply just_got in H1. destruct H1 as (T1 & _ & -> & _).
      apply bind_got in H2. destruct H2 as (y & j2 & w5 & e5 & w6 & e6 & H2 & H3 & _ & _).
      apply bind_got in H3. destruct H3 as (z & j3 & w7 & e7 & w8 & e8 & H3 & H4 & _ & _).
      apply just_got in H3. destruct H3 as (T3 & _ & -> & _).
      injection H4 as <- <- _ _. apply primary_parens; eauto.
  Qed.

  Lemma factor_sound p : sound p (sum I) -> sound (p_factor I p) (factor I).
  Proof.
    intros P i a j ws es H.
    apply bind_got in H. destruct H as (o & j1 & w3 & e3 & w4 & e4 & H1 & H2 & _ & _).
    apply bind_got in H2. destruct H2 as (y & j2 & w5 & e5 & w6 & e6 & H2 & H3 & _ & _).
    apply (primary_sound p P) in H2. injection H3 as <- <- _ _.
    apply opt_got in H1. destruct H1 as [(t & H1 & ->)|(_ & -> & -> & _)].
    - apply choice_got in H1. destruct H1 as (q & w & [<-|[<-|[]]] & H1); apply just_got in H1;
        destruct H1 as (T & -> & -> & _).
      + apply factor_minus; assumption.
      + apply factor_plus; assumption.
    - apply factor_plain. exact H2.
  Qed.

  Lemma product_rest_sound p : sound p (sum I) -> forall i x j ws es,
    p_product_rest I p i = Got x j ws es ->
    exists b, factor I (S i) j b /\
      ((tok I i T_Asterisk /\ x = (E_Mul, b)) \/ (tok I i T_Slash /\ x = (E_Div, b))).
  Proof.
    intros P i x j ws es H.
    apply bind_got in H. destruct H as (o & j1 & w3 & e3 & w4 & e4 & H1 & H2 & _ & _).
    apply bind_got in H2. destruct H2 as (y & j2 & w5 & e5 & w6 & e6 & H2 & H3 & _ & _).
    apply (factor_sound p P) in H2. injection H3 as <- <- _ _. exists y.
    apply choice_got in H1. destruct H1 as (q & w & [<-|[<-|[]]] & H1); apply pmap_got in H1;
      destruct H1 as (t & H1 & ->); apply just_got in H1; destruct H1 as (T & _ & -> & _); auto.
  Qed.

  Lemma product_sound p : sound p (sum I) -> sound (p_product I p) (product I).
  Proof.
    intros P i a j ws es H.
    apply bind_got in H. destruct H as (x & j1 & w3 & e3 & w4 & e4 & H1 & H2 & _ & _).
    apply bind_got in H2. destruct H2 as (l & j2 & w5 & e5 & w6 & e6 & H2 & H3 & _ & _).
    injection H3 as <- <- _ _. apply (factor_sound p P) in H1. apply many_n_got in H2. destruct H2 as [H2 _].
    apply product_one in H1. revert x H1. induction H2 as [k|k k' k'' op l es1 es2 [ws' R] _ IH]; intros x X; [exact X|].
    cbn [fold_left]. apply IH. apply (product_rest_sound p P) in R. destruct R as (b & B & [[T ->]|[T ->]]); cbn [fst snd].
    - eapply product_mul; eauto.
    - eapply product_div; eauto.
  Qed.

  Lemma sum_rest_sound p : sound p (sum I) -> forall i x j ws es,
    p_sum_rest I p i = Got x j ws es ->
    exists b, product I (S i) j b /\
      ((tok I i T_Plus /\ x = (E_Add, b)) \/ (tok I i T_Minus /\ x = (E_Sub, b))).
  Proof.
    intros P i x j ws es H.
    apply bind_got in H. destruct H as (o & j1 & w3 & e3 & w4 & e4 & H1 & H2 & _ & _).
    apply bind_got in H2. destruct H2 as (y & j2 & w5 & e5 & w6 & e6 & H2 & H3 & _ & _).
    apply (product_sound p P) in H2. injection H3 as <- <- _ _. exists y.
    apply choice_got in H1. destruct H1 as (q & w & [<-|[<-|[]]] & H1); apply pmap_got in H1;
      destruct H1 as (t & H1 & ->); apply just_got in H1; destruct H1 as (T & _ & -> & _); auto.
  Qed.

  Lemma expr_n_sound : forall k, sound (expr_n I k) (sum I).
  Proof.
    induction k as [|k IH]; intros i a j ws es H; [discriminate|]. cbn [expr_n] in H.
    apply bind_got in H. destruct H as (x & j1 & w3 & e3 & w4 & e4 & H1 & H2 & _ & _).
    apply bind_got in H2. destruct H2 as (l & j2 & w5 & e5 & w6 & e6 & H2 & H3 & _ & _).
    injection H3 as <- <- _ _. apply (product_sound _ IH) in H1. apply many_n_got in H2. destruct H2 as [H2 _].
    apply sum_one in H1. revert x H1. induction H2 as [m|m m' m'' op l es1 es2 [ws' R] _ IHl]; intros x X; [exact X|].
    cbn [fold_left]. apply IHl. apply (sum_rest_sound _ IH) in R. destruct R as (b & B & [[T ->]|[T ->]]); cbn [fst snd].
    - eapply sum_add; eauto.
    - eapply sum_sub; eauto.
  Qed.

  Lemma p_expr_sound : sound (p_expr I) (sum I).
  Proof. intros i a j ws es H. eapply expr_n_sound. exact H. Qed.

  (** ** What is an expression is read *)

  Lemma bounds :
    (forall i j e, sum I i j e -> i < j <= n) /\ (forall i j e, product I i j e -> i < j <= n) /\
    (forall i j e, factor I i j e -> i < j <= n) /\ (forall i j e, primary I i j e -> i < j <= n).
  Proof.
    apply expr_mutind; intros; try lia.
    - apply tok_lt in t. fold n in t. lia.
    - apply tok_lt in t, t0. fold n in t, t0. lia.
  Qed.

  (** A parser reads [l] in steps from [i] up to [j]. *)
  Inductive chain {A} (p : parser A) : nat -> nat -> list A -> Prop :=
  | chain_nil i : chain p i i []
  | chain_cons i j k a l : p i = Got a j [] [] -> chain p j k l -> chain p i k (a :: l).

  Lemma chain_snoc {A} (p : parser A) i j k l a : chain p i j l -> p j = Got a k [] [] -> chain p i k (l ++ [a]).
  Proof.
    induction 1 as [i|i m j b l R _ IH]; intro P; cbn [app].
    - eapply chain_cons; [exact P|constructor].
    - eapply chain_cons; [exact R|auto].
  Qed.
  Lemma many_chain {A} lo (p : parser A) i j l : steps toks lo p -> lo <= i -> i <= n -> chain p i j l ->
    many toks p i =
    match many toks p j with
    | Got l' k ws es => Got (l ++ l') k ws es
    | r => r
    end.
  Proof.
    intros P Lo Hi H. revert Lo Hi. induction H as [i|i m j b l R _ IH]; intros Lo Hi.
    - destruct (many toks p i); reflexivity.
    - pose proof (P i Lo Hi) as Q. rewrite R in Q.
      rewrite (many_unfold toks lo) by assumption. rewrite R, IH by (fold n in Q; lia). destruct (many toks p j); reflexivity.
  Qed.

  Definition reads_factor (i j : nat) (e : expr) : Prop :=
    forall k, n < S i + k -> p_factor I (expr_n I k) i = Got e j [] [].
  Definition reads_primary (i j : nat) (e : expr) : Prop :=
    forall k, n < S i + k -> p_primary I (expr_n I k) i = Got e j [] [].
  Definition ops_applied (l : list ((expr -> expr -> expr) * expr)) (a : expr) : expr :=
    fold_left (fun lhs x => fst x lhs (snd x)) l a.
  Definition reads_product (i j : nat) (e : expr) : Prop :=
    forall k, n < S i + k -> exists a m l,
      p_factor I (expr_n I k) i = Got a m [] [] /\ m <= n /\ i < m /\ chain (p_product_rest I (expr_n I k)) m j l /\
      e = ops_applied l a.
  Definition reads_sum (i j : nat) (e : expr) : Prop :=
    ~ tok I j T_Asterisk -> ~ tok I j T_Slash ->
    forall k, n < S i + k -> exists a m l,
      p_product I (expr_n I k) i = Got a m [] [] /\ m <= n /\ i < m /\ chain (p_sum_rest I (expr_n I k)) m j l /\
      e = ops_applied l a.

  Lemma safe_k i k : n < S i + k -> safe toks (S i) (expr_n I k).
  Proof. intro H. apply steps_safe, expr_n_steps. exact H. Qed.

  (** The rest of a product or a sum, where no operator follows. *)
  Lemma product_rest_stops p j : ~ tok I j T_Asterisk -> ~ tok I j T_Slash -> p_product_rest I p j = Not [].
  Proof.
    intros A B. unfold p_product_rest, bind, choice, alt, pmap, bind. now rewrite !just_not.
  Qed.
  Lemma sum_rest_stops p j : ~ tok I j T_Plus -> ~ tok I j T_Minus -> p_sum_rest I p j = Not [].
  Proof.
    intros A B. unfold p_sum_rest, bind, choice, alt, pmap, bind. now rewrite !just_not.
  Qed.

  Lemma many_stops {A} (p : parser A) j : j <= n -> p j = Not [] -> many toks p j = Got [] j [] [].
  Proof. intros Hj P. unfold many. cbn [many_n]. rewrite P. reflexivity. Qed.

  (** The product read goes on from [j]. *)
  Lemma product_goes_on i j e k : reads_product i j e -> n < S i + k -> i <= n ->
    p_product I (expr_n I k) i =
    match many toks (p_product_rest I (expr_n I k)) j with
    | Got l' m ws es => Got (ops_applied l' e) m ws es
    | Not ws => Not ws
    | Crash => Crash
    | Loop => Loop
    end.
  Proof.
    intros R K Hi. destruct (R k K) as (a & m & l & F & Hm & Im & C & ->).
    unfold p_product, foldl, bind. rewrite F. rewrite (many_chain i _ m j l); auto; try lia.
    - unfold ret. destruct (many toks (p_product_rest I (expr_n I k)) j); try reflexivity.
      cbn [app]. rewrite !app_nil_r. unfold ops_applied. rewrite fold_left_app. reflexivity.
    - apply product_rest_steps. apply safe_k. exact K.
  Qed.

  Lemma product_exact i j e k : reads_product i j e -> n < S i + k -> i <= n -> j <= n ->
    ~ tok I j T_Asterisk -> ~ tok I j T_Slash -> p_product I (expr_n I k) i = Got e j [] [].
  Proof.
    intros R K Hi Hj A B. rewrite (product_goes_on i j e k R K Hi).
    rewrite many_stops; [reflexivity|exact Hj|]. apply product_rest_stops; assumption.
  Qed.

  Lemma sum_goes_on i j e k : reads_sum i j e -> n < S i + k -> i <= n ->
    ~ tok I j T_Asterisk -> ~ tok I j T_Slash ->
    p_sum I (expr_n I k) i =
    match many toks (p_sum_rest I (expr_n I k)) j with
    | Got l' m ws es => Got (ops_applied l' e) m ws es
    | Not ws => Not ws
    | Crash => Crash
    | Loop => Loop
    end.
  Proof.
    intros R K Hi A B. destruct (R A B k K) as (a & m & l & F & Hm & Im & C & ->).
    unfold p_sum, foldl, bind. rewrite F. rewrite (many_chain i _ m j l); auto; try lia.
    - unfold ret. destruct (many toks (p_sum_rest I (expr_n I k)) j); try reflexivity.
      cbn [app]. rewrite !app_nil_r. unfold ops_applied. rewrite fold_left_app. reflexivity.
    - apply sum_rest_steps. apply safe_k. exact K.
  Qed.

  Lemma not_tok i t t' : tok I i t -> t <> t' -> ~ tok I i t'.
  Proof. intros H N H'. apply N. eapply tok_fun; eauto. Qed.

  Lemma reads_all :
    (forall i j e, sum I i j e -> reads_sum i j e) /\ (forall i j e, product I i j e -> reads_product i j e) /\
    (forall i j e, factor I i j e -> reads_factor i j e) /\ (forall i j e, primary I i j e -> reads_primary i j e).
  Proof.
    destruct bounds as (Bs & Bp & Bf & Bq).
    apply expr_mutind.
    - (* a product *)
      intros i j e P R NA NS k K. exists e, j, []. apply Bp in P. split; [|split; [|split; [|split]]]; try lia.
      + apply product_exact; auto; lia.
      + apply chain_nil.
      + reflexivity.
    - (* + *)
      intros i j m a b Sa Ra T P R NA NS k K.
      destruct (Ra (not_tok j _ T_Asterisk T ltac:(discriminate)) (not_tok j _ T_Slash T ltac:(discriminate)) k K)
        as (a0 & m0 & l & F & Hm & Im & C & ->).
      exists a0, m0, (l ++ [(E_Add, b)]). split; [exact F|]. split; [exact Hm|]. split; [exact Im|].
      pose proof (Bs _ _ _ Sa). pose proof (Bp _ _ _ P). split.
      + apply chain_snoc with (j := j); [exact C|].
        unfold p_sum_rest, choice, alt, pmap, bind, ret. rewrite just_at by exact T.
        rewrite (product_exact (S j) m b k); auto; lia.
      + unfold ops_applied. rewrite fold_left_app. reflexivity.
    - (* - *)
      intros i j m a b Sa Ra T P R NA NS k K.
      destruct (Ra (not_tok j _ T_Asterisk T ltac:(discriminate)) (not_tok j _ T_Slash T ltac:(discriminate)) k K)
        as (a0 & m0 & l & F & Hm & Im & C & ->).
      exists a0, m0, (l ++ [(E_Sub, b)]). split; [exact F|]. split; [exact Hm|]. split; [exact Im|].
      pose proof (Bs _ _ _ Sa). pose proof (Bp _ _ _ P). split.
      + apply chain_snoc with (j := j); [exact C|].
        unfold p_sum_rest, choice, alt, pmap, bind, ret.
        rewrite (just_not I T_Plus) by (apply (not_tok j _ _ T); discriminate).
        rewrite just_at by exact T.
        rewrite (product_exact (S j) m b k); auto; lia.
      + unfold ops_applied. rewrite fold_left_app. reflexivity.
    - (* a factor *)
      intros i j e F R k K. exists e, j, []. apply Bf in F. split; [apply R; exact K|].
      split; [lia|]. split; [lia|]. split; [apply chain_nil|reflexivity].
    - intros i j m a b Pa Ra T F R k K. destruct (Ra k K) as (a0 & m0 & l & F0 & Hm & Im & C & ->).
      pose proof (Bp _ _ _ Pa). pose proof (Bf _ _ _ F).
      exists a0, m0, (l ++ [(E_Mul, b)]). split; [exact F0|]. split; [exact Hm|]. split; [exact Im|]. split.
      + apply chain_snoc with (j := j); [exact C|].
        unfold p_product_rest, choice, alt, pmap, bind, ret. rewrite just_at by exact T.
        rewrite R by lia. reflexivity.
      + unfold ops_applied. rewrite fold_left_app. reflexivity.
    - intros i j m a b Pa Ra T F R k K. destruct (Ra k K) as (a0 & m0 & l & F0 & Hm & Im & C & ->).
      pose proof (Bp _ _ _ Pa). pose proof (Bf _ _ _ F).
      exists a0, m0, (l ++ [(E_Div, b)]). split; [exact F0|]. split; [exact Hm|]. split; [exact Im|]. split.
      + apply chain_snoc with (j := j); [exact C|].
        unfold p_product_rest, choice, alt, pmap, bind, ret.
        rewrite (just_not I T_Asterisk) by (apply (not_tok j _ _ T); discriminate).
        rewrite just_at by exact T. rewrite R by lia. reflexivity.
      + unfold ops_applied. rewrite fold_left_app. reflexivity.
    - (* factors *)
      intros i j e P R k K. unfold p_factor, bind, opt, choice, alt, ret.
      assert (N : forall t, t = T_Minus \/ t = T_Plus -> ~ tok I i t).
      { intros t Ht H. inversion P; subst;
          match goal with X : tok I i ?u |- _ => pose proof (tok_fun _ _ _ _ H X) end; destruct Ht; subst; discriminate. }
      rewrite !just_not by (apply N; auto). rewrite R by exact K. reflexivity.
    - intros i j e T P R k K. unfold p_factor, bind, opt, choice, alt, ret.
      rewrite (just_not I T_Minus) by (apply (not_tok i _ _ T); discriminate). rewrite just_at by exact T.
      rewrite R by lia. reflexivity.
    - intros i j e T P R k K. unfold p_factor, bind, opt, choice, alt, ret.
      rewrite just_at by exact T. rewrite R by lia. reflexivity.
    - (* primaries *)
      intros i d [r T] k K. unfold p_primary, alt, sel, select. rewrite T. reflexivity.
    - intros i j e T Se R T' k K. pose proof (Bs _ _ _ Se). pose proof (tok_lt _ _ _ T'). 
      destruct k as [|k]; [lia|]. unfold p_primary, alt.
      replace (sel I (fun t => match t with T_Number d => Some (E_Value d) | _ => None end) i) with (@Not expr []).
      2:{ unfold sel, select. destruct T as [r T]. rewrite T. reflexivity. }
      unfold pmap, bind, ret. rewrite just_at by exact T.
      assert (X : expr_n I (S k) (S i) = Got e j [] []).
      { cbn [expr_n]. rewrite (sum_goes_on (S i) j e k R); try lia;
          try (apply (not_tok j _ _ T'); discriminate).
        rewrite many_stops; [reflexivity|unfold n; lia|].
        apply sum_rest_stops; apply (not_tok j _ _ T'); discriminate. }
      rewrite X. rewrite just_at by exact T'. reflexivity.
  Qed.

  (** ** The longest one is read *)

  Lemma many_goes_far {A} lo (p : parser A) j : steps toks lo p -> plain p -> lo <= j -> j <= n ->
    exists l m, many toks p j = Got l m [] [] /\ j <= m <= n.
  Proof.
    intros P Q Lo Hj. pose proof (safe_many toks lo p P j Lo Hj) as Sf. pose proof (plain_many p Q j) as Pl.
    pose proof (many_not toks p j) as Nt.
    destruct (many toks p j) as [l m w e|w| |]; try contradiction.
    - destruct Pl as [-> ->]. exists l, m. auto.
    - exfalso. apply (Nt w). reflexivity.
  Qed.

  Lemma product_far i j e k : product I i j e -> n < S i + k ->
    exists e' m, p_product I (expr_n I k) i = Got e' m [] [] /\ j <= m <= n.
  Proof.
    intros P K. destruct bounds as (_ & Bp & _). pose proof (Bp _ _ _ P). destruct reads_all as (_ & Rp & _).
    rewrite (product_goes_on i j e k); auto; try lia.
    destruct (many_goes_far i (p_product_rest I (expr_n I k)) j) as (l & m & M & Hm); try lia.
    - apply product_rest_steps, safe_k. exact K.
    - apply product_rest_plain, expr_n_plain.
    - rewrite M. eauto.
  Qed.

  Lemma sum_far i j e k : sum I i j e -> n < S i + k ->
    exists e' m, p_sum I (expr_n I k) i = Got e' m [] [] /\ j <= m <= n.
  Proof.
    intros Sm K. destruct bounds as (Bs & Bp & _). destruct reads_all as (Rs & Rp & _).
    assert (after : forall a m, i <= m -> m <= n -> exists e' m', 
      (match many toks (p_sum_rest I (expr_n I k)) m with
       | Got l' m' ws es => Got (ops_applied l' a) m' ws es
       | Not ws => Not ws | Crash => Crash | Loop => Loop end) = Got e' m' [] [] /\ m <= m' <= n).
    { intros a m Im Hm. destruct (many_goes_far i (p_sum_rest I (expr_n I k)) m) as (l & m' & M & Hm'); auto.
      - apply sum_rest_steps, safe_k. exact K.
      - apply sum_rest_plain, expr_n_plain.
      - rewrite M. eauto. }
    assert (op_case : forall j' a b, sum I i j' a -> product I (S j') j b ->
      (exists f, p_sum_rest I (expr_n I k) j' =
        match p_product I (expr_n I k) (S j') with
        | Got x m ws es => Got (f, x) m ws es | Not ws => Not ws | Crash => Crash | Loop => Loop end) ->
      ~ tok I j' T_Asterisk -> ~ tok I j' T_Slash ->
      exists e' m, p_sum I (expr_n I k) i = Got e' m [] [] /\ j <= m <= n).
    { intros j' a b Sa Pb [f F] NA NS. pose proof (Bs _ _ _ Sa). pose proof (Bp _ _ _ Pb).
      rewrite (sum_goes_on i j' a k); auto; try lia.
      destruct (product_far (S j') j b k Pb) as (b' & m & B & Hm); [lia|].
      rewrite B in F.
      rewrite (many_chain i _ j' m [(f, b')]); try lia.
      - destruct (after (ops_applied [(f, b')] a) m) as (e' & m' & A & Hm'); try lia.
        exists e', m'. split; [|lia]. rewrite <- A.
        destruct (many toks (p_sum_rest I (expr_n I k)) m); reflexivity.
      - apply sum_rest_steps, safe_k. exact K.
      - apply chain_snoc with (l := []) (j := j'); [apply chain_nil|exact F]. }
    inversion Sm; subst.
    - destruct (product_far i j e k) as (b & m & B & Hm); auto. pose proof (Bp _ _ _ H).
      unfold p_sum, foldl, bind. rewrite B.
      destruct (after b m) as (e' & m' & A & Hm'); try lia. exists e', m'. split; [|lia].
      rewrite <- A. unfold ret.
      destruct (many_goes_far i (p_sum_rest I (expr_n I k)) m) as (l & m'' & M & Hm''); try lia.
      + apply sum_rest_steps, safe_k. exact K.
      + apply sum_rest_plain, expr_n_plain.
      + rewrite M. reflexivity.
    - eapply op_case; eauto.
      + exists E_Add. unfold p_sum_rest, choice, alt, pmap, bind, ret. rewrite just_at by assumption.
        destruct (p_product I (expr_n I k) (S j0)); try reflexivity. cbn [app]. rewrite !app_nil_r. reflexivity.
      + apply (not_tok _ _ _ H0); discriminate.
      + apply (not_tok _ _ _ H0); discriminate.
    - eapply op_case; eauto.
      + exists E_Sub. unfold p_sum_rest, choice, alt, pmap, bind, ret.
        rewrite (just_not I T_Plus) by (apply (not_tok _ _ _ H0); discriminate). rewrite just_at by assumption.
        destruct (p_product I (expr_n I k) (S j0)); try reflexivity. cbn [app]. rewrite !app_nil_r. reflexivity.
      + apply (not_tok _ _ _ H0); discriminate.
      + apply (not_tok _ _ _ H0); discriminate.
  Qed.

  Lemma p_expr_far i j e : sum I i j e -> exists e' m, p_expr I i = Got e' m [] [] /\ j <= m <= n.
  Proof.
    intro H. destruct bounds as (Bs & _). pose proof (Bs _ _ _ H). unfold p_expr. cbn [expr_n].
    apply sum_far with (e := e); [exact H|]. fold n. lia.
  Qed.

  (** If no operator follows. *)
  Lemma p_expr_exact i j e : sum I i j e ->
    ~ tok I j T_Asterisk -> ~ tok I j T_Slash -> ~ tok I j T_Plus -> ~ tok I j T_Minus ->
    p_expr I i = Got e j [] [].
  Proof.
    intros H A B C D. destruct bounds as (Bs & _). pose proof (Bs _ _ _ H). destruct reads_all as (Rs & _).
    unfold p_expr. cbn [expr_n]. rewrite (sum_goes_on i j e); auto; try (fold n; lia).
    rewrite many_stops; [reflexivity|lia|]. apply sum_rest_stops; assumption.
  Qed.

  Lemma p_expr_not i : (forall j e, ~ sum I i j e) -> i <= n -> p_expr I i = Not [].
  Proof.
    intros H Hi. pose proof (p_expr_steps i i (le_n i) Hi) as Sf. pose proof (p_expr_plain i) as Pl.
    destruct (p_expr I i) as [e j w es|w| |] eqn:P; try contradiction.
    - exfalso. apply (H j e). eapply p_expr_sound. exact P.
    - subst. reflexivity.
  Qed.
End Expr.

(** ** Only one tree *)

Definition truncated (I : input) (m : nat) : input := mk_input (in_source I) (firstn m (in_tokens I)) (in_len I).

Lemma tok_truncated I m i t : i < m -> tok I i t -> tok (truncated I m) i t.
Proof.
  intros L [r H]. exists r. cbn. rewrite <- H. clear H.
  revert m L. generalize (in_tokens I). induction i as [|i IH]; intros l m L.
  - destruct m; [lia|]. destruct l; reflexivity.
  - destruct m; [lia|]. destruct l; [reflexivity|]. cbn. apply IH. lia.
Qed.

Lemma expr_truncated I m :
  (forall i j e, sum I i j e -> j <= m -> sum (truncated I m) i j e) /\
  (forall i j e, product I i j e -> j <= m -> product (truncated I m) i j e) /\
  (forall i j e, factor I i j e -> j <= m -> factor (truncated I m) i j e) /\
  (forall i j e, primary I i j e -> j <= m -> primary (truncated I m) i j e).
Proof.
  destruct (bounds I) as (Bs & Bp & Bf & Bq).
  apply expr_mutind; intros;
    repeat match goal with
      | H : sum I _ _ _ |- _ => pose proof (Bs _ _ _ H); revert H
      | H : product I _ _ _ |- _ => pose proof (Bp _ _ _ H); revert H
      | H : factor I _ _ _ |- _ => pose proof (Bf _ _ _ H); revert H
      | H : primary I _ _ _ |- _ => pose proof (Bq _ _ _ H); revert H
      end; intros.
  - apply sum_one. auto.
  - eapply sum_add; [apply H; lia|apply tok_truncated; [lia|assumption]|auto].
  - eapply sum_sub; [apply H; lia|apply tok_truncated; [lia|assumption]|auto].
  - apply product_one. auto.
  - eapply product_mul; [apply H; lia|apply tok_truncated; [lia|assumption]|auto].
  - eapply product_div; [apply H; lia|apply tok_truncated; [lia|assumption]|auto].
  - apply factor_plain. auto.
  - apply factor_plus; [apply tok_truncated; [lia|assumption]|auto].
  - apply factor_minus; [apply tok_truncated; [lia|assumption]|auto].
  - apply primary_number. apply tok_truncated; [lia|assumption].
  - apply primary_parens; try (apply tok_truncated; [lia|assumption]). apply H; lia.
Qed.

Lemma sum_unique I i j e e' : sum I i j e -> sum I i j e' -> e = e'.
Proof.
  intros H H'. destruct (expr_truncated I j) as (T & _).
  assert (N : forall t, ~ tok (truncated I j) j t).
  { intros t X. apply tok_lt in X. cbn in X. pose proof (firstn_le_length j (in_tokens I)). lia. }
  pose proof (p_expr_exact (truncated I j) i j e (T _ _ _ H (le_n j)) (N _) (N _) (N _) (N _)) as A.
  pose proof (p_expr_exact (truncated I j) i j e' (T _ _ _ H' (le_n j)) (N _) (N _) (N _) (N _)) as B.
  congruence.
Qed.

(** ** The parser of expressions, in full *)

Lemma p_expr_iff I i j e :
  p_expr I i = Got e j [] [] <-> (sum I i j e /\ forall j' e', sum I i j' e' -> j' <= j).
Proof.
  split.
  - intro P. split; [eapply p_expr_sound; exact P|]. intros j' e' H.
    destruct (p_expr_far I i j' e' H) as (e2 & m & Q & Hm). rewrite P in Q. injection Q as <- <-. lia.
  - intros [H L]. destruct (p_expr_far I i j e H) as (e2 & m & Q & Hm).
    pose proof (p_expr_sound I _ _ _ _ _ Q) as H2. pose proof (L _ _ H2). assert (m = j) by lia. subst m.
    rewrite (sum_unique I i j e e2 H H2). exact Q.
Qed.
