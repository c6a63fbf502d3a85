(** * C20: the value of an expression *)
From Coq Require Import List NArith ZArith QArith Qabs Arith Bool Lia.
From Verif Require Import Base Types Decimal SpecDecimal DecimalFacts.
Import ListNotations.

Section WithOps.
  Context (ops : dec_ops).

  Lemma computes_unique : forall e x, computes ops e x -> forall y, computes ops e y -> x = y.
  Proof.
    induction 1; intros w Hw; inversion Hw; subst; auto;
      repeat match goal with
        | IH : forall w, computes ops ?a w -> ?x = w, H : computes ops ?a ?y |- _ => apply IH in H; subst
        end; try congruence; reflexivity.
  Qed.

  Lemma max_places_unary : forall (c : expr -> expr) a s,
    (forall d, literal_of d (c a) <-> literal_of d a) -> max_places a s -> max_places (c a) s.
  Proof.
    intros c a s Hc [A [d [B C]]]. split.
    - intros x Hx. apply A. apply Hc. exact Hx.
    - exists d. split; [apply Hc; exact B|exact C].
  Qed.

  Lemma max_places_binary : forall (c : expr -> expr -> expr) a b s t,
    (forall d, literal_of d (c a b) <-> literal_of d a \/ literal_of d b) ->
    max_places a s -> max_places b t -> max_places (c a b) (Nat.max s t).
  Proof.
    intros c a b s t Hc [A [d [B C]]] [A' [d' [B' C']]]. split.
    - intros x Hx. apply Hc in Hx. destruct Hx as [Hx|Hx]; [apply A in Hx|apply A' in Hx]; lia.
    - destruct (Nat.max_spec s t) as [[_ ->]|[_ ->]].
      + exists d'. split; [apply Hc; auto|exact C'].
      + exists d. split; [apply Hc; auto|exact C].
  Qed.

  Lemma max_places_unique : forall e s t, max_places e s -> max_places e t -> s = t.
  Proof.
    intros e s t [A [d [B C]]] [A' [d' [B' C']]]. apply A in B'. apply A' in B. lia.
  Qed.

  Lemma literal_add : forall a b d, literal_of d (E_Add a b) <-> literal_of d a \/ literal_of d b.
  Proof. intros. split; intro H; [inversion H; assumption|constructor; assumption]. Qed.
  Lemma literal_sub : forall a b d, literal_of d (E_Sub a b) <-> literal_of d a \/ literal_of d b.
  Proof. intros. split; intro H; [inversion H; assumption|constructor; assumption]. Qed.
  Lemma literal_mul : forall a b d, literal_of d (E_Mul a b) <-> literal_of d a \/ literal_of d b.
  Proof. intros. split; intro H; [inversion H; assumption|constructor; assumption]. Qed.
  Lemma literal_div : forall a b d, literal_of d (E_Div a b) <-> literal_of d a \/ literal_of d b.
  Proof. intros. split; intro H; [inversion H; assumption|constructor; assumption]. Qed.
  Lemma literal_neg : forall a d, literal_of d (E_Neg a) <-> literal_of d a.
  Proof. intros. split; intro H; [inversion H; assumption|constructor; assumption]. Qed.
  Lemma literal_paren : forall a d, literal_of d (E_Paren a) <-> literal_of d a.
  Proof. intros. split; intro H; [inversion H; assumption|constructor; assumption]. Qed.

  Lemma max_places_value : forall d, max_places (E_Value d) (dec_scale d).
  Proof.
    intro d. split.
    - intros x H. inversion H. subst. lia.
    - exists d. split; [constructor|reflexivity].
  Qed.

  Lemma max_places_exists : forall e, exists s, max_places e s.
  Proof.
    induction e as [d|a [s IHa] b [t IHb]|a [s IHa] b [t IHb]|a [s IHa] b [t IHb]|a [s IHa] b [t IHb]|a [s IHa]|a [s IHa]].
    - eexists. apply max_places_value.
    - eexists. exact (max_places_binary E_Add a b s t (literal_add a b) IHa IHb).
    - eexists. exact (max_places_binary E_Sub a b s t (literal_sub a b) IHa IHb).
    - eexists. exact (max_places_binary E_Mul a b s t (literal_mul a b) IHa IHb).
    - eexists. exact (max_places_binary E_Div a b s t (literal_div a b) IHa IHb).
    - eexists. exact (max_places_unary E_Neg a s (literal_neg a) IHa).
    - eexists. exact (max_places_unary E_Paren a s (literal_paren a) IHa).
  Qed.

  Lemma evaluate_sound : forall e d s, evaluate ops e = Fine (d, s) -> computes ops e d /\ max_places e s.
  Proof.
    assert (bin : forall op a b d s,
      (forall d s, evaluate ops a = Fine (d, s) -> computes ops a d /\ max_places a s) ->
      (forall d s, evaluate ops b = Fine (d, s) -> computes ops b d /\ max_places b s) ->
      evaluate_binary op (evaluate ops a) (evaluate ops b) = Fine (d, s) ->
      exists x y s1 s2, computes ops a x /\ computes ops b y /\ op x y = Fine d /\
        max_places a s1 /\ max_places b s2 /\ s = Nat.max s1 s2).
    { intros op a b d s IHa IHb H. unfold evaluate_binary in H.
      destruct (evaluate ops a) as [[x s1]|] eqn:Ea; [|discriminate].
      destruct (evaluate ops b) as [[y s2]|] eqn:Eb; [|discriminate].
      destruct (op x y) as [z|] eqn:Eo; [|discriminate]. inversion H; subst.
      destruct (IHa _ _ eq_refl). destruct (IHb _ _ eq_refl).
      exists x, y, s1, s2. tauto. }
    induction e as [d|a IHa b IHb|a IHa b IHb|a IHa b IHb|a IHa b IHb|a IHa|a IHa];
      intros r s H; cbn [evaluate] in H.
    - inversion H; subst. split; [constructor|apply max_places_value].
    - destruct (bin _ _ _ _ _ IHa IHb H) as [x [y [s1 [s2 [A [B [C [D [E ->]]]]]]]]].
      split; [econstructor; eassumption|]. exact (max_places_binary E_Add a b s1 s2 (literal_add a b) D E).
    - destruct (bin _ _ _ _ _ IHa IHb H) as [x [y [s1 [s2 [A [B [C [D [E ->]]]]]]]]].
      split; [econstructor; eassumption|]. exact (max_places_binary E_Sub a b s1 s2 (literal_sub a b) D E).
    - destruct (bin _ _ _ _ _ IHa IHb H) as [x [y [s1 [s2 [A [B [C [D [E ->]]]]]]]]].
      split; [econstructor; eassumption|]. exact (max_places_binary E_Mul a b s1 s2 (literal_mul a b) D E).
    - destruct (bin _ _ _ _ _ IHa IHb H) as [x [y [s1 [s2 [A [B [C [D [E ->]]]]]]]]].
      split; [econstructor; eassumption|]. exact (max_places_binary E_Div a b s1 s2 (literal_div a b) D E).
    - destruct (evaluate ops a) as [[x s1]|] eqn:Ea; [|discriminate]. inversion H; subst.
      destruct (IHa _ _ eq_refl) as [A B].
      split; [constructor; assumption|]. exact (max_places_unary E_Neg a s (literal_neg a) B).
    - destruct (IHa _ _ H) as [A B]. split; [constructor; assumption|].
      exact (max_places_unary E_Paren a s (literal_paren a) B).
  Qed.

  Lemma evaluate_complete : forall e d, computes ops e d -> exists s, evaluate ops e = Fine (d, s).
  Proof.
    induction 1 as [d|a b x y z _ [s Ha] _ [t Hb] E|a b x y z _ [s Ha] _ [t Hb] E|a b x y z _ [s Ha] _ [t Hb] E
                   |a b x y z _ [s Ha] _ [t Hb] E|a x _ [s Ha]|a x _ [s Ha]]; cbn [evaluate].
    - eexists. reflexivity.
    - unfold evaluate_binary. rewrite Ha, Hb, E. eexists. reflexivity.
    - unfold evaluate_binary. rewrite Ha, Hb, E. eexists. reflexivity.
    - unfold evaluate_binary. rewrite Ha, Hb, E. eexists. reflexivity.
    - unfold evaluate_binary. rewrite Ha, Hb, E. eexists. reflexivity.
    - rewrite Ha. eexists. reflexivity.
    - exists s. exact Ha.
  Qed.

  (** C20, for any arithmetic: the attached value is the tree computed bottom
      up, rescaled to the largest number of places written in it; the
      expression is kept as it is. *)
  Theorem C20_evaluates_tree : forall e v,
    expr_value_from ops e = Fine v <->
    exists d s, computes ops e d /\ max_places e s /\ ev_value v = op_rescale ops d s /\ ev_expr v = e.
  Proof.
    intros e v. unfold expr_value_from. split.
    - intro H. destruct (evaluate ops e) as [[d s]|] eqn:E; [|discriminate]. inversion H; subst.
      destruct (evaluate_sound _ _ _ E). exists d, s. auto.
    - intros [d [s [C [M [E1 E2]]]]]. destruct (evaluate_complete _ _ C) as [t E]. rewrite E.
      destruct (evaluate_sound _ _ _ E) as [_ M']. rewrite (max_places_unique _ _ _ M' M).
      destruct v as [v1 v2]. cbn in *. subst. reflexivity.
  Qed.

  Context (ok : dec_ops_ok ops).

  Lemma computes_valid : forall e d, computes ops e d ->
    (forall x, literal_of x e -> dec_valid x) -> dec_valid d.
  Proof.
    induction 1 as [d|a b x y z _ IHa _ IHb E|a b x y z _ IHa _ IHb E|a b x y z _ IHa _ IHb E
                   |a b x y z _ IHa _ IHb E|a x _ IHa|a x _ IHa]; intro V.
    - apply V. constructor.
    - eapply (oo_valid _ _ _ (do_add _ ok)); [apply IHa|apply IHb|exact E]; intros; apply V; constructor; auto.
    - eapply (oo_valid _ _ _ (do_sub _ ok)); [apply IHa|apply IHb|exact E]; intros; apply V; constructor; auto.
    - eapply (oo_valid _ _ _ (do_mul _ ok)); [apply IHa|apply IHb|exact E]; intros; apply V; constructor; auto.
    - eapply (oo_valid _ _ _ (do_div _ ok)); [apply IHa|apply IHb|exact E]; intros; apply V; constructor; auto.
    - apply (do_neg _ ok). apply IHa. intros; apply V; constructor; auto.
    - apply IHa. intros; apply V; constructor; auto.
  Qed.

  Lemma representable_of : forall p q, (p == q)%Q -> representable p -> representable q.
  Proof. exact representable_wd. Qed.

  Lemma denotes_computes : forall e q, denotes e q -> exists d, computes ops e d /\ dec_valid d /\ (dec_value d == q)%Q.
  Proof.
    induction 1 as [d V|a b x y _ [d1 [A1 [A2 A3]]] _ [d2 [B1 [B2 B3]]] R
                   |a b x y _ [d1 [A1 [A2 A3]]] _ [d2 [B1 [B2 B3]]] R
                   |a b x y _ [d1 [A1 [A2 A3]]] _ [d2 [B1 [B2 B3]]] R
                   |a b x y _ [d1 [A1 [A2 A3]]] _ [d2 [B1 [B2 B3]]] Nz R
                   |a x _ [d1 [A1 [A2 A3]]]|a x _ [d1 [A1 [A2 A3]]]].
    - exists d. split; [constructor|]. split; [exact V|reflexivity].
    - destruct (oo_exact _ _ _ (do_add _ ok) d1 d2 A2 B2 Logic.I) as [r [E1 E2]].
      { eapply representable_of; [|exact R]. rewrite A3, B3. reflexivity. }
      exists r. split; [econstructor; eassumption|]. split; [exact (oo_valid _ _ _ (do_add _ ok) _ _ _ A2 B2 E1)|].
      rewrite E2, A3, B3. reflexivity.
    - destruct (oo_exact _ _ _ (do_sub _ ok) d1 d2 A2 B2 Logic.I) as [r [E1 E2]].
      { eapply representable_of; [|exact R]. rewrite A3, B3. reflexivity. }
      exists r. split; [econstructor; eassumption|]. split; [exact (oo_valid _ _ _ (do_sub _ ok) _ _ _ A2 B2 E1)|].
      rewrite E2, A3, B3. reflexivity.
    - destruct (oo_exact _ _ _ (do_mul _ ok) d1 d2 A2 B2 Logic.I) as [r [E1 E2]].
      { eapply representable_of; [|exact R]. rewrite A3, B3. reflexivity. }
      exists r. split; [econstructor; eassumption|]. split; [exact (oo_valid _ _ _ (do_mul _ ok) _ _ _ A2 B2 E1)|].
      rewrite E2, A3, B3. reflexivity.
    - destruct (oo_exact _ _ _ (do_div _ ok) d1 d2 A2 B2) as [r [E1 E2]].
      { intro Z. apply Nz. rewrite <- B3. exact Z. }
      { eapply representable_of; [|exact R]. rewrite A3, B3. reflexivity. }
      exists r. split; [econstructor; eassumption|]. split; [exact (oo_valid _ _ _ (do_div _ ok) _ _ _ A2 B2 E1)|].
      rewrite E2, A3, B3. reflexivity.
    - destruct (do_neg _ ok d1 A2) as [V E]. exists (op_neg ops d1).
      split; [constructor; exact A1|]. split; [exact V|]. rewrite E, A3. reflexivity.
    - exists d1. split; [constructor; exact A1|]. auto.
  Qed.

  Lemma rounds_to_wd : forall p q s r, (p == q)%Q -> rounds_to p s r -> rounds_to q s r.
  Proof.
    intros p q s r E [z [A B]]. exists z. split; [|exact B]. eapply nearest_wd; [|exact A].
    rewrite E. reflexivity.
  Qed.

  Lemma denotes_literals : forall e q, denotes e q -> forall d, literal_of d e -> dec_valid d.
  Proof. induction 1; intros w L; inversion L; subst; auto;
    match goal with D : _ \/ _ |- _ => destruct D end; auto.
  Qed.

  (** C20: if every part of the expression has an exact value, the attached
      value is that of the whole, rounded half away from zero to the largest
      number of places written, with at most that scale. *)
  Theorem C20_value : forall e q s, denotes e q -> max_places e s ->
    exists v, expr_value_from ops e = Fine v /\ ev_expr v = e /\
      (dec_scale (ev_value v) <= s)%nat /\ rounds_to q s (dec_value (ev_value v)).
  Proof.
    intros e q s D M. destruct (denotes_computes _ _ D) as [d [C [V E]]].
    exists (mk_ev (op_rescale ops d s) e). split.
    - apply C20_evaluates_tree. exists d, s. auto.
    - assert (Hs : (s <= 28)%nat).
      { destruct M as [_ [x [L <-]]]. apply (denotes_literals _ _ D x L). }
      destruct (do_rescale _ ok d s V Hs) as [_ [A B]]. cbn. repeat split; auto.
      eapply rounds_to_wd; eassumption.
  Qed.

  (** C20: without exactness of the parts, it is still rounded to that scale. *)
  Theorem C20_scale : forall e v s, (forall d, literal_of d e -> dec_valid d) -> max_places e s ->
    expr_value_from ops e = Fine v ->
    (dec_scale (ev_value v) <= s)%nat /\
    exists d, computes ops e d /\ rounds_to (dec_value d) s (dec_value (ev_value v)).
  Proof.
    intros e v s V M H. apply C20_evaluates_tree in H. destruct H as [d [t [C [M' [E1 E2]]]]].
    rewrite (max_places_unique _ _ _ M' M) in *. clear M'.
    assert (Hs : (s <= 28)%nat).
    { destruct M as [_ [x [L <-]]]. apply (V x L). }
    destruct (do_rescale _ ok d s (computes_valid _ _ C V) Hs) as [_ [A B]]. rewrite E1.
    split; [exact A|]. exists d. auto.
  Qed.

  Lemma evaluate_panics : forall e, evaluate ops e = Panic <-> forall d, ~ computes ops e d.
  Proof.
    intro e. split.
    - intros H d C. destruct (evaluate_complete _ _ C) as [s E]. congruence.
    - intro H. destruct (evaluate ops e) as [[d s]|] eqn:E; [|reflexivity].
      exfalso. apply (H d). apply (evaluate_sound _ _ _ E).
  Qed.

  (** C20: a division by something worth zero panics, wherever it is. *)
  Theorem C20_division_by_zero_panics : forall e a b q,
    part_of (E_Div a b) e -> denotes b q -> (q == 0)%Q -> (forall d, literal_of d e -> dec_valid d) ->
    expr_value_from ops e = Panic.
  Proof.
    intros e a b q P D Z V. unfold expr_value_from.
    assert (H : evaluate ops e = Panic); [|rewrite H; reflexivity].
    apply evaluate_panics.
    destruct (denotes_computes _ _ D) as [y [Cy [Vy Ey]]].
    assert (base : forall d, (forall x, literal_of x (E_Div a b) -> dec_valid x) -> ~ computes ops (E_Div a b) d).
    { intros d V' C. inversion C as [| | | |a' b' x y' z Cx Cy' E| |]; subst.
      rewrite (computes_unique _ _ Cy' _ Cy) in *.
      rewrite (oo_panics _ _ _ (do_div _ ok)) in E; [discriminate| |exact Vy|].
      - apply (computes_valid _ _ Cx). intros w L. apply V'. constructor. auto.
      - intro N. apply N. rewrite Ey. exact Z. }
    clear D Z H || idtac.
    assert (G : part_of (E_Div a b) e -> (forall x, literal_of x e -> dec_valid x) -> forall d, ~ computes ops e d).
    { clear P V. induction e as [w|e1 IH1 e2 IH2|e1 IH1 e2 IH2|e1 IH1 e2 IH2|e1 IH1 e2 IH2|e1 IH1|e1 IH1];
        intros P V d C; inversion P as [E|? ? E|? ? E|? ? E|? ? E|? E|? E]; subst;
        try (eapply base; [|exact C]; exact V);
        inversion C; subst;
        try (destruct E as [E|E]);
        (eapply IH1; [exact E| |eassumption]; intros; apply V; constructor; auto) ||
        (eapply IH2; [exact E| |eassumption]; intros; apply V; constructor; auto). }
    apply G; assumption.
  Qed.

  (** C20: and there is no other reason than a division by zero or a result
      which no decimal represents. *)
  Theorem C20_panics_only_if : forall e, (forall d, literal_of d e -> dec_valid d) ->
    expr_value_from ops e = Panic -> exists p, part_of p e /\ fails ops p.
  Proof.
    intros e V H. unfold expr_value_from in H.
    destruct (evaluate ops e) as [[d s]|] eqn:E; [discriminate|]. clear H.
    assert (bin : forall op a b,
      (forall x, literal_of x a -> dec_valid x) -> (forall x, literal_of x b -> dec_valid x) ->
      evaluate_binary op (evaluate ops a) (evaluate ops b) = Panic ->
      evaluate ops a = Panic \/ evaluate ops b = Panic \/
      exists x y, computes ops a x /\ computes ops b y /\ dec_valid x /\ dec_valid y /\ op x y = Panic).
    { intros op a b Va Vb H. unfold evaluate_binary in H.
      destruct (evaluate ops a) as [[x s]|] eqn:Ea; [|auto].
      destruct (evaluate ops b) as [[y t]|] eqn:Eb; [|auto].
      destruct (op x y) eqn:Eo; [discriminate|]. right. right. exists x, y.
      apply evaluate_sound in Ea. apply evaluate_sound in Eb.
      repeat split; try tauto; try (apply (computes_valid _ _ (proj1 Ea) Va)); try apply (computes_valid _ _ (proj1 Eb) Vb). }
    induction e as [d|a IHa b IHb|a IHa b IHb|a IHa b IHb|a IHa b IHb|a IHa|a IHa]; cbn [evaluate] in E.
    - discriminate.
    - assert (Va : forall x, literal_of x a -> dec_valid x) by (intros; apply V; constructor; auto).
      assert (Vb : forall x, literal_of x b -> dec_valid x) by (intros; apply V; constructor; auto).
      destruct (bin _ _ _ Va Vb E) as [H|[H|[x [y [Cx [Cy [Vx [Vy H]]]]]]]].
      + destruct (IHa Va H) as [p [P F]]. exists p. split; [constructor; auto|exact F].
      + destruct (IHb Vb H) as [p [P F]]. exists p. split; [constructor; auto|exact F].
      + eexists. split; [apply po_self|]. econstructor; [exact Cx|exact Cy|]. intro R.
        destruct (oo_exact _ _ _ (do_add _ ok) x y Vx Vy Logic.I R) as [r [E1 _]]. congruence.
    - assert (Va : forall x, literal_of x a -> dec_valid x) by (intros; apply V; constructor; auto).
      assert (Vb : forall x, literal_of x b -> dec_valid x) by (intros; apply V; constructor; auto).
      destruct (bin _ _ _ Va Vb E) as [H|[H|[x [y [Cx [Cy [Vx [Vy H]]]]]]]].
      + destruct (IHa Va H) as [p [P F]]. exists p. split; [constructor; auto|exact F].
      + destruct (IHb Vb H) as [p [P F]]. exists p. split; [constructor; auto|exact F].
      + eexists. split; [apply po_self|]. econstructor; [exact Cx|exact Cy|]. intro R.
        destruct (oo_exact _ _ _ (do_sub _ ok) x y Vx Vy Logic.I R) as [r [E1 _]]. congruence.
    - assert (Va : forall x, literal_of x a -> dec_valid x) by (intros; apply V; constructor; auto).
      assert (Vb : forall x, literal_of x b -> dec_valid x) by (intros; apply V; constructor; auto).
      destruct (bin _ _ _ Va Vb E) as [H|[H|[x [y [Cx [Cy [Vx [Vy H]]]]]]]].
      + destruct (IHa Va H) as [p [P F]]. exists p. split; [constructor; auto|exact F].
      + destruct (IHb Vb H) as [p [P F]]. exists p. split; [constructor; auto|exact F].
      + eexists. split; [apply po_self|]. econstructor; [exact Cx|exact Cy|]. intro R.
        destruct (oo_exact _ _ _ (do_mul _ ok) x y Vx Vy Logic.I R) as [r [E1 _]]. congruence.
    - assert (Va : forall x, literal_of x a -> dec_valid x) by (intros; apply V; constructor; auto).
      assert (Vb : forall x, literal_of x b -> dec_valid x) by (intros; apply V; constructor; auto).
      destruct (bin _ _ _ Va Vb E) as [H|[H|[x [y [Cx [Cy [Vx [Vy H]]]]]]]].
      + destruct (IHa Va H) as [p [P F]]. exists p. split; [constructor; auto|exact F].
      + destruct (IHb Vb H) as [p [P F]]. exists p. split; [constructor; auto|exact F].
      + eexists. split; [apply po_self|]. econstructor; [exact Cx|exact Cy|].
        destruct (Qeq_dec (dec_value y) 0) as [Z|Z]; [left; exact Z|right]. intro R.
        destruct (oo_exact _ _ _ (do_div _ ok) x y Vx Vy Z R) as [r [E1 _]]. congruence.
    - destruct (evaluate ops a) as [[x s]|] eqn:Ea; [discriminate|].
      destruct IHa as [p [P F]]; [intros; apply V; constructor; auto|reflexivity|].
      exists p. split; [constructor; auto|exact F].
    - destruct IHa as [p [P F]]; [intros; apply V; constructor; auto|exact E|].
      exists p. split; [constructor; auto|exact F].
  Qed.
End WithOps.

(** ** Concrete cases, with the exact arithmetic *)

Definition lit_ (m : N) (s : nat) : expr := E_Value (mk_dec false m s).

(** (1.5 + 2) * -3.25 = -11.375, shown with two places: -11.38. *)
Definition ex_expr : expr := E_Mul (E_Paren (E_Add (lit_ 15 1) (lit_ 2 0))) (E_Neg (lit_ 325 2)).

Example ex_value : expr_value_from exact_ops ex_expr = Fine (mk_ev (mk_dec true 1138 2) ex_expr).
Proof. vm_compute. reflexivity. Qed.

Example ex_third : expr_value_from exact_ops (E_Div (lit_ 100 2) (lit_ 3 0))
  = Fine (mk_ev (mk_dec false 33 2) (E_Div (lit_ 100 2) (lit_ 3 0))).
Proof. vm_compute. reflexivity. Qed.

Lemma lit_valid : forall m s, (m < 2 ^ 96)%N -> (s <= 28)%nat -> dec_valid (mk_dec false m s).
Proof. intros. split; assumption. Qed.

Example ex_denotes : exists q, denotes ex_expr q /\ (q == - (11375 # 1000))%Q.
Proof.
  eexists. split.
  - apply den_mul.
    + apply den_paren. apply den_add.
      * apply den_value. apply lit_valid; vm_compute; [reflexivity|lia].
      * apply den_value. apply lit_valid; vm_compute; [reflexivity|lia].
      * exists (mk_dec false 35 1). split; [apply lit_valid; vm_compute; [reflexivity|lia]|reflexivity].
    + apply den_neg. apply den_value. apply lit_valid; vm_compute; [reflexivity|lia].
    + exists (mk_dec true 11375 3). split; [split; vm_compute; [reflexivity|lia]|reflexivity].
  - reflexivity.
Qed.

Example ex_places : max_places ex_expr 2.
Proof.
  split.
  - intros d L. unfold ex_expr, lit_ in L.
    repeat match goal with
      | H : literal_of _ _ |- _ => inversion H; clear H; subst
      | H : _ \/ _ |- _ => destruct H
      end; simpl; lia.
  - exists (mk_dec false 325 2). split; [|reflexivity]. unfold ex_expr. constructor. right. constructor. constructor.
Qed.

Example ex_zero : expr_value_from exact_ops (E_Add (lit_ 1 0) (E_Div (lit_ 1 0) (E_Sub (lit_ 2 0) (lit_ 20 1)))) = Panic.
Proof. vm_compute. reflexivity. Qed.

Print Assumptions C20_evaluates_tree.
Print Assumptions C20_value.
Print Assumptions C20_scale.
Print Assumptions C20_division_by_zero_panics.
Print Assumptions C20_panics_only_if.
Print Assumptions exact_ops_ok.
