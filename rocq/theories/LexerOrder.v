(** * The ranges of tokens are in order *)
From Coq Require Import String Ascii.
From Coq Require Import List NArith Arith Bool Lia.
From Verif Require Import Base BaseFacts Path Types SpecTypes Token LexPost SpecLex LexFacts Lexer SpecLexer LexerFacts.
Import ListNotations.
Local Open Scope nat_scope.

Definition boundary (s : str) (n : nat) : Prop := exists pre post, s = pre ++ post /\ n = blen pre.

Lemma slice_iff s a b : (exists m, str_get s a b = Some m) <-> boundary s a /\ boundary s b /\ a <= b.
Proof.
  split.
  - intros (m & H). apply str_get_spec in H as (pre & post & -> & -> & ->). split; [exists pre, (m ++ post); auto|].
    split; [|lia]. exists (pre ++ m), post. split; [now rewrite app_assoc|]. now rewrite blen_app.
  - intros ((p & q & -> & ->) & (p' & q' & E & ->) & L). destruct (app_prefix_blen _ _ _ _ E L) as (e & -> & ->).
    exists e. apply str_get_spec. exists p, q'. rewrite blen_app. auto.
Qed.

Lemma boundary_le s n : boundary s n -> n <= blen s.
Proof. intros (p & q & -> & ->). rewrite blen_app. lia. Qed.

Lemma boundary_end s : boundary s (blen s).
Proof. exists s, []. now rewrite app_nil_r. Qed.

(** In order, each item after position [p]; those called [ind] end with a char of one byte. *)
Inductive ordered {A} (ind : A -> Prop) (s : str) : nat -> list (A * range) -> Prop :=
| od_nil p : p <= blen s -> ordered ind s p []
| od_cons p t a b l : p <= a -> a <= b -> boundary s a -> boundary s b ->
    (ind t -> a < b /\ boundary s (b - 1)) -> ordered ind s b l -> ordered ind s p ((t, (a, b)) :: l).

Definition end_of {A} (p : nat) (l : list (A * range)) : nat := fold_left (fun _ x => snd (snd x)) l p.

Section Ordered.
  Context {A : Type} (ind : A -> Prop) (s : str).

  Lemma ordered_weaken p q l : p <= q -> ordered ind s q l -> ordered ind s p l.
  Proof. intros L H. inversion H; subst; constructor; auto; lia. Qed.

  Lemma ordered_inv p t a b l : ordered ind s p ((t, (a, b)) :: l) ->
    p <= a /\ a <= b /\ boundary s a /\ boundary s b /\ (ind t -> a < b /\ boundary s (b - 1)) /\ ordered ind s b l.
  Proof. intros H. inversion H; subst. auto 8. Qed.

  Lemma ordered_le p l : ordered ind s p l -> p <= blen s.
  Proof. intros H. inversion H as [|? ? a b ? ? ? ? B]; subst; [auto|]. apply boundary_le in B. lia. Qed.

  Lemma ordered_app p a b : ordered ind s p (a ++ b) <-> ordered ind s p a /\ ordered ind s (end_of p a) b.
  Proof.
    revert p. induction a as [|[t [x y]] a IH]; intros p; simpl.
    - split; [intros H; split; auto; constructor; eapply ordered_le; eauto|tauto].
    - split.
      + intros H. apply ordered_inv in H as (? & ? & ? & ? & ? & H). apply IH in H as [H K]. split; [constructor; auto|exact K].
      + intros [H K]. apply ordered_inv in H as (? & ? & ? & ? & ? & H). constructor; auto. apply IH. auto.
  Qed.

  Lemma end_of_ge p l : ordered ind s p l -> p <= end_of p l.
  Proof. induction 1; simpl; [lia|]. unfold end_of in *. simpl. lia. Qed.
End Ordered.

Section Env.
  Context (E : lexer_env).

  Lemma read_as_not {A} (f : A -> token) o t : (forall a, f a <> t) -> read_as f o <> tok t.
  Proof. intros N H. destruct o as [[a|e]|]; simpl in H; try discriminate. unfold tok in H. injection H as H. now apply (N a). Qed.

  Lemma indent_lexeme w : lexeme E w (tok T_EolThenIndent) -> exists v c, w = v ++ [c] /\ is_blank c.
  Proof.
    intros H. remember (tok T_EolThenIndent) as o eqn:O. destruct H; try discriminate O;
      try (exfalso; eapply read_as_not; [|exact O]; discriminate).
    - exfalso. injection O as ->. simpl in H. repeat (destruct H as [H|H]; [discriminate H|]). destruct H.
    - destruct H0 as [N F]. destruct b as [|c b _] using rev_ind; [congruence|]. apply Forall_app in F as [_ F].
      inversion F; subst. exists (s ++ b), c. split; [now rewrite app_assoc|auto].
  Qed.

  Lemma recovery_no_indent w : ~ recovery_lexeme E w (tok T_EolThenIndent).
  Proof.
    intros H. remember (tok T_EolThenIndent) as o eqn:O. destruct H; try discriminate O;
      try (eapply read_as_not; [|exact O]; discriminate).
    injection O as ->. simpl in H. repeat (destruct H as [H|H]; [discriminate H|]). destruct H.
  Qed.

  Lemma cut_ordered lexeme whole off s items : cut lexeme off s items ->
    (forall w, lexeme w (tok T_EolThenIndent) -> exists v c, w = v ++ [c] /\ is_blank c) ->
    forall pre, whole = pre ++ s -> off = blen pre ->
    ordered (fun r => r = Ok T_EolThenIndent) whole off items.
  Proof.
    intros C IL. induction C as [off|off t rest items L X C IH|off t rest x items L X C IH|off t rest items N X C IH]; intros pre W O.
    - constructor. subst. rewrite app_nil_r. lia.
    - apply (ordered_weaken _ _ _ (off + blen t)); [lia|]. apply (IH (pre ++ t)); [subst; now rewrite app_assoc|subst; now rewrite blen_app].
    - assert (R : ordered (fun r => r = Ok T_EolThenIndent) whole (off + blen t) items)
        by (apply (IH (pre ++ t)); [subst; now rewrite app_assoc|subst; now rewrite blen_app]).
      assert (B : boundary whole (off + blen t)) by (exists (pre ++ t), rest; subst; rewrite app_assoc, blen_app; auto).
      constructor; auto; try lia; [exists pre, (t ++ rest); auto|].
      intros ->. destruct (IL t X) as (v & c & -> & K). assert (U : utf8_len c = 1) by (destruct K as [-> | ->]; reflexivity).
      rewrite blen_app. simpl. rewrite U. split; [lia|]. exists (pre ++ v), (c :: rest). subst. rewrite blen_app.
      split; [|lia]. rewrite <- !app_assoc. reflexivity.
    - assert (R : ordered (fun r => r = Ok T_EolThenIndent) whole (off + blen t) items)
        by (apply (IH (pre ++ t)); [subst; now rewrite app_assoc|subst; now rewrite blen_app]).
      assert (B : boundary whole (off + blen t)) by (exists (pre ++ t), rest; subst; rewrite app_assoc, blen_app; auto).
      constructor; auto; try lia; [exists pre, (t ++ rest); auto|discriminate].
  Qed.

  Lemma boundary_shift s a b f n : str_get s a b = Some f -> boundary f n -> boundary s (n + a).
  Proof.
    intros H (p & q & -> & ->). apply str_get_spec in H as (pre & post & -> & -> & ->).
    exists (pre ++ p), (q ++ post). rewrite blen_app. split; [|lia]. now rewrite <- !app_assoc.
  Qed.

  Lemma moved_ordered s a b f l q items : str_get s a b = Some f ->
    ordered (fun r => r = Ok T_EolThenIndent) f q items -> (forall r, In (Ok T_EolThenIndent, r) items -> False) ->
    ordered (fun t => t = T_EolThenIndent) s b l -> ordered (fun t => t = T_EolThenIndent) s (q + a) (map (moved a) items ++ l).
  Proof.
    intros G O NI L. assert (BE : b = blen f + a) by (apply str_get_spec in G as (pre & post & -> & -> & ->); lia).
    induction O as [q Q|q t x y items P1 P2 B1 B2 IN O IH].
    - simpl. eapply ordered_weaken; [|exact L]. lia.
    - simpl. unfold moved at 1. cbn [fst snd]. constructor; try lia; eauto using boundary_shift.
      + intros T. destruct t as [t|e]; [|discriminate]. subst. exfalso. eapply NI. now left.
      + apply IH. intros r I. eapply NI. right. exact I.
  Qed.

  Lemma cut_no_indent off s items : cut (recovery_lexeme E) off s items -> forall r, In (Ok T_EolThenIndent, r) items -> False.
  Proof.
    induction 1; intros r I; [destruct I|eauto| |].
    - destruct I as [I|I]; [|eauto]. injection I as -> _. now apply (recovery_no_indent t).
    - destruct I as [I|I]; [discriminate|eauto].
  Qed.

  Lemma recovers_ordered s l l' : recovers E s l l' -> forall p, ordered (fun r => r = Ok T_EolThenIndent) s p l ->
    ordered (fun t => t = T_EolThenIndent) s p l'.
  Proof.
    induction 1 as [|t r l l' R IH|e a b f items l l' G C R IH]; intros p O.
    - inversion O; subst. now constructor.
    - destruct r as [a b]. apply ordered_inv in O as (? & ? & ? & ? & K & O). constructor; auto. intros ->. now apply K.
    - apply ordered_inv in O as (? & ? & ? & ? & _ & O). apply (ordered_weaken _ _ _ (0 + a)); [lia|]. eapply moved_ordered; eauto using cut_no_indent.
      eapply (cut_ordered _ f); [exact C| |exact (eq_refl : f = [] ++ f)|reflexivity]. intros w W. destruct (recovery_no_indent w W).
  Qed.
End Env.

Lemma keyed_ordered s l : forall p, ordered (fun t => t = T_EolThenIndent) s p l ->
  ordered (fun t => t = T_EolThenIndent) s p (keyed_list l).
Proof.
  induction l as [|[t [a b]] l IH]; intros p O; [exact O|]. apply ordered_inv in O as (? & ? & ? & ? & K & O). simpl. constructor; auto.
  intros T. apply K. destruct (potential_key t); [|exact T]. destruct l as [|[[] r] l]; try discriminate T; exact T.
Qed.

(** In order except for indents, which are the last byte of the end of line. *)
Inductive out_ordered (s : str) : nat -> list rtoken -> Prop :=
| oo_nil p : p <= blen s -> out_ordered s p []
| oo_cons p t a b l : p <= a -> a <= b -> boundary s a -> boundary s b -> out_ordered s b l ->
    out_ordered s p ((t, (a, b)) :: l)
| oo_indent p a b l : p <= a -> a < b -> boundary s a -> boundary s b -> boundary s (b - 1) -> out_ordered s b l ->
    out_ordered s p ((T_Eol, (a, b)) :: (T_Indent, (b - 1, b)) :: l).

Lemma out_weaken s p q l : p <= q -> out_ordered s q l -> out_ordered s p l.
Proof. intros L H. inversion H; subst; constructor; auto; lia. Qed.

Lemma out_plain s ts out : forall p, ordered (fun t => t = T_EolThenIndent) s p ts ->
  out_ordered s (end_of p ts) out -> out_ordered s p (ts ++ out).
Proof.
  induction ts as [|[t [a b]] ts IH]; intros p O H; [exact H|]. apply ordered_inv in O as (? & ? & ? & ? & _ & O). simpl. constructor; auto.
Qed.

Lemma end_of_last {A} p (l : list (A * range)) x : end_of p (l ++ [x]) = snd (snd x).
Proof. unfold end_of. now rewrite fold_left_app. Qed.

Lemma out_break s run out p : run <> [] -> ordered (fun t => t = T_EolThenIndent) s p run ->
  out_ordered s (end_of p run) out -> out_ordered s p (break_of run ++ out).
Proof.
  intros N O H. unfold break_of. destruct run as [|[t [a b]] run]; [congruence|]. clear N.
  assert (AP : p <= a /\ boundary s a) by (inversion O; auto). destruct AP as [AP BA].
  assert (LAST : exists m u c d, (t, (a, b)) :: run = m ++ [(u, (c, d))]).
  { destruct run as [|[u [c d]] run _] using rev_ind; [exists [], t, a, b; reflexivity|]. exists ((t, (a, b)) :: run), u, c, d. reflexivity. }
  destruct LAST as (m & u & c & d & Q). rewrite Q in *. rewrite last_last. rewrite end_of_last in H. cbn [snd] in H.
  assert (AC : a <= c /\ c <= d /\ boundary s d /\ (u = T_EolThenIndent -> c < d /\ boundary s (d - 1))).
  { apply ordered_app in O as [Om Oc]. apply ordered_inv in Oc as (? & ? & ? & ? & ? & _). split; [|auto].
    destruct m as [|[t' [a' b']] m]; simpl in Q; injection Q as -> -> ->; [lia|].
    apply ordered_inv in Om as (? & ? & _ & _ & _ & Om). apply end_of_ge in Om. unfold end_of in *. simpl in *. lia. }
  destruct AC as (AC & CD & BD & IND).
  assert (PLAIN : out_ordered s p ((T_Eol, (a, d)) :: out)) by (constructor; auto; lia).
  destruct u; try exact PLAIN.
  - destruct (IND eq_refl) as [L B]. apply oo_indent; auto; lia.
  - apply oo_cons; auto. eapply out_weaken; [|exact H]. lia.
Qed.

Lemma out_lines s ls fin : forall p, lines_of (joined ls) ls -> ordered (fun t => t = T_EolThenIndent) s p (joined ls) ->
  (forall q, q <= blen s -> out_ordered s q fin) -> out_ordered s p (flat_map emit (kept_list ls) ++ fin).
Proof.
  induction ls as [|[r t] ls IH]; intros p L O F.
  - simpl. apply F. now apply ordered_le in O.
  - destruct (lo_runs _ _ L r t (or_introl eq_refl)) as (NR & _ & _). assert (L' := lines_tail _ _ _ L).
    unfold joined in O. cbn [flat_map fst snd] in O. fold (joined ls) in O. rewrite <- app_assoc in O.
    apply ordered_app in O as [O1 O2]. apply ordered_app in O2 as [O2 O3].
    unfold kept_list in *. cbn [filter]. destruct (negb (ignored_b (r, t))).
    + cbn [flat_map]. unfold emit at 1. cbn [fst snd]. rewrite <- !app_assoc. apply out_break; auto.
      apply out_plain; auto.
    + apply IH; auto. eapply ordered_weaken; [|exact O3].
      apply end_of_ge in O1, O2. lia.
Qed.

Lemma out_layout s l ls : lines_of ((T_Eol, (0, 0)) :: l) ls -> ordered (fun t => t = T_EolThenIndent) s 0 l ->
  out_ordered s 0 (layout ls (Some (blen s, blen s))).
Proof.
  intros L O. unfold layout. pose proof (strip_spec ls) as SP. destruct (strip ls) as [[t ls']|]; [|constructor; lia].
  destruct SP as (sk & r & Q & _ & _).
  assert (L1 := L). rewrite Q in L1. apply lines_app in L1. assert (L2 := lines_tail _ _ _ L1).
  assert (O' : ordered (fun t => t = T_EolThenIndent) s 0 (joined ls)).
  { rewrite <- (lo_all _ _ L). constructor; auto; try lia; try (exists [], s; split; reflexivity). discriminate. }
  rewrite Q in O'. unfold joined in O'. rewrite flat_map_app in O'. apply ordered_app in O' as [_ O'].
  cbn [flat_map fst snd] in O'. rewrite <- app_assoc in O'. apply ordered_app in O' as [_ O'].
  fold (joined ls') in O'. apply (ordered_weaken _ _ 0) in O'; [|lia]. apply ordered_app in O' as [O1 O2].
  apply out_plain; auto. apply out_lines; auto. intros q Le. unfold ending. destruct (kept_list ls'); [|now constructor].
  constructor; auto; try apply boundary_end. constructor. lia.
Qed.

Lemma out_in s p l : out_ordered s p l -> forall t a b, In (t, (a, b)) l -> p <= a /\ exists m, str_get s a b = Some m.
Proof.
  induction 1 as [|p t a b l P AB BA BB O IH|p a b l P AB BA BB BB' O IH]; intros t' a' b' I; [destruct I| |].
  - destruct I as [I|I]; [injection I as <- <- <-; split; auto; now apply slice_iff|]. apply IH in I as [I J]. split; auto. lia.
  - destruct I as [I|[I|I]].
    + injection I as <- <- <-. split; auto. apply slice_iff. split; auto. split; auto. lia.
    + injection I as <- <- <-. split; [lia|]. apply slice_iff. split; auto. split; auto. lia.
    + apply IH in I as [I J]. split; auto. lia.
Qed.

Lemma out_pairs s p l : out_ordered s p l -> forall x t a b z u c d y, l = x ++ (t, (a, b)) :: z ++ (u, (c, d)) :: y ->
  b <= c \/ (z = [] /\ t = T_Eol /\ u = T_Indent /\ a <= c /\ d = b /\ b = S c).
Proof.
  induction 1 as [|p t a b l P AB BA BB O IH|p a b l P AB BA BB BB' O IH]; intros x t' a' b' z u c d y Q.
  - destruct x; discriminate.
  - destruct x as [|x0 x]; simpl in Q; [|injection Q as _ Q; eauto].
    injection Q as -> -> -> ->. left. eapply out_in; [exact O|]. apply in_or_app. right. now left.
  - destruct x as [|x0 [|x1 x]]; simpl in Q.
    + injection Q as <- <- <- Q. destruct z as [|z0 z]; simpl in Q.
      * injection Q as <- <- <- <-. right. repeat (split; [first [reflexivity|lia]|]). lia.
      * injection Q as _ ->. left. eapply out_in; [exact O|]. apply in_or_app. right. now left.
    + injection Q as _ <- <- <- ->. left. eapply out_in; [exact O|]. apply in_or_app. right. now left.
    + injection Q as _ _ Q. eauto.
Qed.
