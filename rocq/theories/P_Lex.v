(** * Properties C26, C27, C28: the token stream *)
From Coq Require Import String Ascii.
From Coq Require Import List NArith Arith Bool Lia.
From Verif Require Import Base BaseFacts Types Token LexPost SpecLex LexFacts.
Import ListNotations.
Local Open Scope nat_scope.

(** ** C26 *)

(** Seen with one more end of line at its front, every token sequence is a
    sequence of lines in exactly one way, *)
Theorem C26_lines l : exists ls, lines_of ((T_Eol, (0, 0)) :: l) ls /\
  forall ls', lines_of ((T_Eol, (0, 0)) :: l) ls' -> ls' = ls.
Proof.
  destruct (lines_exist l (T_Eol, (0, 0)) eq_refl) as (ls & L). exists ls. split; auto.
  intros ls' L'. eapply lines_unique; eauto.
Qed.

(** and these lines determine the output. *)
Theorem C26_layout l final ls : lines_of ((T_Eol, (0, 0)) :: l) ls ->
  exists out, handle_eol_indent l final = Some out /\ laid_out ls final out /\
    forall out', laid_out ls final out' -> out' = out.
Proof.
  intros L. exists (layout ls final). split; [now apply handle_eol_indent_layout|].
  assert (X := layout_laid_out _ _ final L). split; auto. intros out' H. eapply laid_out_unique; eauto.
Qed.

(** In particular: *)
Definition adjacent_ok (a b : token) : Prop :=
  ~ (a = T_Eol /\ b = T_Eol) /\ (b = T_Indent -> a = T_Eol).

Fixpoint chained (prev : token) (l : list rtoken) : Prop :=
  match l with
  | [] => True
  | (t, _) :: l' => adjacent_ok prev t /\ chained t l'
  end.

Lemma chained_app a : forall p b, chained p (a ++ b) <-> chained p a /\ chained (last (map fst a) p) b.
Proof.
  induction a as [|[t r] a IH]; intros p b; simpl; [tauto|]. rewrite IH.
  replace (last (map fst a) t) with (match map fst a with [] => t | _ => last (map fst a) p end); [destruct (map fst a); tauto|].
  destruct a as [|x a]; [reflexivity|]. simpl. generalize (map fst a) (fst x). clear. induction l as [|y l IH]; intros z; [reflexivity|]. apply IH.
Qed.

Definition plain (t : token) : Prop := is_eol t = false /\ t <> T_Indent.

Lemma chained_plain ts : forall p, Forall (fun x => plain (fst x)) ts -> chained p ts.
Proof.
  induction ts as [|[t r] ts IH]; intros p F; simpl; auto. inversion F as [|? ? [E N] F']; subst.
  simpl in E, N. split; auto. split; [|congruence]. intros [_ ->]. discriminate E.
Qed.

Lemma last_plain ts p : ts <> [] -> Forall (fun x : rtoken => plain (fst x)) ts -> plain (last (map fst ts) p).
Proof.
  intros N F. destruct ts as [|x ts] using rev_ind; [congruence|]. clear IHts. rewrite map_app. simpl. rewrite last_last.
  apply Forall_app in F as [_ F]. now inversion F.
Qed.

Lemma break_chained r p : plain p -> chained p (break_of r).
Proof.
  intros [E N]. unfold break_of. destruct r as [|[t [x y]] r]; [exact I|].
  assert (A : adjacent_ok p T_Eol) by (split; [intros [-> _]; discriminate E|congruence]).
  destruct (last _ _) as [[] [? ?]]; simpl; auto. split; auto. split; auto. split; [intros [_ X]; discriminate X|auto].
Qed.

Lemma emit_chained ls : lines_of (joined ls) ls -> (forall x, In x (joined ls) -> fst x <> T_Indent) ->
  forall p, plain p -> chained p (flat_map emit (kept_list ls)).
Proof.
  induction ls as [|[r t] ls IH]; intros L NI p P; [exact I|].
  assert (T := lines_tail _ _ _ L). destruct (lo_runs _ _ L r t (or_introl eq_refl)) as (_ & _ & NT).
  assert (PT : Forall (fun x => plain (fst x)) t).
  { rewrite Forall_forall in *. intros x I. split; auto. apply NI. simpl. rewrite !in_app_iff. auto. }
  assert (NI' : forall x, In x (joined ls) -> fst x <> T_Indent) by (intros x I; apply NI; simpl; rewrite !in_app_iff; auto).
  unfold kept_list in *. cbn [filter]. destruct (negb (ignored_b (r, t))); [|now apply IH].
  cbn [flat_map]. unfold emit at 1. cbn [fst snd]. rewrite <- app_assoc. rewrite chained_app. split; [now apply break_chained|].
  rewrite chained_app. split; [now apply chained_plain|].
  destruct t as [|x t].
  - destruct ls as [|y ls]; [exact I|]. exfalso. eapply (lo_empty _ _ L [] r []); [reflexivity|discriminate|reflexivity].
  - apply IH; auto. apply last_plain; [discriminate|exact PT].
Qed.

Theorem C26_structure l final out :
  (forall r, ~ In (T_Indent, r) l) -> handle_eol_indent l final = Some out ->
  (** no raw ends of line are left *)
  (forall t r, In (t, r) out -> t <> T_EolThenIndent /\ t <> T_EolComment) /\
  (** the first token is neither an end of line nor an indent *)
  (forall t r out', out = (t, r) :: out' -> t <> T_Eol /\ t <> T_Indent) /\
  (** no two ends of line in a row *)
  (forall a r r' b, out <> a ++ (T_Eol, r) :: (T_Eol, r') :: b) /\
  (** an indent follows an end of line directly *)
  (forall a r b, out = a ++ (T_Indent, r) :: b -> exists a' r', a = a' ++ [(T_Eol, r')]).
Proof.
  intros NI H. destruct (C26_lines l) as (ls & L & _). rewrite (handle_eol_indent_layout l final ls L) in H. injection H as <-.
  unfold layout. pose proof (strip_spec ls) as SP. destruct (strip ls) as [[t ls']|].
  2:{ split; [easy|]. split; [easy|]. split; intros [|? ?]; discriminate. }
  destruct SP as (sk & r0 & E & _ & NS).
  assert (L1 := L). rewrite E in L1. apply lines_app in L1. assert (L2 := lines_tail _ _ _ L1).
  destruct (lo_runs _ _ L1 r0 t (or_introl eq_refl)) as (_ & _ & NT).
  assert (INL : forall x, In x t \/ In x (joined ls') -> In x ((T_Eol, (0, 0)) :: l)).
  { intros x I. rewrite (lo_all _ _ L), E. unfold joined. rewrite flat_map_app. fold (joined ls') (joined sk).
    simpl. rewrite !in_app_iff. fold (joined ls'). tauto. }
  assert (NI1 : forall x, In x t \/ In x (joined ls') -> fst x <> T_Indent).
  { intros [k r] I. apply INL in I as [I|I]; [injection I as <- _; discriminate|]. simpl. intros ->. eapply NI; eauto. }
  assert (PT : Forall (fun x => plain (fst x)) t).
  { rewrite Forall_forall in *. intros x I. split; auto. }
  assert (NE : t <> []) by (intros ->; apply NS; now left).
  assert (CH : chained (last (map fst t) T_Eol) (flat_map emit (kept_list ls') ++ ending ls' final false)).
  { assert (PL := last_plain t T_Eol NE PT). apply chained_app. split; [apply emit_chained; auto|].
    unfold ending. destruct (kept_list ls'); [|exact I]. destruct final; [|exact I]. simpl. split; auto. split; [|discriminate].
    intros [X _]. destruct PL as [PL _]. rewrite X in PL. discriminate. }
  assert (C0 : chained T_Eol (t ++ flat_map emit (kept_list ls') ++ ending ls' final false)).
  { apply chained_app. split; auto. now apply chained_plain. }
  set (out := t ++ _) in *. split; [|split; [|split]].
  - intros k r I. unfold out in I. rewrite !in_app_iff in I. destruct I as [I|[I|I]].
    + rewrite Forall_forall in NT. apply NT in I. simpl in I. destruct k; try discriminate I; split; discriminate.
    + apply in_flat_map in I as ([r1 t1] & I & J). apply filter_In in I as [I _]. unfold emit in J. cbn [fst snd] in J.
      rewrite in_app_iff in J. destruct J as [J|J].
      * unfold break_of in J. destruct r1 as [|[k1 [x y]] r1]; [easy|].
        destruct (last ((k1, (x, y)) :: r1) (T_Eol, (0, 0))) as [[] [? ?]]; simpl in J; intuition; try discriminate; congruence.
      * destruct (lo_runs _ _ L2 r1 t1 I) as (_ & _ & X). rewrite Forall_forall in X. apply X in J. simpl in J.
        destruct k; try discriminate J; split; discriminate.
    + unfold ending in I. destruct (kept_list ls'); [|easy]. destruct final; [|easy]. destruct I as [I|[]]. injection I as <- _. split; discriminate.
  - intros k r out' Q. unfold out in Q. destruct t as [|x t]; [congruence|]. simpl in Q. injection Q as -> _.
    inversion PT as [|? ? [X Y] _]; subst. simpl in X, Y. split; [|auto]. intros ->. discriminate X.
  - intros a r r' b Q. rewrite Q in C0. apply chained_app in C0 as [_ C0]. simpl in C0. destruct C0 as (_ & [X _] & _). tauto.
  - intros a r b Q. rewrite Q in C0. apply chained_app in C0 as [_ C0]. simpl in C0. destruct C0 as ([_ X] & _).
    specialize (X eq_refl). induction a as [|[k r'] a _] using rev_ind.
    + exfalso. unfold out in Q. destruct t as [|x t]; [congruence|]. simpl in Q. injection Q as -> _.
      inversion PT as [|? ? [_ Y] _]; subst. now apply Y.
    + exists a, r'. rewrite map_app in X. simpl in X. rewrite last_last in X. now subst k.
Qed.

(** ** C27 *)

(** The end of line at the end is supplied if there is no other one. *)
Theorem C27_final_eol l f : exists out, handle_eol_indent l None = Some out /\
  handle_eol_indent l (Some f) = Some (out ++
    if match out with [] => true | _ => false end || existsb (fun x => match fst x with T_Eol => true | _ => false end) out
    then [] else [(T_Eol, f)]).
Proof.
  destruct (C26_lines l) as (ls & L & _). exists (layout ls None).
  rewrite !(handle_eol_indent_layout l _ ls L). split; [reflexivity|]. f_equal. unfold layout.
  pose proof (strip_spec ls) as SP. destruct (strip ls) as [[t ls']|]; [|reflexivity].
  destruct SP as (sk & r0 & E & _ & NS). assert (NE : t <> []) by (intros ->; apply NS; now left).
  assert (L1 := L). rewrite E in L1. apply lines_app in L1. assert (L2 := lines_tail _ _ _ L1).
  destruct (lo_runs _ _ L1 r0 t (or_introl eq_refl)) as (_ & _ & NT).
  unfold ending. destruct (kept_list ls') as [|[r1 t1] k] eqn:K.
  - simpl. rewrite !app_nil_r. destruct t as [|x t]; [congruence|]. cbn [orb]. f_equal.
    assert (X : existsb (fun x => match fst x with T_Eol => true | _ => false end) (x :: t) = false).
    { apply Bool.not_true_is_false. rewrite existsb_exists. intros ([k r] & I & Q). rewrite Forall_forall in NT. apply NT in I. simpl in I.
      simpl in Q. destruct k; discriminate. }
    now rewrite X.
  - rewrite !app_nil_r.
    assert (X : existsb (fun x => match fst x with T_Eol => true | _ => false end) (t ++ flat_map emit ((r1, t1) :: k)) = true).
    { apply existsb_exists. assert (I : In (r1, t1) ls') by (assert (J : In (r1, t1) (kept_list ls')) by (rewrite K; now left); now apply filter_In in J).
      destruct (lo_runs _ _ L2 r1 t1 I) as (N1 & _). destruct r1 as [|[k1 [x y]] r1]; [congruence|].
      exists (hd (T_Eol, (0, 0)) (break_of ((k1, (x, y)) :: r1))). split.
      - apply in_or_app. right. apply in_flat_map. exists ((k1, (x, y)) :: r1, t1). split; [now left|].
        unfold emit. cbn [fst]. apply in_or_app. left. unfold break_of. destruct (last _ _) as [[] [? ?]]; now left.
      - unfold break_of. destruct (last _ _) as [[] [? ?]]; reflexivity. }
    rewrite X, orb_true_r. now rewrite app_nil_r.
Qed.

(** It is not always supplied: after a line break the last line may lack it. *)
Theorem C27_always_final_eol_refuted : exists l f out a b,
  handle_eol_indent l (Some f) = Some (out ++ [(a, b)]) /\ is_eol a = false.
Proof.
  exists [(T_Key (lit "a"), (0, 1)); (T_Eol, (1, 2)); (T_Key (lit "b"), (2, 3))], (3, 3),
    [(T_Key (lit "a"), (0, 1)); (T_Eol, (1, 2))], (T_Key (lit "b")), (2, 3). split; reflexivity.
Qed.

(** ** C28 *)

Theorem C28_keyword_then_colon l : exists l', keyword_then_colon_to_key l = Some l' /\ keyed l l'.
Proof.
  exists (keyed_list l). split; [|apply keyed_list_spec]. unfold keyword_then_colon_to_key.
  apply (keyword_collect (l, None)); [exact I|]. unfold kw_todo. simpl. lia.
Qed.

(** ** Concrete cases *)

Example ex_keyed :
  keyword_then_colon_to_key
    [(T_Keyword K_Open, (0, 4)); (T_Keyword K_Price, (5, 10)); (T_Colon, (10, 11)); (T_Key (lit "ab"), (12, 14)); (T_Colon, (14, 15)); (T_Keyword K_Txn, (16, 19))]
  = Some [(T_Keyword K_Open, (0, 4)); (T_Key (lit "price"), (5, 10)); (T_Colon, (10, 11)); (T_Key (lit "ab"), (12, 14)); (T_Colon, (14, 15)); (T_Keyword K_Txn, (16, 19))].
Proof. reflexivity. Qed.

(** Blank lines at the start, a colon line at the start, merged ends of line,
    an ignored indented colon line, an indented line, a comment at the end. *)
Example ex_layout :
  handle_eol_indent
    [(T_Eol, (0, 1)); (T_Colon, (1, 2)); (T_Pipe, (2, 3)); (T_EolThenIndent, (3, 5));
     (T_Key (lit "ab"), (5, 7)); (T_Eol, (7, 8)); (T_EolThenIndent, (8, 11)); (T_Key (lit "cd"), (11, 13));
     (T_EolThenIndent, (13, 15)); (T_Colon, (15, 16)); (T_Pipe, (16, 17)); (T_Eol, (17, 18)); (T_At, (18, 19)); (T_EolComment, (20, 25))]
    (Some (25, 25))
  = Some [(T_Key (lit "ab"), (5, 7)); (T_Eol, (7, 11)); (T_Indent, (10, 11)); (T_Key (lit "cd"), (11, 13));
          (T_Eol, (17, 18)); (T_At, (18, 19)); (T_Eol, (20, 20))].
Proof. reflexivity. Qed.

Print Assumptions C26_lines.
Print Assumptions C26_layout.
Print Assumptions C26_structure.
Print Assumptions C27_final_eol.
Print Assumptions C27_always_final_eol_refuted.
Print Assumptions C28_keyword_then_colon.
