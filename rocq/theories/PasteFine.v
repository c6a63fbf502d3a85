(** * Facts for C69: what is pasted can be computed *)
From Coq Require Import String Ascii.
From Coq Require Import List NArith ZArith Arith Bool Lia.
From Verif Require Import Base BaseFacts Path Sources Types SpecTypes Options SpecOptions Pragma SpecPragma Read Token Peg Grammar SpecGrammar SpecDirective SpecDisplay SpecLedger
  Parse SpecParse SpecWhole ParseFacts ParseOnce ParseFile P_File P_Display PragmaRun ExprFacts P_Order IncludeTokens AlikeWalk AlikeRead AlikeFile SimCopy SpecPaste
  P_Complete SpecAppend AppendText P_Parse Parts Paste.
Import SpecPragma Read.
Import ListNotations.
Local Open Scope nat_scope.
Local Notation tok := SpecGrammar.tok.
Local Notation longest := SpecGrammar.longest.
Local Notation ended := SpecAppend.ended.

(** ** An end of line after the tokens *)
Section Eol.
  Context (us : list token).
  Let A := placed us.
  Let J := placed (us ++ [T_Eol]).
  Lemma at_placed vs k t : tok (placed vs) k t <-> nth_error vs k = Some t.
  Proof.
    rewrite <- (placed_tokens vs) at 2. rewrite nth_error_map. unfold tok. destruct (nth_error (in_tokens (placed vs)) k) as [[x r]|]; cbn; split.
    - intros [r' H]. congruence.
    - intro H. injection H as ->. eauto.
    - intros [r' H]. discriminate.
    - discriminate.
  Qed.
  Lemma eol_tok k t : tok J k t -> t <> T_Eol -> tok A k t.
  Proof.
    unfold A, J. rewrite !at_placed. intros H Ne. destruct (lt_dec k (List.length us)) as [Lt|Ge]; [rewrite nth_error_app1 in H by exact Lt; exact H|].
    rewrite nth_error_app2 in H by lia. destruct (k - List.length us) as [|[|x]]; cbn in H; congruence.
  Qed.
  Lemma eol_up k t : tok A k t -> tok J k t.
  Proof. unfold A, J. rewrite !at_placed. intro H. rewrite nth_error_app1; [exact H|]. apply nth_error_Some. congruence. Qed.
  Lemma eol_down : (forall i j e, sum J i j e -> sum A i j e) /\ (forall i j e, product J i j e -> product A i j e) /\ (forall i j e, factor J i j e -> factor A i j e) /\ (forall i j e, primary J i j e -> primary A i j e).
  Proof. apply ExprFacts.expr_mutind; intros; econstructor; eauto; apply eol_tok; auto; discriminate. Qed.
  Lemma eol_over : (forall i j e, sum A i j e -> sum J i j e) /\ (forall i j e, product A i j e -> product J i j e) /\ (forall i j e, factor A i j e -> factor J i j e) /\ (forall i j e, primary A i j e -> primary J i j e).
  Proof. apply ExprFacts.expr_mutind; intros; econstructor; eauto; apply eol_up; auto. Qed.
  Lemma fine_eol E : fine_tokens E us -> fine_tokens E (us ++ [T_Eol]).
  Proof.
    intros [[C1 C2] O]. split; [split|].
    - intros i s T. apply (C1 i). apply eol_tok; [exact T|discriminate].
    - intros i j e M [S0 Lo]. apply (C2 i j e).
      + intros k t Qk T. destruct (M k t Qk (eol_up _ _ T)) as [M1 M2]. split; [exact M1|]. intro X. destruct (M2 X) as [Z1 Z2]. split; intro Z; [apply Z1|apply Z2]; apply eol_up; exact Z.
      + split; [apply eol_down; exact S0|]. intros k b Sk. apply (Lo k b). apply eol_over. exact Sk.
    - intros i name value c T1 T2 T3. apply (O i); apply eol_tok; auto; discriminate.
  Qed.
  Lemma fine_uneol E : fine_tokens E (us ++ [T_Eol]) -> fine_tokens E us.
  Proof.
    intros [[C1 C2] O]. split; [split|].
    - intros i s T. apply (C1 i). apply eol_up. exact T.
    - intros i j e M [S0 Lo]. apply (C2 i j e).
      + intros k t Qk T. destruct (token_eol_dec t) as [->|Ne].
        { split; [intro X; cbn in X; repeat (destruct X as [X|X]; [discriminate X|]); exact X|intros [X|[d X]]; discriminate X]. }
        destruct (M k t Qk (eol_tok _ _ T Ne)) as [M1 M2]. split; [exact M1|]. intro X. destruct (M2 X) as [Z1 Z2]. split; intro Z; [apply Z1|apply Z2]; (apply eol_tok; [exact Z|discriminate]).
      + split; [apply eol_over; exact S0|]. intros k b Sk. apply (Lo k b). apply eol_down. exact Sk.
    - intros i name value c T1 T2 T3. apply (O i); apply eol_up; assumption.
  Qed.
End Eol.

(** ** Includes have lines of their own *)
Definition include_lines (us : list token) : Prop := forall a b, us = a ++ T_Keyword K_Include :: b -> ended a.

Lemma tiles_include E (En : environment_ok E) I f r i ds es ws r' : computable E I -> fine_options I -> (exists po, obeys E po r) -> tiles E I f r i ds es ws r' ->
  i = 0 \/ SimCopy.ended I i -> forall k, i <= k -> tok I k (T_Keyword K_Include) -> k = 0 \/ exists x, k = S x /\ tok I x T_Eol.
Proof.
  intros Ci Fi Ob T. induction T as [r i F|r i j d es r1 ds es' ws r' D T IH]; intros Si k Hk Tk.
  - exfalso. unfold finished in F. apply nth_error_None in F. destruct Tk as [x Tk]. assert (nth_error (in_tokens I) k <> None) as V by congruence. apply nth_error_Some in V. lia.
  - destruct (le_lt_dec j k) as [Hj|Hj].
    { apply IH; auto; [eapply declares_obeys; eassumption|right; eapply ended_declares; exact D]. }
    destruct (is_include (item d)) eqn:Ni.
    2: { exfalso. apply (declares_free _ _ _ _ _ _ _ _ _ D Ni k); auto. }
    assert (k = i) as ->.
    { destruct D as [x e W|m q P Le|m o e r2 O Le]; try discriminate Ni. destruct q; try discriminate Ni. inversion P as [| | | |j' s' T0 [W _]|]; subst. inversion W as [s' T' Y]; subst.
      destruct (Nat.eq_dec k i) as [|N1]; [assumption|exfalso]. assert (Q : forall t t', tok I k t -> tok I k t' -> t = t') by (intros t t' [? X] [? X']; congruence).
      destruct (Nat.eq_dec k (S i)) as [->|N2]; [discriminate (Q _ _ Tk T')|]. inversion Le as [? X|]; subst; [|lia]. assert (k = S (S i)) as -> by lia. discriminate (Q _ _ Tk X). }
    destruct Si as [->|[(x & -> & X)|F]]; [left; reflexivity|right; eauto|]. exfalso. unfold finished in F. destruct Tk as [x Tk]. congruence.
Qed.
Lemma tiles_include_lines E (En : environment_ok E) I f r ds es ws r' : computable E I -> fine_options I -> (exists po, obeys E po r) -> tiles E I f r 0 ds es ws r' ->
  include_lines (map fst (in_tokens I)).
Proof.
  intros Ci Fi Ob T a b Q. assert (X : forall k, tok I k = fun t => exists r, nth_error (in_tokens I) k = Some (t, r)) by reflexivity.
  assert (At : forall k t, nth_error (map fst (in_tokens I)) k = Some t -> tok I k t).
  { intros k t H. rewrite nth_error_map in H. destruct (nth_error (in_tokens I) k) as [[t' z]|] eqn:Z; [|discriminate H]. cbn in H. injection H as ->. exists z. exact Z. }
  destruct (tiles_include E En I f _ _ _ _ _ _ Ci Fi Ob T (or_introl eq_refl) (List.length a) ltac:(lia)) as [H|(x & H & [z Tx])].
  - apply At. rewrite Q, nth_error_app2, Nat.sub_diag by lia. reflexivity.
  - left. destruct a; [reflexivity|discriminate H].
  - right. destruct (last_cases a) as [->|(u & t & ->)]; [discriminate H|]. rewrite app_length in H. cbn in H. exists u. f_equal. f_equal.
    apply (map_nth_error fst) in Tx. rewrite Q, <- app_assoc, nth_error_app2 in Tx by lia. replace (x - List.length u) with 0 in Tx by lia. cbn in Tx. congruence.
Qed.

(** ** What is pasted *)
Definition fair (E : grammar_env) (x : option (list N) * list token) : Prop := fine_tokens E (snd x) /\ include_lines (snd x).
Lemma found_in t ps fs t' : found t ps fs t' -> forall x, In x fs \/ In x t' -> In x t.
Proof.
  intro F. induction F as [t|a p k ts b ps fs t Sp F IH|t p ps fs t' N F IH]; intros x H.
  - destruct H as [[]|H]. exact H.
  - rewrite in_app_iff. cbn. destruct H as [[H|H]|H]; auto; specialize (IH x); rewrite in_app_iff in IH; tauto.
  - auto.
Qed.
Lemma full_ended_ us vs : full_lines us vs -> ended vs.
Proof. intros [|ts|ts t _]; [left; reflexivity|right; eauto|right]. exists (ts ++ [t]). rewrite <- app_assoc. reflexivity. Qed.
Lemma full_fine E us vs : full_lines us vs -> fine_tokens E us -> fine_tokens E vs.
Proof. intros [|ts|ts t _] F; auto. replace (ts ++ [t; T_Eol]) with ((ts ++ [t]) ++ [T_Eol]) by (rewrite <- app_assoc; reflexivity). apply fine_eol. exact F. Qed.
Lemma ended_app a b : ended a -> ended b -> ended (a ++ b).
Proof. intros Ha [->|(u & ->)]; [rewrite app_nil_r; exact Ha|]. right. exists (a ++ u). apply app_assoc. Qed.
Lemma fine_nil E : fine_tokens E [].
Proof. apply fine_plain; unfold without; cbn; tauto. Qed.

Section Pasted.
  Context (E : grammar_env) (glob_with : path -> result (list glob_item) str).
  Let P1 (t : token_table) (f : option (list N)) (ts us : list token) (t' : token_table) : Prop :=
    Forall (fair E) t -> Forall (fair E) t' /\ forall pre, fine_tokens E (pre ++ ts) -> include_lines (pre ++ ts) -> fine_tokens E (pre ++ us).
  Let P2 (t fs : token_table) (us : list token) (t' : token_table) : Prop :=
    Forall (fair E) t -> Forall (fair E) fs -> Forall (fair E) t' /\ fine_tokens E us /\ ended us.

  Lemma pasted_fine_all : (forall t f ts us t', pasted glob_with t f ts us t' -> P1 t f ts us t') /\ (forall t fs us t', pasted_files glob_with t fs us t' -> P2 t fs us t').
  Proof.
    assert (X : forall Q : Prop, ((forall t f, P1 t f [] [] t) ->
      (forall t f x ts us t', x <> T_Keyword K_Include -> pasted glob_with t f ts us t' -> P1 t f ts us t' -> P1 t f (x :: ts) (x :: us) t') ->
      (forall t f text eol ts items fs t1 us1 t2 us2 t3, eol = [T_Eol] \/ eol = [] /\ ts = [] -> glob_with (resolve_included_path f text) = Ok items -> found t (map item_path items) fs t1 ->
        pasted_files glob_with t1 (rev fs) us1 t2 -> P2 t1 (rev fs) us1 t2 -> pasted glob_with t2 f ts us2 t3 -> P1 t2 f ts us2 t3 -> P1 t f (T_Keyword K_Include :: T_String text :: eol ++ ts) (us1 ++ us2) t3) ->
      (forall t, P2 t [] [] t) ->
      (forall t f ts fs us vs t1 ws t2, pasted glob_with t f ts us t1 -> P1 t f ts us t1 -> full_lines us vs -> pasted_files glob_with t1 fs ws t2 -> P2 t1 fs ws t2 -> P2 t ((f, ts) :: fs) (vs ++ ws) t2) -> Q) -> Q).
    { intros Q H. apply H; clear H Q; unfold P1, P2.
      - intros t f Ft. split; [exact Ft|]. auto.
      - intros t f x ts us t' _ _ IH Ft. destruct (IH Ft) as [Ft' H]. split; [exact Ft'|]. intros pre F Il. specialize (H (pre ++ [x])). rewrite <- !app_assoc in H. cbn [app] in H. exact (H F Il).
      - intros t f text eol ts items fs t1 us1 t2 us2 t3 Qe _ Fo _ IH1 _ IH2 Ft.
        assert (F1 : Forall (fair E) t1) by (apply Forall_forall; intros y Hy; rewrite Forall_forall in Ft; apply Ft; apply (found_in _ _ _ _ Fo); right; exact Hy).
        assert (Ff : Forall (fair E) (rev fs)) by (apply Forall_rev; apply Forall_forall; intros y Hy; rewrite Forall_forall in Ft; apply Ft; apply (found_in _ _ _ _ Fo); left; exact Hy).
        destruct (IH1 F1 Ff) as (F2 & Fu & Eu). destruct (IH2 F2) as [F3 H]. split; [exact F3|]. intros pre F Il. pose proof (Il pre _ eq_refl) as Ep.
        assert (Z : fine_tokens E us2).
        { apply (H []); cbn [app]; destruct Qe as [->|[-> ->]]; [| apply fine_nil| |intros a b Q; destruct a; discriminate Q].
          - replace (pre ++ T_Keyword K_Include :: T_String text :: [T_Eol] ++ ts) with ((pre ++ [T_Keyword K_Include; T_String text; T_Eol]) ++ ts) in F by (rewrite <- app_assoc; reflexivity).
            apply fine_app in F; [apply F|]. right. exists (pre ++ [T_Keyword K_Include; T_String text]). rewrite <- app_assoc. reflexivity.
          - intros a b Q. destruct (Il (pre ++ T_Keyword K_Include :: T_String text :: T_Eol :: a) b) as [N|(u & N)].
            + rewrite Q, <- app_assoc. reflexivity.
            + destruct pre; discriminate N.
            + destruct (last_cases a) as [->|(v & y & ->)]; [left; reflexivity|]. right. exists v. f_equal.
              replace (pre ++ T_Keyword K_Include :: T_String text :: T_Eol :: v ++ [y]) with ((pre ++ T_Keyword K_Include :: T_String text :: T_Eol :: v) ++ [y]) in N by (rewrite <- app_assoc; reflexivity).
              apply app_inj_tail in N. destruct N as [_ ->]. reflexivity. }
        apply (fine_app E pre _ Ep) in F. apply (fine_app E pre _ Ep). split; [apply F|]. apply (fine_app E us1 _ Eu). auto.
      - intros t Ft Ff. split; [exact Ft|]. split; [apply fine_nil|left; reflexivity].
      - intros t f ts fs us vs t1 ws t2 _ IH1 Fl _ IH2 Ft Ff. inversion Ff as [|? ? [Fa Fb] Fr]; subst. cbn [snd] in *. destruct (IH1 Ft) as [F1 H]. destruct (IH2 F1 Fr) as (F2 & Fw & Ew).
        split; [exact F2|]. pose proof (full_ended_ _ _ Fl) as Ev. split; [|apply ended_app; assumption]. apply (fine_app E vs _ Ev). split; [|exact Fw]. apply (full_fine E us vs Fl). exact (H [] Fa Fb). }
    apply X. clear X. intros A B C D G. split; [apply (pasted_mind glob_with P1 P2)|apply (pasted_files_mind glob_with P1 P2)]; assumption.
  Qed.
  Lemma pasted_fine t f ts us t' : pasted glob_with t f ts us t' -> Forall (fair E) t -> fine_tokens E ts -> include_lines ts -> fine_tokens E us.
  Proof. intros H Ft F Il. destruct (proj1 pasted_fine_all _ _ _ _ _ H Ft) as [_ Z]. exact (Z [] F Il). Qed.
End Pasted.

(** The files of a ledger. *)
Lemma files_fair L E (En : environment_ok E) r cs fs es ws r' : files_tiled L E r cs fs es ws r' -> (exists po, obeys E po r) ->
  (forall id f c, In (id, f, c) cs -> fine_content L E id c) -> forall tt, tokens_of L cs tt -> Forall (fair E) tt.
Proof.
  intro T. induction T as [r|r id f c ts cs ds es ws r1 fs es' ws' r' Lx T Ts IH]; intros Ob Fi tt Tk.
  - inversion Tk. constructor.
  - inversion Tk as [|? [n us] ? tt' (_ & ts' & Lx' & Us) Tk']; subst. cbn [fst snd] in *. rewrite Lx in Lx'. injection Lx' as <-. subst us.
    destruct (Fi id f c (or_introl eq_refl)) as (ts' & Lx' & Co & Fo). rewrite Lx in Lx'. injection Lx' as <-. constructor.
    + split; cbn [snd]; [exact (fine_of E (input_of id c ts) _ eq_refl Co Fo)|]. exact (tiles_include_lines E En (input_of id c ts) f _ _ _ _ _ Co Fo Ob T).
    + apply IH; [|intros id' f' c' H; apply (Fi id' f' c'); right; exact H|exact Tk']. clear - T Ob En Co Fo. induction T; [exact Ob|]. apply IHT. eapply declares_obeys; eassumption.
Qed.
