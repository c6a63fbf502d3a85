(** * One declaration, copied to another place *)
From Coq Require Import String Ascii.
From Coq Require Import List NArith ZArith Arith Bool Lia Permutation.
From Verif Require Import Base BaseFacts Path Types SpecTypes Options SpecOptions Token Peg Grammar SpecExpr SpecCost SpecGrammar SpecDirective SpecDisplay SpecLedger
  Parse SpecParse ParseFacts ParseOnce ParseFile P_File P_Display AlikeRead AlikeFile Sim SimValues SimGrammar SimFile.
Import ListNotations.
Local Open Scope nat_scope.

(** ** A declaration ends where a line does *)
Section Ended.
  Context (E : grammar_env) (I : input).
  Definition ended (j : nat) : Prop := (exists k, j = S k /\ tok I k T_Eol) \/ finished I j.
  Lemma ended_line k j : line_end I k j -> ended j.
  Proof. intros [m T|m F]; [left; eauto|right; exact F]. Qed.
  Lemma ended_star {A} (R : nat -> nat -> A -> list report -> Prop) : (forall i j a es, R i j a es -> ended j) -> forall i j l es, star R i j l es -> ended i -> ended j.
  Proof. intros H i j l es S. induction S; eauto. Qed.
  Lemma ended_metadata names i j md es : metadata_at E I names i j md es -> ended i -> ended j.
  Proof. intros [l S _ _]. revert S. apply ended_star. intros a b c d [H _]. destruct H. eapply ended_line. eassumption. Qed.
  Lemma ended_posting names i j p es : posting_at E I names i j p es -> ended j.
  Proof. intros []. eapply ended_metadata; [eassumption|]. eapply ended_line. eassumption. Qed.
  Lemma ended_directive names i j d es : directive_at E I names i j d es -> ended j.
  Proof.
    intros [].
    - eapply ended_star; [intros ? ? ? ?; apply ended_posting|eassumption|]. eapply ended_metadata; [eassumption|]. eapply ended_line. eassumption.
    - eapply ended_metadata; [eassumption|]. eapply ended_line. eassumption.
    - eapply ended_metadata; [eassumption|]. eapply ended_line. eassumption.
  Qed.
  Lemma ended_declares f r i j d es r' : declares E I f r i j d es r' -> ended j.
  Proof. intros [x e [H _]|k p _ L|k o e r1 _ L]; [eapply ended_directive; exact H|eapply ended_line; exact L|eapply ended_line; exact L]. Qed.
End Ended.

(** ** The copy *)

(** The tokens from [i] to [j] in the one input are those from [i'] to [j'] in
    the other one; where a declaration is the last of its file and does not end
    its line, the line may be ended in the copy. *)
Inductive copied (I J : input) (i j i' : nat) : nat -> Prop :=
| copied_line : (forall k t, k < j - i -> tok I (i + k) t -> tok J (i' + k) t) -> (exists k, j = S k /\ tok I k T_Eol) -> copied I J i j i' (i' + (j - i))
| copied_ended : (forall k t, k < j - i -> tok I (i + k) t -> tok J (i' + k) t) -> finished I j -> (forall k, j = S k -> ~ tok I k T_Eol) ->
    tok J (i' + (j - i)) T_Eol -> copied I J i j i' (S (i' + (j - i)))
| copied_end : (forall k t, k < j - i -> tok I (i + k) t -> tok J (i' + k) t) -> finished I j -> (forall k, j = S k -> ~ tok I k T_Eol) ->
    finished J (i' + (j - i)) -> copied I J i j i' (i' + (j - i)).

Lemma copied_tokens I J i j i' j' : copied I J i j i' j' -> forall k t, k < j - i -> tok I (i + k) t -> tok J (i' + k) t.
Proof. intros []; assumption. Qed.

Lemma token_some I k t r : nth_error (in_tokens I) k = Some (t, r) -> tok I k t.
Proof. exists r. exact H. Qed.

Definition any (_ _ : span) : Prop := True.
Lemma copied_step I J i j i' j' : i < j <= List.length (in_tokens I) -> copied I J i j i' j' -> ~ tok I j T_Indent -> ~ tok J j' T_Indent ->
  exists P Q, in_step I J P Q any /\ P i i' /\ forall x, Q j x -> x = j'.
Proof.
  intros B Cp Ni Nj. pose proof (copied_tokens _ _ _ _ _ _ Cp) as Tk.
  set (P0 := fun a a' => i <= a < j /\ a' = i' + (a - i)).
  set (P := fun a a' => P0 a a' \/ (finished I j /\ (forall k, j = S k -> ~ tok I k T_Eol) /\ a = j /\ a' = i' + (j - i))).
  set (Q := fun a a' => P0 a a' \/ (a = j /\ a' = j')).
  exists P, Q. split; [|split].
  - constructor.
    + intros a a' [H|[-> ->]]; [left; left; exact H|right; auto].
    + intros a a' Pa. destruct (Nat.eq_dec a j) as [->|Ne].
      * destruct Pa as [[H _]|(F & Nl & _ & ->)]; [lia|]. unfold finished in F. rewrite F. destruct Cp as [_ (k & Qk & Tk')|_ _ _ T|_ _ _ T].
        -- exfalso. exact (Nl k Qk Tk').
        -- destruct T as [r' ->]. split; [reflexivity|]. right. auto.
        -- unfold finished in T. rewrite T. right. auto.
      * assert (Ha : i <= a < j /\ a' = i' + (a - i)) by (destruct Pa as [H|(_ & _ & H & _)]; [exact H|contradiction]). destruct Ha as [Ha ->].
        destruct (nth_error (in_tokens I) a) as [[t r]|] eqn:X; [|apply nth_error_None in X; lia].
        assert (T' : tok J (i' + (a - i)) t) by (apply Tk; [lia|]; replace (i + (a - i)) with a by lia; exists r; exact X).
        destruct T' as [r' ->]. split; [reflexivity|]. split.
        -- intro Ne'. destruct (Nat.eq_dec (S a) j) as [Qj|Nj'].
           ++ right. assert (Z : forall k, j = S k -> ~ tok I k T_Eol) by (intros k Qk [r2 Y]; assert (k = a) by lia; subst k; congruence).
              destruct Cp as [_ (k & Qk & Tk')|_ F _ _|_ F _ _]; [destruct (Z k Qk Tk')| |]; (split; [exact F|split; [exact Z|lia]]).
           ++ left. split; lia.
        -- intros ->. destruct (Nat.eq_dec (S a) j) as [Qj|Nj']; [|left; split; lia]. right. split; [exact Qj|].
           destruct Cp as [_ _|_ _ Nl _|_ _ Nl _]; [lia| |]; exfalso; apply (Nl a); auto; exists r; exact X.
    + intros. exact Logic.I.
  - left. split; lia.
  - intros x [[H _]|[_ H]]; [lia|exact H].
Qed.

(** The options of two parsers say the same. *)
Definition kin (E : grammar_env) (r r' : rules) : Prop := exists po po', obeys E po r /\ obeys E po' r' /\ alike_settings po po'.

Lemma declares_distinct E (En : environment_ok E) I f r i j d r1 : declares E I f r i j d [] r1 ->
  match item d with D_Directive x => distinct_metadata (item (dir_metadata x)) | _ => True end.
Proof.
  intro H. inversion H as [x e W|k p _ _|k o e r2 _ _]; subst; cbn; auto.
  destruct (same_whole E (rl_names r1) I I eq_refl (env_order _ En) _ _ _ W) as (d' & _ & _ & D). exact D.
Qed.

Lemma declares_stepped E (En : environment_ok E) I J f P Q r r' i j i' d r1 : computable E I -> fine_options I -> computable E J -> fine_options J ->
  kin E r r' -> declares E I f r i j d [] r1 -> in_step I J P Q any -> P i i' -> i' <= List.length (in_tokens J) ->
  exists j' d' r1', Q j j' /\ declares E J f r' i' j' d' [] r1' /\ alike_declaration any d d' /\ kin E r1 r1'.
Proof.
  intros Ci Fi Cj Fj (po & po' & Ob & Ob' & Al) D Step Pi Hi'.
  pose proof (declares_distinct E En _ _ _ _ _ _ _ D) as Di.
  destruct (p_once_reads E I f En Ci Fi (mk_pstate po []) r i j d [] r1 Ob D) as (st1 & more & Rd & Ob1 & B & _).
  assert (As : alike_state (mk_pstate po []) (mk_pstate po' [])) by (split; [exact Al|reflexivity]).
  pose proof (ssim_once E (env_order _ En) I J P Q any Step f _ _ i i' As Pi) as H. rewrite Rd in H. cbn [map srsim] in H.
  pose proof (p_once_run E J f En Cj Fj (mk_pstate po' []) r' i' Ob' Hi') as R.
  destruct (p_once E J f (mk_pstate po' []) i') as [d' x es' st1'|st1'| |]; cbn in R; try contradiction.
  destruct H as (H1 & H2 & H3 & H4). destruct R as (es & r1' & -> & D' & Ob1' & _).
  apply same_told_nil in H3. assert (es = []) as -> by (apply map_eq_nil with (f := C_Report); apply H3; reflexivity).
  exists x, d', r1'. split; [exact H2|]. split; [exact D'|]. split.
  - destruct H1 as [y y' Y Y' A|p p' Y Y' A]; [eapply ad_directive; [exact Y|exact Y'|exact A|rewrite Y in Di; exact Di]|eapply ad_pragma; eassumption].
  - exists (ps_options st1), (ps_options st1'). split; [exact Ob1|]. split; [exact Ob1'|]. apply H4.
Qed.
Lemma declares_copied E (En : environment_ok E) I J f r r' i j i' j' d r1 : computable E I -> fine_options I -> computable E J -> fine_options J ->
  kin E r r' -> declares E I f r i j d [] r1 -> copied I J i j i' j' -> ~ tok I j T_Indent -> ~ tok J j' T_Indent ->
  exists d' r1', declares E J f r' i' j' d' [] r1' /\ alike_declaration any d d' /\ kin E r1 r1'.
Proof.
  intros Ci Fi Cj Fj Ki D Cp Ni Nj.
  assert (B : i < j <= List.length (in_tokens I)).
  { destruct Ki as (po & po' & Ob & _). destruct (p_once_reads E I f En Ci Fi (mk_pstate po []) r i j d [] r1 Ob D) as (st1 & more & _ & _ & B & _). exact B. }
  destruct (copied_step I J i j i' j' B Cp Ni Nj) as (P & Q & Step & Pi & Qj).
  assert (Hi' : i' <= List.length (in_tokens J)).
  { destruct (nth_error (in_tokens I) i) as [[t x]|] eqn:X; [|apply nth_error_None in X; lia].
    destruct (copied_tokens _ _ _ _ _ _ Cp 0 t ltac:(lia)) as [y Y]; [rewrite Nat.add_0_r; exists x; exact X|]. rewrite Nat.add_0_r in Y. assert (nth_error (in_tokens J) i' <> None) by congruence. apply nth_error_Some in H. lia. }
  destruct (declares_stepped E En I J f P Q r r' i j i' d r1 Ci Fi Cj Fj Ki D Step Pi Hi') as (x & d' & r1' & Hq & D' & A & K1).
  apply Qj in Hq. subst x. eauto.
Qed.
(** The other way: the line is ended in the one input, and in the copy it is the
    last line, which is not. *)
Lemma declares_unended E (En : environment_ok E) I J f r r' i k i' d r1 : computable E I -> fine_options I -> computable E J -> fine_options J ->
  kin E r r' -> declares E I f r i (S k) d [] r1 -> tok I k T_Eol -> (forall x t, x < k - i -> tok I (i + x) t -> tok J (i' + x) t) -> finished J (i' + (k - i)) -> i' + (k - i) <= List.length (in_tokens J) ->
  ~ tok I (S k) T_Indent -> exists d' r1', declares E J f r' i' (i' + (k - i)) d' [] r1' /\ alike_declaration any d d' /\ kin E r1 r1'.
Proof.
  intros Ci Fi Cj Fj Ki D Te Tk Fin Bj Ni.
  assert (B : i < S k <= List.length (in_tokens I)).
  { destruct Ki as (po & po' & Ob & _). destruct (p_once_reads E I f En Ci Fi (mk_pstate po []) r i (S k) d [] r1 Ob D) as (st1 & more & _ & _ & B & _). exact B. }
  set (P := fun a a' => i <= a <= k /\ a' = i' + (a - i)). set (Q := fun a a' => P a a' \/ (a = S k /\ a' = i' + (k - i))).
  assert (Step : in_step I J P Q any).
  { constructor.
    - intros a a' [H|[-> ->]]; [left; exact H|right]. split; [exact Ni|]. intros [x X]. unfold finished in Fin. congruence.
    - intros a a' [Ha ->]. destruct (Nat.eq_dec a k) as [->|Ne].
      + destruct Te as [x ->]. unfold finished in Fin. rewrite Fin. split; [reflexivity|]. right. auto.
      + destruct (nth_error (in_tokens I) a) as [[t x]|] eqn:X; [|apply nth_error_None in X; lia].
        destruct (Tk (a - i) t ltac:(lia)) as [y ->]; [replace (i + (a - i)) with a by lia; exists x; exact X|]. split; [reflexivity|]. split; intros _; [|left]; split; lia.
    - intros. exact Logic.I. }
  destruct (declares_stepped E En I J f P Q r r' i (S k) i' d r1 Ci Fi Cj Fj Ki D Step) as (x & d' & r1' & Hq & D' & A & K1); [split; lia|lia|].
  destruct Hq as [[X _]|[_ ->]]; [lia|]. eauto.
Qed.

(** ** The name of the file *)

(** Only an option for documents depends on the name of its file. *)
Definition for_documents (d : declaration) : Prop := exists o p, d = D_Pragma (P_Option o) /\ opt_variant o = O_Documents p.
Lemma reads_file U dp f f' n v x : reads U dp f n v x -> (forall p, x <> O_Documents p) -> reads U dp f' n v x.
Proof. intros R N. destruct R; try (econstructor; eassumption). exfalso. eapply N. reflexivity. Qed.
Lemma effect_file E f f' r name value o es r' : option_effect E f r name value o es r' -> (forall p, opt_variant o <> O_Documents p) -> option_effect E f' r name value o es r'.
Proof.
  intros Ef N. destruct Ef as [t s R F|t t' s R Ne Q|m R|v R Hv|No|e W].
  - eapply effect_name; [|exact F]. eapply reads_file; [exact R|discriminate].
  - eapply effect_name_taken; [|exact Ne|exact Q]. eapply reads_file; [exact R|discriminate].
  - eapply effect_limit. eapply reads_file; [exact R|discriminate].
  - eapply effect_none; [|exact Hv]. eapply reads_file; [exact R|exact N].
  - apply effect_unknown. exact No.
  - apply effect_bad. exact W.
Qed.
Lemma declares_file E I f f' r i j d es r' : declares E I f r i j d es r' -> f = f' \/ ~ for_documents (item d) -> declares E I f' r i j d es r'.
Proof.
  intros D [<-|N]; [exact D|]. destruct D as [x e W|k p H L|k o e r1 [a b name value o' e' r2 T W W' Ef] L].
  - constructor. exact W.
  - eapply declares_pragma; [|exact L]. destruct H; econstructor; eassumption.
  - eapply declares_option; [|exact L]. econstructor; [exact T|exact W|exact W'|]. eapply effect_file; [exact Ef|]. intros p Q. apply N. exists o', p. auto.
Qed.
