(** * Being alike is an equivalence *)
From Coq Require Import String Ascii.
From Coq Require Import List NArith ZArith Arith Bool Permutation.
From Verif Require Import Base Types Options SpecOptions Pragma Grammar SpecDisplay SpecLedger SpecAlike.
Import ListNotations.
Local Open Scope nat_scope.

(** Alone, back and onward. *)
Definition refl {A} (R : A -> A -> Prop) : Prop := forall x, R x x.
Definition sym {A} (R : A -> A -> Prop) : Prop := forall x y, R x y -> R y x.
Definition trans {A} (R : A -> A -> Prop) : Prop := forall x y z, R x y -> R y z -> R x z.

Lemma forall2_refl {A} (R : A -> A -> Prop) : refl R -> refl (Forall2 R).
Proof. intros H l. induction l; constructor; auto. Qed.
Lemma forall2_sym {A} (R : A -> A -> Prop) : sym R -> sym (Forall2 R).
Proof. intros H l l' F. induction F; constructor; auto. Qed.
Lemma forall2_trans {A} (R : A -> A -> Prop) : trans R -> trans (Forall2 R).
Proof. intros H a b c F. revert c. induction F; intros c G; inversion G; subst; constructor; eauto. Qed.
Lemma forall2_permute {A B} (R : A -> B -> Prop) l m : Permutation l m -> forall l', Forall2 R m l' -> exists m', Forall2 R l m' /\ Permutation m' l'.
Proof.
  induction 1 as [|x l m P IH|x y l|l m n P IH P' IH']; intros l' F.
  - exists l'. auto.
  - inversion F as [|? b ? r Rx Fr]; subst. destruct (IH _ Fr) as (m' & F' & P'). exists (b :: m'). split; [constructor; assumption|constructor; assumption].
  - inversion F as [|? b ? r Rx Fr]; subst. inversion Fr as [|? b' ? r' Rx' Fr']; subst. exists (b' :: b :: r'). split; [repeat constructor; assumption|constructor].
  - destruct (IH' _ F) as (m' & F' & Q). destruct (IH _ F') as (m2 & F2 & Q2). exists m2. split; [exact F2|etransitivity; eassumption].
Qed.
Lemma item_refl {A} : refl (@same_item A). Proof. intro x. reflexivity. Qed.
Lemma item_sym {A} : sym (@same_item A). Proof. intros x y H. symmetry. exact H. Qed.
Lemma item_trans {A} : trans (@same_item A). Proof. intros x y z H G. exact (eq_trans H G). Qed.
Lemma option_refl {A} (R : A -> A -> Prop) : refl R -> refl (same_option R). Proof. intros H [x|]; cbn; auto. Qed.
Lemma option_sym {A} (R : A -> A -> Prop) : sym R -> sym (same_option R). Proof. intros H [x|] [y|]; cbn; auto. Qed.
Lemma option_trans {A} (R : A -> A -> Prop) : trans R -> trans (same_option R). Proof. intros H [x|] [y|] [z|]; cbn; try tauto. apply H. Qed.
Lemma elements_refl {A} (R : A -> A -> Prop) : refl R -> refl (same_elements R). Proof. intros H l. exists l. split; [reflexivity|apply forall2_refl; exact H]. Qed.
Lemma elements_sym {A} (R : A -> A -> Prop) : sym R -> sym (same_elements R).
Proof. intros H l l' (m & P & F). destruct (forall2_permute R l m P l' F) as (m' & F' & P'). exists m'. split; [symmetry; exact P'|]. apply forall2_sym; assumption. Qed.
Lemma elements_trans {A} (R : A -> A -> Prop) : trans R -> trans (same_elements R).
Proof.
  intros H a b c (m & P & F) (n & Q & G).
  assert (F' : Forall2 (fun x y => R y x) b m) by (clear - F; induction F; constructor; auto).
  destruct (forall2_permute (fun x y => R y x) n b (Permutation_sym Q) m F') as (m' & F2 & P2). exists m'. split; [etransitivity; [exact P|symmetry; exact P2]|].
  eapply forall2_trans; [exact H| |exact G]. clear - F2. induction F2; constructor; auto.
Qed.

Lemma amount_refl : refl alike_amount. Proof. intro x. split; reflexivity. Qed.
Lemma amount_sym : sym alike_amount. Proof. intros x y [A B]. split; symmetry; assumption. Qed.
Lemma amount_trans : trans alike_amount. Proof. intros x y z [A B] [C D]. split; eapply item_trans; eassumption. Qed.
Lemma meta_value_refl : refl alike_meta_value. Proof. intros [x|x]; cbn; [reflexivity|apply amount_refl]. Qed.
Lemma meta_value_sym : sym alike_meta_value. Proof. intros [x|x] [y|y]; cbn; auto. apply amount_sym. Qed.
Lemma meta_value_trans : trans alike_meta_value. Proof. intros [x|x] [y|y] [z|z]; cbn; try tauto; [congruence|apply amount_trans]. Qed.
Lemma metadata_refl : refl alike_metadata.
Proof. intro m. split; [|split; apply elements_refl, item_refl]. apply elements_refl. intros [k v]. split; [reflexivity|apply meta_value_refl]. Qed.
Lemma metadata_sym : sym alike_metadata.
Proof.
  intros m n (A & B & C). split; [|split; apply (elements_sym same_item item_sym); assumption].
  apply (elements_sym (fun x y => same_item (fst x) (fst y) /\ alike_meta_value (item (snd x)) (item (snd y)))); [|exact A]. intros x y [H G]. split; [apply item_sym; exact H|apply meta_value_sym; exact G].
Qed.
Lemma metadata_trans : trans alike_metadata.
Proof.
  intros m n o (A & B & C) (A' & B' & C'). split; [|split; eapply (elements_trans same_item item_trans); eassumption].
  eapply (elements_trans (fun x y => same_item (fst x) (fst y) /\ alike_meta_value (item (snd x)) (item (snd y)))); [|exact A|exact A'].
  intros x y z [H G] [H' G']. split; [eapply item_trans; eassumption|eapply meta_value_trans; eassumption].
Qed.
Lemma cost_refl : refl alike_cost. Proof. intro x. repeat split; apply option_refl, item_refl. Qed.
Lemma cost_sym : sym alike_cost. Proof. intros x y (A & B & C & D & F & G). repeat split; try (apply (option_sym same_item item_sym); assumption). symmetry. exact G. Qed.
Lemma cost_trans : trans alike_cost.
Proof. intros x y z (A & B & C & D & F & G) (A' & B' & C' & D' & F' & G'). repeat split; try (eapply (option_trans same_item item_trans); eassumption). congruence. Qed.
Lemma posting_refl : refl alike_posting.
Proof. intro x. repeat split; try (apply option_refl, item_refl); try reflexivity; try apply metadata_refl. apply option_refl. intro y. apply cost_refl. Qed.
Lemma posting_sym : sym alike_posting.
Proof.
  intros x y (A & B & C & D & F & G & H). repeat split; try (apply (option_sym same_item item_sym); assumption); try (symmetry; exact B); try (apply metadata_sym; exact H).
  apply (option_sym (fun x y => alike_cost (item x) (item y))); [|exact F]. intros a b. apply cost_sym.
Qed.
Lemma posting_trans : trans alike_posting.
Proof.
  intros x y z (A & B & C & D & F & G & H) (A' & B' & C' & D' & F' & G' & H'). repeat split; try (eapply (option_trans same_item item_trans); eassumption); try (eapply item_trans; eassumption); try (eapply metadata_trans; eassumption).
  eapply (option_trans (fun x y => alike_cost (item x) (item y))); [|exact F|exact F']. intros a b c. apply cost_trans.
Qed.
Lemma amount_tol_refl : refl alike_amount_tol. Proof. intro x. split; [apply amount_refl|apply option_refl, item_refl]. Qed.
Lemma amount_tol_sym : sym alike_amount_tol. Proof. intros x y [A B]. split; [apply amount_sym; exact A|apply (option_sym same_item item_sym); exact B]. Qed.
Lemma amount_tol_trans : trans alike_amount_tol. Proof. intros x y z [A B] [C D]. split; [eapply amount_trans; eassumption|eapply (option_trans same_item item_trans); eassumption]. Qed.
Lemma variant_refl : refl alike_variant.
Proof.
  intros []; constructor; try reflexivity; try (apply option_refl, item_refl); try (apply elements_refl, item_refl); try apply amount_refl; try apply amount_tol_refl.
  - apply (forall2_refl (fun x y => alike_posting (item x) (item y))). intro. apply posting_refl.
  - apply (forall2_refl (fun x y => alike_meta_value (item x) (item y))). intro. apply meta_value_refl.
Qed.
Lemma variant_sym : sym alike_variant.
Proof.
  intros x y []; constructor; try (apply item_sym; assumption); try (apply (option_sym same_item item_sym); assumption); try (apply (elements_sym same_item item_sym); assumption); try (apply amount_sym; assumption); try (apply amount_tol_sym; assumption).
  - apply (forall2_sym (fun x y => alike_posting (item x) (item y))); [|assumption]. intros a b. apply posting_sym.
  - apply (forall2_sym (fun x y => alike_meta_value (item x) (item y))); [|assumption]. intros a b. apply meta_value_sym.
Qed.
Lemma variant_trans : trans alike_variant.
Proof.
  intros x y z []; intro G; inversion G; subst; constructor; try (eapply item_trans; eassumption); try (eapply (option_trans same_item item_trans); eassumption); try (eapply (elements_trans same_item item_trans); eassumption); try (eapply amount_trans; eassumption); try (eapply amount_tol_trans; eassumption).
  - eapply (forall2_trans (fun x y => alike_posting (item x) (item y))); [|eassumption|eassumption]. intros a b c. apply posting_trans.
  - eapply (forall2_trans (fun x y => alike_meta_value (item x) (item y))); [|eassumption|eassumption]. intros a b c. apply meta_value_trans.
Qed.
Lemma alike_refl : refl alike. Proof. intro d. constructor; [reflexivity|apply metadata_refl|apply variant_refl]. Qed.
Lemma alike_sym : sym alike. Proof. intros d e [A B C]. constructor; [symmetry; exact A|apply metadata_sym; exact B|apply variant_sym; exact C]. Qed.
Lemma alike_trans : trans alike. Proof. intros d e f [A B C] [A' B' C']. constructor; [eapply item_trans; eassumption|eapply metadata_trans; eassumption|eapply variant_trans; eassumption]. Qed.
Lemma plugin_refl : refl alike_plugin. Proof. intro p. split; [reflexivity|apply option_refl, item_refl]. Qed.
Lemma plugin_sym : sym alike_plugin. Proof. intros p q [A B]. split; [symmetry; exact A|apply (option_sym same_item item_sym); exact B]. Qed.
Lemma plugin_trans : trans alike_plugin. Proof. intros p q r [A B] [C D]. split; [eapply item_trans; eassumption|eapply (option_trans same_item item_trans); eassumption]. Qed.
Lemma options_refl : refl alike_options. Proof. intro o. constructor; reflexivity. Qed.
Lemma options_sym : sym alike_options. Proof. intros o p []. constructor; intros; unfold same_value_of in *; symmetry; auto. Qed.
Lemma options_trans : trans alike_options. Proof. intros o p q [] []. constructor; intros; unfold same_value_of in *; etransitivity; eauto. Qed.
