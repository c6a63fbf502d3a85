(** * Facts for C80: what becomes of declarations in which accounts are renamed *)
From Coq Require Import String Ascii.
From Coq Require Import List NArith ZArith Arith Bool Lia Permutation.
From Verif Require Import Base BaseFacts Path Sources Types SpecTypes SpecSort Options SpecOptions OptionsFacts Pragma SpecPragma PragmaRun Token Grammar SpecGrammar SpecWhole Parse SpecParse
  AlikeWalk SpecPaste Paste P_Paste SpecAppend P_Parse Append SpecRename Rename.
Import SpecPragma.
Import ListNotations.
Local Open Scope nat_scope.

(** ** Options which are no setting *)
Definition idle (os : list beancount_option) : Prop := Forall (fun o => setting_of (opt_variant o) = None) os.
Lemma idle_find s a b : idle a -> find (sets s) (a ++ b) = find (sets s) b.
Proof. intro H. induction H as [|o a Ho H IH]; [reflexivity|]. cbn [app find]. unfold sets at 1. rewrite Ho. exact IH. Qed.
Lemma idle_due a b o : idle a -> due_report (a ++ b) o = due_report b o.
Proof. intro H. unfold due_report. destruct (setting_of (opt_variant o)); [|reflexivity]. rewrite idle_find by exact H. reflexivity. Qed.
Lemma idle_assimilate a b : idle a -> forall o, fst (assimilate_all o (a ++ b)) = fst (assimilate_all o b).
Proof.
  intro H. induction H as [|x a Hx H IH]; intro o; [reflexivity|]. cbn [app assimilate_all].
  assert (Q : fst (options_assimilate o x) = o).
  { unfold options_assimilate, assimilate_field. destruct o, x as [src []]; cbn in *; try discriminate; reflexivity. }
  destruct (options_assimilate o x) as [o1 r]. cbn in Q. subst o1. specialize (IH o). destruct (assimilate_all o (a ++ b)). cbn in *. exact IH.
Qed.
Lemma under_assimilate ref l : forall o, fst (assimilate_all (under_rules_of ref o) l) = under_rules_of ref (fst (assimilate_all o l)).
Proof.
  induction l as [|x l IH]; intro o; [reflexivity|]. cbn [assimilate_all].
  assert (Q : fst (options_assimilate (under_rules_of ref o) x) = under_rules_of ref (fst (options_assimilate o x))).
  { unfold options_assimilate, assimilate_field. destruct o, x as [src []]; cbn; try reflexivity; unfold assign; match goal with |- context [match ?e with Ok _ => _ | Err _ => _ end] => destruct e end; reflexivity. }
  destruct (options_assimilate (under_rules_of ref o) x) as [o1 r], (options_assimilate o x) as [o2 r']. cbn in Q. subst o1. specialize (IH o2).
  destruct (assimilate_all (under_rules_of ref o2) l), (assimilate_all o2 l). cbn in *. exact IH.
Qed.

Section Events.
  Context (rn : str -> str) (root : option path).
  Local Notation ren := (in_place (rename_declaration rn)).
  Local Notation here := (here root).
  Lemma renamed_plain ds : Forall (fun d => is_include (item d) = false) ds -> Forall (fun d => is_include (item d) = false) (map ren ds).
  Proof. intro H. induction H as [|d ds Hd H IH]; cbn; constructor; auto. destruct d as [[x|[]] sp]; cbn in *; auto. Qed.
  Lemma renamed_tags t ds : tag_stack t (map here (map ren ds)) = tag_stack t (map here ds).
  Proof.
    unfold tag_stack. generalize (@nil (spanned str)) as st. induction ds as [|d ds IH]; intro st; [reflexivity|]. cbn [map fold_left]. rewrite IH. f_equal.
    destruct d as [[x|[]] sp]; reflexivity.
  Qed.
  Local Notation ren_push := (fun x : span * spanned meta_value => (fst x, in_place (rename_value rn) (snd x))).
  Lemma renamed_metas k ds : meta_stack k (map here (map ren ds)) = map ren_push (meta_stack k (map here ds)).
  Proof.
    unfold meta_stack. change (@nil (span * spanned meta_value)) with (map ren_push []) at 1. generalize (@nil (span * spanned meta_value)) as st.
    induction ds as [|d ds IH]; intro st; [reflexivity|]. cbn [map fold_left]. rewrite <- IH. f_equal.
    destruct d as [[x|[]] sp]; try reflexivity; cbn; destruct (str_eqb _ _); try reflexivity. destruct st; reflexivity.
  Qed.
  Lemma renamed_options ds : options_of (map here (map ren ds)) = options_of (map here ds).
  Proof. unfold options_of. induction ds as [|d ds IH]; [reflexivity|]. cbn [map flat_map]. rewrite IH. f_equal. destruct d as [[x|[]] sp]; reflexivity. Qed.
  Lemma renamed_plugins ds : plugins_of (map here (map ren ds)) = plugins_of (map here ds).
  Proof. unfold plugins_of. induction ds as [|d ds IH]; [reflexivity|]. cbn [map flat_map]. rewrite IH. f_equal. destruct d as [[x|[]] sp]; reflexivity. Qed.
  Lemma renamed_leftover ds : leftover (map here ds) [] -> leftover (map here (map ren ds)) [].
  Proof.
    rewrite !leftover_none. intros [T K]. split; intro; [rewrite renamed_tags; apply T|rewrite renamed_metas, K; reflexivity].
  Qed.

  Section After.
    Context (canonicalize : path -> option path) (A : list event) (Le : leftover A []) (Id : idle (options_of A)).
    Lemma renamed_dues ds : Forall (fun d => is_include (item d) = false) ds -> forall seen,
      dues canonicalize [] [] (map here seen) (map here ds) [] -> dues canonicalize [] [] (A ++ map here (map ren seen)) (map here (map ren ds)) [].
    Proof.
      intro F. induction F as [|d ds Ni F IH]; intros seen D; [constructor|]. cbn [map] in *. inversion D as [|? ? ? rs rs' De Dr Q1 Q2]. subst.
      match goal with H : _ ++ _ = [] |- _ => apply app_eq_nil in H; destruct H as [-> ->] end.
      change (@nil report) with (@nil report ++ []). constructor.
      - destruct d as [[x|[]] sp]; cbn in De |- *; auto; try discriminate.
        + rewrite (after_tags _ Le), renamed_tags. exact De.
        + rewrite (after_metas _ Le), renamed_metas. destruct (meta_stack (item k) (map here seen)); [discriminate|reflexivity].
        + unfold options_of at 1. rewrite flat_map_app. fold (options_of A). fold (options_of (map here (map ren seen))). rewrite idle_due, renamed_options by exact Id. exact De.
      - rewrite <- app_assoc. specialize (IH (seen ++ [d])). rewrite !map_app in IH. apply IH. exact Dr.
    Qed.
  End After.

  Lemma in_renamed (k : spanned str) v kvs : In (k, v) (map (fun x => (fst x, in_place (rename_value rn) (snd x))) kvs) <-> exists u, v = in_place (rename_value rn) u /\ In (k, u) kvs.
  Proof.
    rewrite in_map_iff. split.
    - intros ([k0 u] & Q & H). cbn in Q. injection Q as <- <-. eauto.
    - intros (u & -> & H). exists (k, u). auto.
  Qed.
  Lemma renamed_keys kvs : map (fun e : spanned str * spanned meta_value => item (fst e)) (map (fun x => (fst x, in_place (rename_value rn) (snd x))) kvs) = map (fun e => item (fst e)) kvs.
  Proof. rewrite map_map. reflexivity. Qed.
  Lemma renamed_augmented seen d d' : augmented (map here seen) d d' -> augmented (map here (map ren seen)) (rename_directive rn d) (rename_directive rn d').
  Proof.
    intros [a b c e F G H K]. constructor; cbn; auto.
    - f_equal. exact b.
    - intro t. rewrite renamed_tags. apply F.
    - intros k v. rewrite !in_renamed, renamed_keys, renamed_metas. split.
      + intros (u & -> & Hu). apply G in Hu. destruct Hu as [Hu|[N Hd]]; [left; eauto|right]. split; [exact N|]. destruct (meta_stack (item k) (map here seen)); [discriminate|]. cbn in *. injection Hd as ->. reflexivity.
      + intros [(u & -> & Hu)|[N Hd]]; [exists u; split; [reflexivity|apply G; left; exact Hu]|].
        destruct (meta_stack (item k) (map here seen)) as [|[sp u] st] eqn:X; [discriminate|]. cbn in Hd. injection Hd as -> <-. exists u. split; [reflexivity|]. apply G. right. split; [exact N|]. rewrite X. reflexivity.
    - rewrite !renamed_keys. exact K.
  Qed.
  Lemma renamed_yields ds : forall seen ys, yields (map here seen) (map here ds) ys -> yields (map here (map ren seen)) (map here (map ren ds)) (map (in_place (rename_directive rn)) ys).
  Proof.
    induction ds as [|d ds IH]; intros seen ys Y; cbn [map] in *.
    - inversion Y; subst. constructor.
    - assert (Sn : forall x, map here (map ren (seen ++ [x])) = map here (map ren seen) ++ [here (ren x)]) by (intro; rewrite !map_app; reflexivity).
      assert (Sn' : map here (seen ++ [d]) = map here seen ++ [here d]) by (rewrite map_app; reflexivity).
      inversion Y as [|? ? ? x x' ys' As Au Sp Y'|? ? ? ? As Y']; subst; rewrite <- Sn' in Y'; apply IH in Y'; rewrite Sn in Y'.
      + destruct d as [[z|[]] sp]; try discriminate. cbn in As. injection As as <-. cbn [map].
        eapply yields_directive with (d := mk_spanned (rename_directive rn z) sp); [reflexivity| |exact Sp|exact Y']. apply renamed_augmented. exact Au.
      + apply yields_other; [|exact Y']. destruct d as [[z|[]] sp]; try discriminate; reflexivity.
  Qed.
End Events.

Lemma renamed_sorted rn l out : sorted_from l out -> sorted_from (map (in_place (rename_directive rn)) l) (map (in_place (rename_directive rn)) out).
Proof.
  intros (pi & P & M & H). exists pi. split; [rewrite map_length; exact P|]. split.
  - transitivity (map (option_map (in_place (rename_directive rn))) (map (nth_error l) pi)).
    + rewrite map_map. apply map_ext. intro p. apply nth_error_map.
    + rewrite M, !map_map. reflexivity.
  - intros i j x y (Lt & Hx & Hy). rewrite nth_error_map in Hx, Hy.
    destruct (nth_error out i) as [x0|] eqn:X; [|discriminate]. destruct (nth_error out j) as [y0|] eqn:Y; [|discriminate]. cbn in Hx, Hy. injection Hx as <-. injection Hy as <-.
    destruct (H i j x0 y0 (conj Lt (conj X Y))) as [A B]. 
    assert (MP : forall u v, must_precede (rename_directive rn u) (rename_directive rn v) <-> must_precede u v).
    { assert (O : forall d, is_open (rename_directive rn d) <-> is_open d).
      { intros [? ? v]. unfold is_open. cbn. destruct v; cbn; split; intros H0; repeat match goal with H1 : exists _, _ |- _ => destruct H1 end; try discriminate; eauto. }
      assert (Bl : forall d, is_balance (rename_directive rn d) <-> is_balance d).
      { intros [? ? v]. unfold is_balance. cbn. destruct v; cbn; split; intros H0; repeat match goal with H1 : exists _, _ |- _ => destruct H1 end; try discriminate; eauto. }
      intros u v. unfold must_precede. rewrite !O, !Bl. reflexivity. }
    cbn. split; [rewrite MP; exact A|]. intro T. apply B. unfold tied in *. rewrite !MP in T. exact T.
Qed.
Lemma sorted_again l out m : sorted_from l out -> sorted_from out m -> m = out.
Proof.
  intros A B. assert (N : sorted_from [] []).
  { exists []. split; [constructor|]. split; [reflexivity|]. intros i j x y (_ & H & _). destruct i; discriminate. }
  assert (X : sorted_from (l ++ []) m) by (eapply sorted_parts; [exact A|exact N|rewrite app_nil_r; exact B]). rewrite app_nil_r in X. exact (sorted_from_unique _ _ _ X A).
Qed.
