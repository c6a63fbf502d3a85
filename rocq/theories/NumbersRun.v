(** * Facts for C86: what becomes of declarations in which numbers are replaced *)
From Coq Require Import String Ascii.
From Coq Require Import List NArith ZArith Arith Bool Lia Permutation.
From Verif Require Import Base BaseFacts Path Sources Types SpecTypes SpecSort Options SpecOptions OptionsFacts Pragma SpecPragma PragmaRun Token Grammar SpecGrammar SpecWhole Parse SpecParse
  AlikeWalk SpecPaste Paste P_Paste SpecAppend P_Parse Append SpecRename SpecNumbers Numbers.
Import SpecPragma.
Import ListNotations.
Local Open Scope nat_scope.

Section Events.
  Context (E : grammar_env) (nu : decimal -> decimal) (root : option path).
  Local Notation ren := (in_place (number_declaration E nu)).
  Local Notation here := (here root).
  Lemma numbered_plain ds : Forall (fun d => is_include (item d) = false) ds -> Forall (fun d => is_include (item d) = false) (map ren ds).
  Proof. intro H. induction H as [|d ds Hd H IH]; cbn; constructor; auto. destruct d as [[x|[]] sp]; cbn in *; auto. Qed.
  Lemma numbered_tags t ds : tag_stack t (map here (map ren ds)) = tag_stack t (map here ds).
  Proof.
    unfold tag_stack. generalize (@nil (spanned str)) as st. induction ds as [|d ds IH]; intro st; [reflexivity|]. cbn [map fold_left]. rewrite IH. f_equal.
    destruct d as [[x|[]] sp]; reflexivity.
  Qed.
  Local Notation ren_push := (fun x : span * spanned meta_value => (fst x, in_place (number_meta (g_ops E) nu) (snd x))).
  Lemma numbered_metas k ds : meta_stack k (map here (map ren ds)) = map ren_push (meta_stack k (map here ds)).
  Proof.
    unfold meta_stack. change (@nil (span * spanned meta_value)) with (map ren_push []) at 1. generalize (@nil (span * spanned meta_value)) as st.
    induction ds as [|d ds IH]; intro st; [reflexivity|]. cbn [map fold_left]. rewrite <- IH. f_equal.
    destruct d as [[x|[]] sp]; try reflexivity; cbn; destruct (str_eqb _ _); try reflexivity. destruct st; reflexivity.
  Qed.
  Lemma numbered_options ds : options_of (map here (map ren ds)) = options_of (map here ds).
  Proof. unfold options_of. induction ds as [|d ds IH]; [reflexivity|]. cbn [map flat_map]. rewrite IH. f_equal. destruct d as [[x|[]] sp]; reflexivity. Qed.
  Lemma numbered_plugins ds : plugins_of (map here (map ren ds)) = plugins_of (map here ds).
  Proof. unfold plugins_of. induction ds as [|d ds IH]; [reflexivity|]. cbn [map flat_map]. rewrite IH. f_equal. destruct d as [[x|[]] sp]; reflexivity. Qed.
  Lemma numbered_leftover ds : leftover (map here ds) [] -> leftover (map here (map ren ds)) [].
  Proof.
    rewrite !leftover_none. intros [T K]. split; intro; [rewrite numbered_tags; apply T|rewrite numbered_metas, K; reflexivity].
  Qed.

  Lemma numbered_dues canonicalize ds : Forall (fun d => is_include (item d) = false) ds -> forall seen,
    dues canonicalize [] [] (map here seen) (map here ds) [] -> dues canonicalize [] [] (map here (map ren seen)) (map here (map ren ds)) [].
  Proof.
    intro F. induction F as [|d ds Ni F IH]; intros seen D; [constructor|]. cbn [map] in *. inversion D as [|? ? ? rs rs' De Dr Q1 Q2]. subst.
    match goal with H : _ ++ _ = [] |- _ => apply app_eq_nil in H; destruct H as [-> ->] end.
    change (@nil report) with (@nil report ++ []). constructor.
    - destruct d as [[x|[]] sp]; cbn in De |- *; auto; try discriminate.
      + rewrite numbered_tags. exact De.
      + rewrite numbered_metas. destruct (meta_stack (item k) (map here seen)); [discriminate|reflexivity].
      + rewrite numbered_options. exact De.
    - specialize (IH (seen ++ [d])). rewrite !map_app in IH. apply IH. exact Dr.
  Qed.

  Lemma in_numbered (k : spanned str) v kvs : In (k, v) (map (fun x => (fst x, in_place (number_meta (g_ops E) nu) (snd x))) kvs) <-> exists u, v = in_place (number_meta (g_ops E) nu) u /\ In (k, u) kvs.
  Proof.
    rewrite in_map_iff. split.
    - intros ([k0 u] & Q & H). cbn in Q. injection Q as <- <-. eauto.
    - intros (u & -> & H). exists (k, u). auto.
  Qed.
  Lemma numbered_keys kvs : map (fun e : spanned str * spanned meta_value => item (fst e)) (map (fun x => (fst x, in_place (number_meta (g_ops E) nu) (snd x))) kvs) = map (fun e => item (fst e)) kvs.
  Proof. rewrite map_map. reflexivity. Qed.
  Lemma numbered_augmented seen d d' : augmented (map here seen) d d' -> augmented (map here (map ren seen)) (number_directive (g_ops E) nu d) (number_directive (g_ops E) nu d').
  Proof.
    intros [a b c e F G H K]. constructor; cbn; auto.
    - f_equal. exact b.
    - intro t. rewrite numbered_tags. apply F.
    - intros k v. rewrite !in_numbered, numbered_keys, numbered_metas. split.
      + intros (u & -> & Hu). apply G in Hu. destruct Hu as [Hu|[N Hd]]; [left; eauto|right]. split; [exact N|]. destruct (meta_stack (item k) (map here seen)); [discriminate|]. cbn in *. injection Hd as ->. reflexivity.
      + intros [(u & -> & Hu)|[N Hd]]; [exists u; split; [reflexivity|apply G; left; exact Hu]|].
        destruct (meta_stack (item k) (map here seen)) as [|[sp u] st] eqn:X; [discriminate|]. cbn in Hd. injection Hd as -> <-. exists u. split; [reflexivity|]. apply G. right. split; [exact N|]. rewrite X. reflexivity.
    - rewrite !numbered_keys. exact K.
  Qed.
  Lemma numbered_yields ds : forall seen ys, yields (map here seen) (map here ds) ys -> yields (map here (map ren seen)) (map here (map ren ds)) (map (in_place (number_directive (g_ops E) nu)) ys).
  Proof.
    induction ds as [|d ds IH]; intros seen ys Y; cbn [map] in *.
    - inversion Y; subst. constructor.
    - assert (Sn : forall x, map here (map ren (seen ++ [x])) = map here (map ren seen) ++ [here (ren x)]) by (intro; rewrite !map_app; reflexivity).
      assert (Sn' : map here (seen ++ [d]) = map here seen ++ [here d]) by (rewrite map_app; reflexivity).
      inversion Y as [|? ? ? x x' ys' As Au Sp Y'|? ? ? ? As Y']; subst; rewrite <- Sn' in Y'; apply IH in Y'; rewrite Sn in Y'.
      + destruct d as [[z|[]] sp]; try discriminate. cbn in As. injection As as <-. cbn [map].
        eapply yields_directive with (d := mk_spanned (number_directive (g_ops E) nu z) sp); [reflexivity| |exact Sp|exact Y']. apply numbered_augmented. exact Au.
      + apply yields_other; [|exact Y']. destruct d as [[z|[]] sp]; try discriminate; reflexivity.
  Qed.
End Events.

Lemma numbered_sorted E nu l out : sorted_from l out -> sorted_from (map (in_place (number_directive (g_ops E) nu)) l) (map (in_place (number_directive (g_ops E) nu)) out).
Proof.
  intros (pi & P & M & H). exists pi. split; [rewrite map_length; exact P|]. split.
  - transitivity (map (option_map (in_place (number_directive (g_ops E) nu))) (map (nth_error l) pi)).
    + rewrite map_map. apply map_ext. intro p. apply nth_error_map.
    + rewrite M, !map_map. reflexivity.
  - intros i j x y (Lt & Hx & Hy). rewrite nth_error_map in Hx, Hy.
    destruct (nth_error out i) as [x0|] eqn:X; [|discriminate]. destruct (nth_error out j) as [y0|] eqn:Y; [|discriminate]. cbn in Hx, Hy. injection Hx as <-. injection Hy as <-.
    destruct (H i j x0 y0 (conj Lt (conj X Y))) as [A B]. 
    assert (MP : forall u v, must_precede (number_directive (g_ops E) nu u) (number_directive (g_ops E) nu v) <-> must_precede u v).
    { assert (O : forall d, is_open (number_directive (g_ops E) nu d) <-> is_open d).
      { intros [? ? v]. unfold is_open. cbn. destruct v; cbn; split; intros H0; repeat match goal with H1 : exists _, _ |- _ => destruct H1 end; try discriminate; eauto. }
      assert (Bl : forall d, is_balance (number_directive (g_ops E) nu d) <-> is_balance d).
      { intros [? ? v]. unfold is_balance. cbn. destruct v; cbn; split; intros H0; repeat match goal with H1 : exists _, _ |- _ => destruct H1 end; try discriminate; eauto. }
      intros u v. unfold must_precede. rewrite !O, !Bl. reflexivity. }
    cbn. split; [rewrite MP; exact A|]. intro T. apply B. unfold tied in *. rewrite !MP in T. exact T.
Qed.
