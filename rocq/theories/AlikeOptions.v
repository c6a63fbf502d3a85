(** * The same options in other places, and reading files with the same tokens *)
From Coq Require Import String Ascii.
From Coq Require Import List NArith ZArith Arith Bool Lia Permutation.
From Verif Require Import Base BaseFacts Text Path SpecPath PathFacts Sources Types Options SpecOptions OptionsFacts P_Options Pragma Read SpecRead
  Token Lexer Grammar SpecGrammar SpecDisplay SpecLedger Parse SpecParse P_Includes SpecAlike AlikeRead.
Import ListNotations.
Local Open Scope nat_scope.

(** ** Options *)

Record alike_fields (o o' : options) : Prop := {
  af_title : same_value_of (os_title o) (os_title o');
  af_subaccount : forall w, same_value_of (os_subaccount o w) (os_subaccount o' w);
  af_conversion : same_value_of (os_conversion_currency o) (os_conversion_currency o');
  af_tolerance : map (fun x => (fst x, fst (snd x))) (os_tolerance_default o) = map (fun x => (fst x, fst (snd x))) (os_tolerance_default o');
  af_multiplier : same_value_of (os_tolerance_multiplier o) (os_tolerance_multiplier o');
  af_from_cost : same_value_of (os_tolerance_from_cost o) (os_tolerance_from_cost o');
  af_documents : map fst (os_documents o) = map fst (os_documents o');
  af_operating : map fst (os_operating_currency o) = map fst (os_operating_currency o');
  af_commas : same_value_of (os_render_commas o) (os_render_commas o');
  af_booking : same_value_of (os_booking_method o) (os_booking_method o');
  af_mode : same_value_of (os_plugin_mode o) (os_plugin_mode o')
}.

Lemma lookup_shape {K V W} (f : V -> W) (eqb : K -> K -> bool) k (m m' : list (K * V)) :
  map (fun x => (fst x, f (snd x))) m = map (fun x => (fst x, f (snd x))) m' -> (lookup eqb k m = None <-> lookup eqb k m' = None).
Proof.
  revert m'. induction m as [|[a v] m IH]; intros [|[b w] m'] Q; try discriminate; [tauto|]. cbn in Q. injection Q as -> _ Q. cbn. destruct (eqb k b); [split; discriminate|auto].
Qed.
Lemma insert_shape {K V W} (f : V -> W) (eqb : K -> K -> bool) k v v' (m m' : list (K * V)) : f v = f v' -> lookup eqb k m = None ->
  map (fun x => (fst x, f (snd x))) m = map (fun x => (fst x, f (snd x))) m' ->
  map (fun x => (fst x, f (snd x))) (insert eqb k v m) = map (fun x => (fst x, f (snd x))) (insert eqb k v' m').
Proof.
  intros Qv No Q. unfold insert. rewrite No, (proj1 (lookup_shape f eqb k m m' Q) No), !map_app, Q. cbn. rewrite Qv. reflexivity.
Qed.

Definition alike_update {A} (Q : A -> A -> Prop) (x y : result A dup_error) : Prop :=
  match x, y with Ok a, Ok b => Q a b | Err _, Err _ => True | _, _ => False end.
Lemma alike_optional {A} (f g : option (sourced A)) v s s' : same_value_of f g -> alike_update same_value_of (update_optional f v s) (update_optional g v s').
Proof. unfold same_value_of. destruct f, g; cbn; intro H; try discriminate; auto. Qed.
Lemma alike_hashmap {K V} (eqb : K -> K -> bool) (f g : list (K * (V * option_source))) k v s s' :
  map (fun x => (fst x, fst (snd x))) f = map (fun x => (fst x, fst (snd x))) g ->
  alike_update (fun a b => map (fun x => (fst x, fst (snd x))) a = map (fun x => (fst x, fst (snd x))) b) (update_hashmap eqb f k v s) (update_hashmap eqb g k v s').
Proof.
  intro Q. unfold update_hashmap. pose proof (lookup_shape fst eqb k f g Q) as H.
  destruct (lookup eqb k f) as [[? ?]|] eqn:X, (lookup eqb k g) as [[? ?]|]; cbn; auto; try (exfalso; destruct H as [H H']; now (discriminate H || discriminate H' || (specialize (H eq_refl); discriminate) || (specialize (H' eq_refl); discriminate))).
  apply (insert_shape fst eqb k (v, s) (v, s') f g); auto.
Qed.
Lemma unit_shape {K V} (m m' : list (K * V)) : map fst m = map fst m' <-> map (fun x => (fst x, tt)) m = map (fun x => (fst x, tt)) m'.
Proof.
  split; revert m'; induction m as [|[a v] m IH]; intros [|[b w] m'] Q; try discriminate; cbn in *; auto; injection Q as -> Q; f_equal; apply IH; exact Q.
Qed.
Lemma alike_unit_hashmap {K} (eqb : K -> K -> bool) (f g : list (K * option_source)) k s s' :
  map fst f = map fst g -> alike_update (fun a b => map fst a = map fst b) (update_unit_hashmap eqb f k s) (update_unit_hashmap eqb g k s').
Proof.
  intro Q. apply unit_shape in Q. unfold update_unit_hashmap. pose proof (lookup_shape (fun _ => tt) eqb k f g Q) as H.
  destruct (lookup eqb k f) as [?|] eqn:X, (lookup eqb k g) as [?|]; cbn; auto; try (exfalso; destruct H as [H H']; now (discriminate H || discriminate H' || (specialize (H eq_refl); discriminate) || (specialize (H' eq_refl); discriminate))).
  apply unit_shape. apply (insert_shape (fun _ => tt) eqb k s s' f g); auto.
Qed.

Lemma alike_assimilate o o' x y : alike_fields o o' -> opt_variant x = opt_variant y -> alike_fields (fst (options_assimilate o x)) (fst (options_assimilate o' y)).
Proof.
  intros A Q. unfold options_assimilate.
  assert (H : alike_fields (fst (assimilate_field o x)) (fst (assimilate_field o' y))); [|destruct (assimilate_field o x), (assimilate_field o' y); exact H].
  destruct o as [ti su cc td tm tc doc oc rc bm pm po], o' as [ti' su' cc' td' tm' tc' doc' oc' rc' bm' pm' po'].
  pose proof A as [A1 A2 A3 A4 A5 A6 A7 A8 A9 A10 A11]. cbn in A1, A2, A3, A4, A5, A6, A7, A8, A9, A10, A11.
  unfold assimilate_field. rewrite Q. generalize (opt_source x) as s, (opt_source y) as s'. intros s s'.
  destruct (opt_variant y) as [v|t n|w v|v|c d|v|v|p|v|v|n|v|v| |]; try exact A.
  - pose proof (alike_optional ti ti' v s s' A1) as H. destruct (update_optional ti v s), (update_optional ti' v s'); cbn in *; try contradiction; try exact A. constructor; cbn; auto.
  - pose proof (alike_optional (su w) (su' w) v s s' (A2 w)) as H. destruct (update_optional (su w) v s), (update_optional (su' w) v s'); cbn in *; try contradiction; try exact A. constructor; cbn; auto.
    intro w'. destruct (subaccount_eqb w' w); auto.
  - pose proof (alike_optional cc cc' v s s' A3) as H. destruct (update_optional cc v s), (update_optional cc' v s'); cbn in *; try contradiction; try exact A. constructor; cbn; auto.
  - pose proof (alike_hashmap currency_or_any_eqb td td' c d s s' A4) as H. destruct (update_hashmap currency_or_any_eqb td c d s), (update_hashmap currency_or_any_eqb td' c d s'); cbn in *; try contradiction; try exact A. constructor; cbn; auto.
  - pose proof (alike_optional tm tm' v s s' A5) as H. destruct (update_optional tm v s), (update_optional tm' v s'); cbn in *; try contradiction; try exact A. constructor; cbn; auto.
  - pose proof (alike_optional tc tc' v s s' A6) as H. destruct (update_optional tc v s), (update_optional tc' v s'); cbn in *; try contradiction; try exact A. constructor; cbn; auto.
  - pose proof (alike_unit_hashmap path_eqb doc doc' p s s' A7) as H. destruct (update_unit_hashmap path_eqb doc p s), (update_unit_hashmap path_eqb doc' p s'); cbn in *; try contradiction; try exact A. constructor; cbn; auto.
  - pose proof (alike_unit_hashmap str_eqb oc oc' v s s' A8) as H. destruct (update_unit_hashmap str_eqb oc v s), (update_unit_hashmap str_eqb oc' v s'); cbn in *; try contradiction; try exact A. constructor; cbn; auto.
  - pose proof (alike_optional rc rc' v s s' A9) as H. destruct (update_optional rc v s), (update_optional rc' v s'); cbn in *; try contradiction; try exact A. constructor; cbn; auto.
  - pose proof (alike_optional bm bm' v s s' A10) as H. destruct (update_optional bm v s), (update_optional bm' v s'); cbn in *; try contradiction; try exact A. constructor; cbn; auto.
  - pose proof (alike_optional pm pm' v s s' A11) as H. destruct (update_optional pm v s), (update_optional pm' v s'); cbn in *; try contradiction; try exact A. constructor; cbn; auto.
Qed.

Lemma alike_assimilate_all l : forall l' o o', map opt_variant l = map opt_variant l' -> alike_fields o o' -> alike_fields (fst (assimilate_all o l)) (fst (assimilate_all o' l')).
Proof.
  induction l as [|x l IH]; intros [|y l'] o o' Q A; try discriminate; [exact A|]. cbn in Q. injection Q as Q0 Q. cbn [assimilate_all].
  pose proof (alike_assimilate o o' x y A Q0) as A1. destruct (options_assimilate o x) as [o1 r1], (options_assimilate o' y) as [o1' r1']. cbn [fst] in A1.
  pose proof (IH _ _ _ Q A1) as A2. destruct (assimilate_all o1 l), (assimilate_all o1' l'). exact A2.
Qed.
Lemma alike_fields_new po po' : alike_fields (options_new po) (options_new po').
Proof. constructor; cbn; auto; reflexivity. Qed.

(** ** Reading *)

Lemma included_same I J : map fst (in_tokens I) = map fst (in_tokens J) -> included_strings I = included_strings J.
Proof.
  intro Q. unfold included_strings. assert (Ln : List.length (in_tokens I) = List.length (in_tokens J)) by (rewrite <- (map_length fst (in_tokens I)), Q; apply map_length). rewrite Ln.
  apply flat_map_ext. intro i. unfold included_at.
  assert (T : forall j, option_map fst (nth_error (in_tokens I) j) = option_map fst (nth_error (in_tokens J) j)).
  { intro j. pose proof (f_equal (fun l => nth_error l j) Q) as H. cbn beta in H. rewrite !nth_error_map in H. exact H. }
  pose proof (T i) as T0. pose proof (T (S i)) as T1.
  destruct (nth_error (in_tokens I) i) as [[t0 ?]|], (nth_error (in_tokens J) i) as [[t0' ?]|]; try discriminate; try reflexivity. cbn in T0. injection T0 as <-.
  destruct (nth_error (in_tokens I) (S i)) as [[t1 ?]|], (nth_error (in_tokens J) (S i)) as [[t1' ?]|]; try discriminate; try reflexivity. cbn in T1. injection T1 as <-. reflexivity.
Qed.
Lemma included_ended I J : map fst (in_tokens J) = map fst (in_tokens I) ++ [T_Eol] -> included_strings J = included_strings I.
Proof.
  intro Q. unfold included_strings. assert (Ln : List.length (in_tokens J) = List.length (in_tokens I) + 1) by (rewrite <- (map_length fst (in_tokens J)), Q, app_length, map_length; reflexivity). rewrite Ln.
  assert (T : forall j, j < List.length (in_tokens I) -> option_map fst (nth_error (in_tokens J) j) = option_map fst (nth_error (in_tokens I) j)).
  { intros j Hj. pose proof (f_equal (fun l => nth_error l j) Q) as H. cbn beta in H. rewrite nth_error_app1, !nth_error_map in H by (rewrite map_length; exact Hj). exact H. }
  assert (Te : option_map fst (nth_error (in_tokens J) (List.length (in_tokens I))) = Some T_Eol).
  { pose proof (f_equal (fun l => nth_error l (List.length (in_tokens I))) Q) as H. cbn beta in H. rewrite nth_error_app2, map_length, Nat.sub_diag, nth_error_map in H by (rewrite map_length; lia). exact H. }
  rewrite seq_app, flat_map_app. cbn [seq flat_map Nat.add]. rewrite app_nil_r.
  assert (Z : included_at J (List.length (in_tokens I)) = []).
  { unfold included_at. destruct (nth_error (in_tokens J) (List.length (in_tokens I))) as [[t ?]|]; [|discriminate]. cbn in Te. injection Te as ->. reflexivity. }
  rewrite Z, app_nil_r. 
  assert (F : forall f g : nat -> list str, (forall i, i < List.length (in_tokens I) -> f i = g i) -> flat_map f (seq 0 (List.length (in_tokens I))) = flat_map g (seq 0 (List.length (in_tokens I)))).
  { intros f g H. assert (H' : Forall (fun i => f i = g i) (seq 0 (List.length (in_tokens I)))) by (apply Forall_forall; intros i Hi; apply in_seq in Hi; apply H; lia).
    induction H' as [|i l Hi F IH]; [reflexivity|]. cbn. rewrite Hi, IH. reflexivity. }
  apply F. intros i Hi. unfold included_at. pose proof (T i Hi) as T0.
  destruct (nth_error (in_tokens J) i) as [[t0 ?]|], (nth_error (in_tokens I) i) as [[t0' ?]|]; try discriminate; try reflexivity. cbn in T0. injection T0 as <-.
  destruct (Nat.eq_dec (S i) (List.length (in_tokens I))) as [Y|Y].
  - rewrite Y. assert (N : nth_error (in_tokens I) (List.length (in_tokens I)) = None) by (apply nth_error_None; lia). rewrite N.
    destruct (nth_error (in_tokens J) (List.length (in_tokens I))) as [[t ?]|]; [|discriminate]. cbn in Te. injection Te as ->. destruct t0 as []; try reflexivity; destruct k; reflexivity.
  - pose proof (T (S i) ltac:(lia)) as T1.
    destruct (nth_error (in_tokens J) (S i)) as [[t1 ?]|], (nth_error (in_tokens I) (S i)) as [[t1' ?]|]; try discriminate; try reflexivity. cbn in T1. injection T1 as <-. reflexivity.
Qed.
Lemma same_includes L c c' : alike_text L c c' -> includes_of L c = includes_of L c'.
Proof.
  intros [<-|(ts & ts' & Lx & Lx' & Q)]; [reflexivity|]. unfold includes_of. rewrite !C38_includes, Lx, Lx'.
  change (included_strings (input_of 0 c ts) = included_strings (input_of 0 c' ts')).
  remember (map fst ts) as a eqn:A. remember (map fst ts') as b eqn:B. destruct Q as [us|us t Nt|us t Nt].
  - apply included_same. cbn. congruence.
  - symmetry. apply included_ended. cbn. rewrite <- A, <- B, <- app_assoc. reflexivity.
  - apply included_ended. cbn. rewrite <- A, <- B, <- app_assoc. reflexivity.
Qed.

Section Reading.
  Context (L : lexer_env) (glob_with : str -> result (list glob_item) str) (canonicalize : path -> option path).
  Context (read read' : path -> result str str).
  Context (T : str -> str -> Prop) (Inc : forall c c', T c c' -> includes_of L c = includes_of L c').
  Context (Same : same_reading T read read').

  Definition alike_source (x y : path * included_source) : Prop := fst x = fst y /\
    match snd x, snd y with
    | Content id c _, Content id' c' _ => id = id' /\ T c c'
    | SourceError e, SourceError e' => e = e'
    | Duplicate, Duplicate => True
    | _, _ => False
    end.
  Record alike_reading (a b : reading) : Prop := {
    al_names : rd_names a = rd_names b;
    al_pending : rd_pending a = rd_pending b;
    al_globs : rd_globs a = rd_globs b;
    al_content : Forall2 alike_source (rd_content a) (rd_content b);
    al_canonical : rd_canonical a = rd_canonical b
  }.
  Lemma alike_lookup p l l' : Forall2 alike_source l l' -> (lookup path_eqb p l = None <-> lookup path_eqb p l' = None).
  Proof.
    induction 1 as [|[a v] [b w] l l' [Q _] F IH]; [tauto|]. cbn in Q. subst b. cbn. destruct (path_eqb p a); [split; discriminate|exact IH].
  Qed.
  Lemma alike_insert p v w l l' : Forall2 alike_source l l' -> alike_source (p, v) (p, w) -> Forall2 alike_source (insert path_eqb p v l) (insert path_eqb p w l').
  Proof.
    intros F A. unfold insert. pose proof (alike_lookup p l l' F) as H.
    assert (Re : Forall2 alike_source (replace_val path_eqb p v l) (replace_val path_eqb p w l')).
    { clear H. induction F as [|[a x] [b y] l l' [Q R] F IH]; [constructor|]. cbn in Q. subst b. cbn. destruct (path_eqb p a); constructor; auto; [|split; auto].
      destruct A as [_ A]. split; [reflexivity|exact A]. }
    destruct (lookup path_eqb p l), (lookup path_eqb p l'); auto.
    - destruct H as [_ H]. discriminate (H eq_refl).
    - destruct H as [H _]. discriminate (H eq_refl).
    - apply Forall2_app; auto.
  Qed.
  Lemma alike_item a b i : alike_reading a b -> alike_reading (read_item (includes_of L) canonicalize read a i) (read_item (includes_of L) canonicalize read' b i).
  Proof.
    intros [A1 A2 A3 A4 A5]. destruct i as [p|p e]; cbn.
    - destruct (canonicalize p) as [c|]; [|constructor; assumption]. rewrite A5. destruct (mem path_eqb c (rd_canonical b)).
      + constructor; cbn; auto. pose proof (alike_lookup p _ _ A4) as H.
        destruct (lookup path_eqb p (rd_content a)), (lookup path_eqb p (rd_content b)); auto.
        * destruct H as [_ H]. discriminate (H eq_refl).
        * destruct H as [H _]. discriminate (H eq_refl).
        * apply alike_insert; [exact A4|]. split; [reflexivity|exact Logic.I].
      + pose proof (Same p) as Sp. rewrite A1. destruct (read p) as [c1|e1], (read' p) as [c2|e2]; try contradiction.
        * constructor; cbn; try congruence; auto.
          { rewrite A2. unfold resolved_includes. rewrite (Inc _ _ Sp). reflexivity. }
          { apply alike_insert; [exact A4|]. split; [reflexivity|split; [reflexivity|exact Sp]]. }
        * subst e2. constructor; cbn; try congruence; auto.
          apply alike_insert; [exact A4|]. split; reflexivity.
    - constructor; cbn; auto. apply alike_insert; [exact A4|]. split; reflexivity.
  Qed.
  Lemma alike_items l : forall a b, alike_reading a b ->
    alike_reading (fold_left (read_item (includes_of L) canonicalize read) l a) (fold_left (read_item (includes_of L) canonicalize read') l b).
  Proof. induction l as [|i l IH]; intros a b A; [exact A|]. cbn. apply IH. apply alike_item. exact A. Qed.
  Lemma alike_read_include a b q : alike_reading a b ->
    alike_reading (read_include (includes_of L) glob_with canonicalize read a q) (read_include (includes_of L) glob_with canonicalize read' b q).
  Proof.
    intro A. unfold read_include. destruct (glob_with q) as [items|e].
    - pose proof (alike_items items a b A) as [A1 A2 A3 A4 A5]. constructor; cbn; congruence || auto.
    - destruct A as [A1 A2 A3 A4 A5]. constructor; cbn; congruence || auto.
  Qed.
  Lemma alike_loop n : forall a b, alike_reading a b ->
    match read_loop (includes_of L) glob_with canonicalize read n a, read_loop (includes_of L) glob_with canonicalize read' n b with
    | Some x, Some y => alike_reading x y
    | None, None => True
    | _, _ => False
    end.
  Proof.
    induction n as [|n IH]; intros a b A; cbn; rewrite (al_pending _ _ A); destruct (rd_pending b) as [|q rest]; auto.
    apply IH. apply alike_read_include. destruct A as [A1 A2 A3 A4 A5]. constructor; cbn; auto.
  Qed.
  Lemma alike_content_iter (l l' : list (path * included_source)) : Forall2 alike_source l l' ->
    Forall2 (fun x y => fst x = fst y /\ T (snd x) (snd y))
      (flat_map (fun '(p, src) => match src with Content id c _ => [(id, Some p, c)] | _ => [] end) l)
      (flat_map (fun '(p, src) => match src with Content id c _ => [(id, Some p, c)] | _ => [] end) l').
  Proof.
    induction 1 as [|[a x] [b y] l l' [Q R] F IH]; [constructor|]. cbn in Q, R. subst b. cbn [flat_map]. apply Forall2_app; [|exact IH].
    destruct x, y; try contradiction; constructor; [|constructor]. cbn. destruct R as [-> R]. auto.
  Qed.
  Lemma alike_error_paths (l l' : list (path * included_source)) : Forall2 alike_source l l' ->
    flat_map (fun '(p, src) => match src with SourceError e => [(Some p, e)] | _ => [] end) l =
    flat_map (fun '(p, src) => match src with SourceError e => [(Some p, e)] | _ => [] end) l'.
  Proof.
    induction 1 as [|[a x] [b y] l l' [Q R] F IH]; [reflexivity|]. cbn in Q, R. subst b. cbn [flat_map]. rewrite IH. f_equal. destruct x, y; try contradiction; congruence.
  Qed.
  Lemma alike_read fuel root content content' : T content content' ->
    match read_with_includes (includes_of L) glob_with canonicalize read fuel root content, read_with_includes (includes_of L) glob_with canonicalize read' fuel root content' with
    | Some s, Some s' => same_sources T s s' /\ source_id_strings s = source_id_strings s'
    | None, None => True
    | _, _ => False
    end.
  Proof.
    intro Tc. unfold read_with_includes.
    assert (A : alike_reading (read_start (includes_of L) canonicalize root content) (read_start (includes_of L) canonicalize root content')).
    { unfold read_start, resolved_includes. rewrite (Inc _ _ Tc). constructor; cbn; auto. }
    pose proof (alike_loop fuel _ _ A) as H.
    destruct (read_loop (includes_of L) glob_with canonicalize read fuel _) as [x|], (read_loop (includes_of L) glob_with canonicalize read' fuel _) as [y|]; auto.
    destruct H as [A1 A2 A3 A4 A5]. split; [|exact A1]. constructor; cbn; auto.
    - apply alike_error_paths. exact A4.
    - constructor; [cbn; auto|]. apply alike_content_iter. exact A4.
  Qed.
End Reading.
