(** * Displayed directives are read as what they were *)
From Coq Require Import String Ascii.
From Coq Require Import List NArith ZArith Arith Bool Lia Permutation.
From Verif Require Import Base BaseFacts Types SpecTypes Decimal SpecDecimal Cost SpecCost Token Lexer SpecLexer Peg Grammar SpecExpr Display SpecDisplay
  PegFacts PragmaFacts ExprFacts P_Arith DisplayLex DisplayText DisplayDirective DisplayLexed SpecGrammar SpecDirective.
Import ListNotations.
Local Open Scope nat_scope.

(** ** Lists *)
Lemma forall2_perm {A B} (R : A -> B -> Prop) b c : Permutation b c -> forall a, Forall2 R a b ->
  exists a', Permutation a a' /\ Forall2 R a' c.
Proof.
  induction 1 as [|x l l' P IH|x y l|l l' l'' P IH P' IH']; intros a F.
  - inversion F; subst. exists []. auto.
  - inversion F as [|u ? a0 ? Ru Fa]; subst. destruct (IH _ Fa) as (a' & Pa & F'). exists (u :: a'). auto.
  - inversion F as [|u ? a0 ? Ru Fa]; subst. inversion Fa as [|v ? a1 ? Rv Fb]; subst. exists (v :: u :: a1). split; [constructor|auto].
  - destruct (IH _ F) as (a' & Pa & F'). destruct (IH' _ F') as (a'' & Pa' & F''). exists a''. split; [etransitivity; eassumption|exact F''].
Qed.
Lemma same_elements_order {A} (R : A -> A -> Prop) l m k n : Permutation l m -> Forall2 R m k -> Permutation k n -> same_elements R l n.
Proof.
  intros P F Q. destruct (forall2_perm R k n Q m F) as (m' & P' & F'). exists m'. split; [etransitivity; eassumption|exact F'].
Qed.
Lemma dedup_all {A} (label : A -> problem) l : forall seen, NoDup (map label l) -> (forall x, In x l -> ~ In (label x) seen) -> dedup label seen l l [].
Proof.
  induction l as [|x l IH]; intros seen N S; [constructor|]. cbn in N. inversion N as [|? ? Nx Nl]; subst.
  apply dedup_new; [apply S; left; reflexivity|]. apply IH; [exact Nl|]. intros y Hy [X|X].
  - apply Nx. rewrite X. apply in_map. exact Hy.
  - apply (S y); [right; exact Hy|exact X].
Qed.
Lemma dedup_fresh {A} (label : A -> problem) l : NoDup (map label l) -> dedup label [] l l [].
Proof. intro N. apply dedup_all; auto. Qed.
Lemma nodup_map_inj {A B} (f : A -> B) l : (forall x y, f x = f y -> x = y) -> NoDup l -> NoDup (map f l).
Proof. intros Inj N. apply FinFun.Injective_map_NoDup; [exact Inj|exact N]. Qed.
Lemma forall2_map {A B C} (R : A -> B -> Prop) (f : A -> C) (g : B -> C) a b : (forall x y, R x y -> f x = g y) -> Forall2 R a b -> map f a = map g b.
Proof. intros H F. induction F as [|x y a b Rx F IH]; cbn; [reflexivity|]. f_equal; auto. Qed.

(** The end of each line. *)
Definition as_line (l : list token) : list token := T_Indent :: l ++ [T_Eol].
Lemma as_lines ls : flat_map (fun l => T_Eol :: T_Indent :: l) ls ++ [T_Eol] = T_Eol :: flat_map as_line ls.
Proof.
  induction ls as [|l ls IH]; [reflexivity|]. cbn [flat_map]. rewrite <- app_assoc, IH. unfold as_line. cbn [app]. rewrite <- app_assoc. reflexivity.
Qed.

(** ** Metadata, item by item *)
Definition alike_metadatum (a b : metadatum) : Prop :=
  match a, b with
  | MD_Tag t, MD_Tag t' => same_item t t'
  | MD_Link t, MD_Link t' => same_item t t'
  | MD_KeyValue x, MD_KeyValue y =>
      same_item (mkv_key (item x)) (mkv_key (item y)) /\ alike_meta_value (item (mkv_value (item x))) (item (mkv_value (item y)))
  | _, _ => False
  end.
Lemma alike_label a b : alike_metadatum a b -> metadatum_label a = metadatum_label b.
Proof. destruct a, b; cbn; try contradiction; unfold same_item; [intros [-> _]|intros ->|intros ->]; reflexivity. Qed.
Definition as_kv (kv : spanned str * spanned meta_value) : metadatum := MD_KeyValue (mk_spanned (mk_mkv (fst kv) (snd kv)) (span_of (fst kv))).
Definition marks_of (tags links : list (spanned str)) : list metadatum := map MD_Tag tags ++ map MD_Link links.
Definition items_of (tags links : list (spanned str)) (kvs : list (spanned str * spanned meta_value)) : list metadatum :=
  marks_of tags links ++ map as_kv kvs.

Lemma tags_marks tags links : tags_in (marks_of tags links) = tags.
Proof.
  unfold marks_of, tags_in. rewrite flat_map_app, !flat_map_concat_map, !map_map. 
  assert (A : forall l : list (spanned str), concat (map (fun x => [x]) l) = l) by (induction l as [|x l IH]; cbn; congruence).
  assert (B : forall l : list (spanned str), concat (map (fun _ => @nil (spanned str)) l) = []) by (induction l as [|x l IH]; cbn; auto).
  rewrite A, B, app_nil_r. reflexivity.
Qed.
Lemma links_marks tags links : links_in (marks_of tags links) = links.
Proof.
  unfold marks_of, links_in. rewrite flat_map_app, !flat_map_concat_map, !map_map. 
  assert (A : forall l : list (spanned str), concat (map (fun x => [x]) l) = l) by (induction l as [|x l IH]; cbn; congruence).
  assert (B : forall l : list (spanned str), concat (map (fun _ => @nil (spanned str)) l) = []) by (induction l as [|x l IH]; cbn; auto).
  rewrite A, B. reflexivity.
Qed.
Lemma kvs_marks tags links : key_values_in (marks_of tags links) = [].
Proof.
  unfold marks_of, key_values_in. rewrite flat_map_app, !flat_map_concat_map, !map_map. 
  assert (B : forall l : list (spanned str), concat (map (fun _ => @nil (spanned str * spanned meta_value)) l) = []) by (induction l as [|x l IH]; cbn; auto).
  rewrite !B. reflexivity.
Qed.
Lemma tags_items tags links kvs : tags_in (items_of tags links kvs) = tags.
Proof.
  unfold items_of. unfold tags_in. rewrite flat_map_app. fold (tags_in (marks_of tags links)). rewrite tags_marks.
  enough (X : flat_map (fun m => match m with MD_Tag t => [t] | _ => [] end) (map as_kv kvs) = []) by (rewrite X; apply app_nil_r).
  induction kvs as [|x l IH]; cbn; auto.
Qed.
Lemma links_items tags links kvs : links_in (items_of tags links kvs) = links.
Proof.
  unfold items_of. unfold links_in. rewrite flat_map_app. fold (links_in (marks_of tags links)). rewrite links_marks.
  enough (X : flat_map (fun m => match m with MD_Link t => [t] | _ => [] end) (map as_kv kvs) = []) by (rewrite X; apply app_nil_r).
  induction kvs as [|x l IH]; cbn; auto.
Qed.
Lemma kvs_items tags links kvs : key_values_in (items_of tags links kvs) = kvs.
Proof.
  unfold items_of. unfold key_values_in. rewrite flat_map_app. fold (key_values_in (marks_of tags links)). rewrite kvs_marks. cbn [app].
  induction kvs as [|[k v] l IH]; cbn; congruence.
Qed.

Lemma alike_tags a b : Forall2 alike_metadatum a b -> Forall2 same_item (tags_in a) (tags_in b).
Proof. intro F. induction F as [|x y a b R F IH]; cbn; [constructor|]. destruct x, y; cbn in *; try contradiction; auto. Qed.
Lemma alike_links a b : Forall2 alike_metadatum a b -> Forall2 same_item (links_in a) (links_in b).
Proof. intro F. induction F as [|x y a b R F IH]; cbn; [constructor|]. destruct x, y; cbn in *; try contradiction; auto. Qed.
Lemma alike_kvs a b : Forall2 alike_metadatum a b ->
  Forall2 (fun x y => same_item (fst x) (fst y) /\ alike_meta_value (item (snd x)) (item (snd y))) (key_values_in a) (key_values_in b).
Proof. intro F. induction F as [|x y a b R F IH]; cbn; [constructor|]. destruct x, y; cbn in *; try contradiction; auto. Qed.

Lemma nodup_marks tags links : NoDup (map item tags) -> NoDup (map item links) -> NoDup (map metadatum_label (marks_of tags links)).
Proof.
  intros Nt Nl. unfold marks_of. rewrite map_app, !map_map. cbn [metadatum_label].
  assert (A : NoDup (map (fun x : spanned str => DuplicateTag (item x)) tags)).
  { rewrite <- (map_map item DuplicateTag). apply nodup_map_inj; [congruence|exact Nt]. }
  assert (B : NoDup (map (fun x : spanned str => DuplicateLink (item x)) links)).
  { rewrite <- (map_map item DuplicateLink). apply nodup_map_inj; [congruence|exact Nl]. }
  apply NoDup_app_intro; [exact A|exact B|]. intros x Hx Hy. apply in_map_iff in Hx, Hy. destruct Hx as (? & <- & _), Hy as (? & ? & _). discriminate.
Qed.
Lemma nodup_items tags links kvs : NoDup (map item tags) -> NoDup (map item links) -> NoDup (map (fun kv : spanned str * spanned meta_value => item (fst kv)) kvs) ->
  NoDup (map metadatum_label (items_of tags links kvs)).
Proof.
  intros Nt Nl Nk. unfold items_of. rewrite map_app. apply NoDup_app_intro; [apply nodup_marks; assumption| |].
  - rewrite map_map. cbn. rewrite <- (map_map (fun kv : spanned str * spanned meta_value => item (fst kv)) DuplicateKey). apply nodup_map_inj; [congruence|exact Nk].
  - unfold marks_of. rewrite map_app, !map_map. cbn. intros x Hx Hy. apply in_map_iff in Hy. destruct Hy as (? & <- & _).
    apply in_app_iff in Hx. destruct Hx as [Hx|Hx]; apply in_map_iff in Hx; destruct Hx as (? & ? & _); discriminate.
Qed.

(** ** The tokens of single items *)
Definition t_metadatum (m : metadatum) : list token :=
  match m with
  | MD_Tag t => [T_Tag (item t)]
  | MD_Link t => [T_Link (item t)]
  | MD_KeyValue kv => t_key_value T_Key (mkv_key (item kv), mkv_value (item kv))
  end.
Lemma l_items tags links kvs : l_metadata T_Key tags links kvs = map t_metadatum (items_of tags links kvs).
Proof.
  unfold l_metadata, l_marks, items_of, marks_of. rewrite !map_app, !map_map. f_equal.
Qed.
Lemma l_only_keys kvs : map (t_key_value T_Key) kvs = map t_metadatum (items_of [] [] kvs).
Proof. rewrite <- l_items. reflexivity. Qed.
Lemma t_marks_items tags links : t_marks tags links = flat_map t_metadatum (marks_of tags links).
Proof.
  unfold t_marks, marks_of. rewrite flat_map_app. f_equal.
  - induction tags as [|t l IH]; cbn; congruence.
  - induction links as [|t l IH]; cbn; congruence.
Qed.

Section Read.
  Context (L : lexer_env) (E : grammar_env) (names : account_type -> str) (I : input).

  (** These tokens are from [i] up to [j]. *)
  Definition here (ts : list token) (i j : nat) : Prop := tokens_at I i ts /\ j = i + List.length ts.
  Lemma here_app a b i k : here (a ++ b) i k -> exists j, here a i j /\ here b j k.
  Proof.
    intros [T ->]. apply tokens_at_app in T. destruct T as [A B]. exists (i + List.length a). split; split; auto. rewrite app_length. lia.
  Qed.
  Lemma here_cons t ts i k : here (t :: ts) i k -> tok I i t /\ here ts (S i) k.
  Proof.
    intro H. apply (here_app [t]) in H. destruct H as (j & [T ->] & H). apply tokens_at_one in T. cbn [List.length] in H. rewrite Nat.add_1_r in H. auto.
  Qed.
  Lemma here_nil i k : here [] i k -> k = i.
  Proof. intros [_ ->]. cbn. lia. Qed.
  Lemma here_one t i k : here [t] i k -> tok I i t /\ k = S i.
  Proof. intro H. apply here_cons in H. destruct H as [T H]. apply here_nil in H. auto. Qed.
  Lemma here_all ts : map fst (in_tokens I) = ts -> here ts 0 (List.length (in_tokens I)).
  Proof.
    intros <-. split; [|rewrite map_length; reflexivity]. exists [], (in_tokens I). split; [reflexivity|]. split; [reflexivity|]. rewrite firstn_all. reflexivity.
  Qed.

  Definition sp {A} (i j : nat) (x : A) : spanned A := mk_spanned x (text I i j).
  Lemma written_sp {A} (R : nat -> nat -> A -> Prop) i j x : R i j x -> written I R i j (sp i j x).
  Proof. intro H. split; [exact H|reflexivity]. Qed.
  Hint Resolve written_sp : core.

  (** ** Single tokens *)
  Lemma r_value v i j : common_value E v -> here (t_value v) i j -> value_at E I i j v.
  Proof. intros (A & _ & W) [T ->]. split; [|exact W]. apply spelled; assumption. Qed.
  Lemma r_currency c i : common_currency c -> tok I i (T_Currency c) -> currency_at I i (S i) c.
  Proof. intros (_ & _ & C) T. constructor; assumption. Qed.
  Lemma r_account a i : common_account L E names a -> tok I i (T_Account (acc_name a)) -> account_at E I names i (S i) a.
  Proof. intros (_ & ws & Q & F) T. destruct a as [ty n]. cbn in *. subst n. constructor; assumption. Qed.
  Lemma r_flag f i : tok I i (t_flag f) -> flag_at I i (S i) f.
  Proof. destruct f; cbn; intro T; (apply flag_asterisk || apply flag_hash || apply flag_); exact T. Qed.

  Lemma r_amount a i j : common_amount E a -> here (t_amount a) i j -> exists a', amount_at E I i j a' /\ alike_amount a a'.
  Proof.
    intros [V C] H. apply here_app in H. destruct H as (k & H & K). apply here_one in K. destruct K as [K ->].
    exists (mk_amount (sp i k (item (am_number a))) (sp k (S k) (item (am_currency a)))). split; [|split; reflexivity].
    econstructor; apply written_sp; [apply r_value; assumption|apply r_currency; assumption].
  Qed.
  Lemma r_simple v i j : common_simple L E names v -> here (t_simple v) i j -> simple_value_at E I names i j v.
  Proof.
    intros C H. destruct v as [s|c|a|t|l|d|b| |v]; cbn [t_simple common_simple] in *; try (apply here_one in H; destruct H as [T ->]).
    - apply simple_string. constructor. exact T.
    - apply simple_currency. apply r_currency; assumption.
    - apply simple_account. apply r_account; assumption.
    - apply simple_tag. destruct C. constructor; assumption.
    - apply simple_link. destruct C. constructor; assumption.
    - apply simple_date. constructor. exact T.
    - apply simple_bool. destruct b; constructor; exact T.
    - constructor. exact T.
    - apply simple_expr. apply r_value; assumption.
  Qed.
  Lemma r_meta_value v i j : common_meta_value L E names v -> here (t_meta_value v) i j ->
    exists v', meta_value_at E I names i j v' /\ alike_meta_value v v'.
  Proof.
    destruct v as [v|a]; intros C H.
    - exists (MV_Simple v). split; [|reflexivity]. constructor. apply r_simple; assumption.
    - destruct (r_amount a i j C H) as (a' & A & Q). exists (MV_Amount a'). split; [constructor; exact A|exact Q].
  Qed.

  (** ** Metadata *)
  Definition common_metadatum (m : metadatum) : Prop :=
    match m with
    | MD_Tag t | MD_Link t => common_label E (item t)
    | MD_KeyValue kv => common_key E (item (mkv_key (item kv))) /\ common_meta_value L E names (item (mkv_value (item kv)))
    end.
  Lemma r_mark m i j : common_metadatum m -> (forall kv, m <> MD_KeyValue kv) -> here (t_metadatum m) i j ->
    exists m', mark_at E I i j m' /\ alike_metadatum m m'.
  Proof.
    intros C N H. destruct m as [kv|t|t]; [destruct (N kv eq_refl)| |]; cbn [t_metadatum] in H; apply here_one in H; destruct H as [T ->]; destruct C as [_ C].
    - exists (MD_Tag (sp i (S i) (item t))). split; [|reflexivity]. constructor. apply written_sp. constructor; assumption.
    - exists (MD_Link (sp i (S i) (item t))). split; [|reflexivity]. constructor. apply written_sp. constructor; assumption.
  Qed.
  Lemma r_metadatum m i j : common_metadatum m -> here (t_metadatum m) i j -> exists m', metadatum_at E I names i j m' /\ alike_metadatum m m'.
  Proof.
    intros C H. destruct m as [kv|t|t].
    - cbn [t_metadatum t_key_value fst snd] in H. unfold t_key_value in H. cbn [fst snd] in H. apply here_cons in H. destruct H as [T H].
      apply here_cons in H. destruct H as [T' H]. destruct C as [[_ Ck] Cv]. destruct (r_meta_value _ _ _ Cv H) as (v & V & Q).
      exists (MD_KeyValue (sp i j (mk_mkv (sp i (S i) (item (mkv_key (item kv)))) (sp (S (S i)) j v)))). split; [|split; [reflexivity|exact Q]].
      constructor. apply written_sp. econstructor; [apply written_sp; constructor; assumption|exact T'|apply written_sp; exact V].
    - destruct (r_mark (MD_Tag t) i j C) as (m & M & Q); [discriminate|exact H|]. exists m. split; [apply metadatum_mark; exact M|exact Q].
    - destruct (r_mark (MD_Link t) i j C) as (m & M & Q); [discriminate|exact H|]. exists m. split; [apply metadatum_mark; exact M|exact Q].
  Qed.
  Lemma r_line m i j : common_metadatum m -> here (as_line (t_metadatum m)) i j -> exists m', metadata_line E I names i j m' /\ alike_metadatum m m'.
  Proof.
    intros C H. unfold as_line in H. apply here_cons in H. destruct H as [T H]. apply here_app in H. destruct H as (k & H & K). apply here_one in K. destruct K as [K ->].
    destruct (r_metadatum _ _ _ C H) as (m' & M & Q). exists m'. split; [|exact Q]. econstructor; [exact T|exact M|constructor; exact K].
  Qed.
  Lemma star_silent {A} (R : nat -> nat -> A -> Prop) i j k a l : R i j a -> star (silent R) j k l [] -> star (silent R) i k (a :: l) [].
  Proof. intros H S. apply (star_cons (silent R) i j k a l [] []); [split; [exact H|reflexivity]|exact S]. Qed.
  Lemma r_lines ms : Forall common_metadatum ms -> forall i j, here (flat_map as_line (map t_metadatum ms)) i j ->
    exists ms', star (silent (metadata_line E I names)) i j ms' [] /\ Forall2 alike_metadatum ms ms'.
  Proof.
    induction 1 as [|m ms C F IH]; intros i j H.
    - apply here_nil in H. subst. exists []. split; constructor.
    - cbn [map flat_map] in H. apply here_app in H. destruct H as (k & H & K). destruct (r_line _ _ _ C H) as (m' & M & Q).
      destruct (IH _ _ K) as (ms' & S & Q'). exists (m' :: ms'). split; [eapply star_silent; eassumption|constructor; assumption].
  Qed.
  Lemma r_marks ms : Forall common_metadatum ms -> Forall (fun m => forall kv, m <> MD_KeyValue kv) ms -> forall i j, here (flat_map t_metadatum ms) i j ->
    exists ms', star (silent (mark_at E I)) i j ms' [] /\ Forall2 alike_metadatum ms ms'.
  Proof.
    induction 1 as [|m ms C F IH]; intros N i j H.
    - apply here_nil in H. subst. exists []. split; constructor.
    - inversion N as [|? ? N1 N2]; subst. cbn [flat_map] in H. apply here_app in H. destruct H as (k & H & K). destruct (r_mark _ _ _ C N1 H) as (m' & M & Q).
      destruct (IH N2 _ _ K) as (ms' & S & Q'). exists (m' :: ms'). split; [eapply star_silent; eassumption|constructor; assumption].
  Qed.

  Lemma collects_all ms ms' : NoDup (map metadatum_label ms) -> Forall2 alike_metadatum ms ms' ->
    collects ms' (mk_metadata (key_values_in ms') (tags_in ms') (links_in ms')) [].
  Proof.
    intros N F. apply (collects_ ms' ms' []). apply dedup_fresh. rewrite <- (forall2_map alike_metadatum metadatum_label metadatum_label ms ms'); [exact N|apply alike_label|exact F].
  Qed.

  Lemma common_items tags links kvs : Forall (fun t => common_label E (item t)) tags -> Forall (fun t => common_label E (item t)) links ->
    Forall (fun kv => common_key E (item (fst kv)) /\ common_meta_value L E names (item (snd kv))) kvs -> Forall common_metadatum (items_of tags links kvs).
  Proof.
    intros A B C. unfold items_of, marks_of. repeat (apply Forall_app; split); apply Forall_map; assumption.
  Qed.
  Lemma marks_are_marks tags links : Forall (fun m => forall kv, m <> MD_KeyValue kv) (marks_of tags links).
  Proof. unfold marks_of. apply Forall_app; split; apply Forall_map, Forall_forall; discriminate. Qed.

  (** ** Costs *)
  Lemma r_separated {A} (R : nat -> nat -> A -> Prop) ps : ps <> [] -> Forall (fun p => forall i j, here (fst p) i j -> R i j (snd p)) ps ->
    forall i j, here (between [T_Comma] (map fst ps)) i j -> exists l, separated I (written I R) i j l /\ map item l = map snd ps.
  Proof.
    intros N F. induction F as [|[ts x] ps P F IH]; [congruence|]. intros i j H. destruct ps as [|q ps].
    - cbn in H. exists [sp i j x]. split; [|reflexivity]. constructor. apply written_sp. apply P. exact H.
    - change (between [T_Comma] (map fst ((ts, x) :: q :: ps))) with (ts ++ [T_Comma] ++ between [T_Comma] (map fst (q :: ps))) in H.
      apply here_app in H. destruct H as (k & H & K). apply here_cons in K. destruct K as [T K].
      destruct (IH ltac:(discriminate) _ _ K) as (l & S & Q). exists (sp i k x :: l). split; [|cbn [map]; rewrite Q; reflexivity].
      eapply separated_more; [apply written_sp; apply P; exact H|exact T|exact S].
  Qed.

  Definition cost_amount (c : cost_spec) : list cost_comp :=
    match cs_per_unit c, cs_total c, cs_currency c with
    | Some p, Some t, Some u => [CC_Amount (CA_CurrencyAmount (CE_Both (item p) (item t)) (item u))]
    | Some p, Some t, None => [CC_Amount (CA_Amount (CE_Both (item p) (item t)))]
    | Some p, None, Some u => [CC_Amount (CA_CurrencyAmount (CE_PerUnit (item p)) (item u))]
    | Some p, None, None => [CC_Amount (CA_Amount (CE_PerUnit (item p)))]
    | None, Some t, Some u => [CC_Amount (CA_CurrencyAmount (CE_Total (item t)) (item u))]
    | None, Some t, None => [CC_Amount (CA_Amount (CE_Total (item t)))]
    | None, None, Some u => [CC_Amount (CA_Currency (item u))]
    | None, None, None => []
    end.
  Definition t_cost_amount (c : cost_spec) : list token := between [] (amount_parts t_value (fun _ => [T_Hash]) (fun s => [T_Currency s]) c).
  Definition cost_pairs (c : cost_spec) : list (list token * cost_comp) :=
    map (pair (t_cost_amount c)) (cost_amount c) ++
    match cs_date c with Some v => [([T_Date (item v)], CC_Date (item v))] | None => [] end ++
    match cs_label c with Some v => [([T_String (item v)], CC_Label (item v))] | None => [] end ++
    (if cs_merge c then [([T_Asterisk], CC_Merge)] else []).
  Lemma cost_pairs_tokens c : t_cost_parts c = map fst (cost_pairs c).
  Proof. destruct c as [[p|] [t|] [u|] [d|] [l|] []]; reflexivity. Qed.
  Lemma r_cost_amount c i j : common_cost E c -> here (t_cost_amount c) i j -> Forall (cost_comp_at E I i j) (cost_amount c).
  Proof.
    intros (P & T & U & _) H. unfold t_cost_amount, amount_parts in H. unfold cost_amount.
    destruct (cs_per_unit c) as [p|], (cs_total c) as [t|], (cs_currency c) as [u|]; cbn [optional app between] in *; try (constructor; [|constructor]); try constructor.
    - apply here_app in H. destruct H as (a & Hp & H). apply here_cons in H. destruct H as [K H]. apply here_app in H. destruct H as (b & Ht & Hu). apply here_one in Hu. destruct Hu as [Hu ->].
      eapply compound_with_currency; [eapply compound_both; [apply r_value; eassumption|exact K|apply r_value; eassumption]|apply r_currency; assumption].
    - apply here_app in H. destruct H as (a & Hp & Ht). apply here_cons in Ht. destruct Ht as [K Ht].
      eapply compound_bare. eapply compound_both; [apply r_value; eassumption|exact K|apply r_value; eassumption].
    - apply here_app in H. destruct H as (a & Hp & Hu). apply here_one in Hu. destruct Hu as [Hu ->].
      eapply compound_with_currency; [eapply compound_per_unit; apply r_value; eassumption|apply r_currency; assumption].
    - eapply compound_bare. eapply compound_per_unit. apply r_value; eassumption.
    - apply here_cons in H. destruct H as [K H]. apply here_app in H. destruct H as (a & Ht & Hu). apply here_one in Hu. destruct Hu as [Hu ->].
      eapply compound_with_currency; [eapply compound_total; [exact K|apply r_value; eassumption]|apply r_currency; assumption].
    - apply here_cons in H. destruct H as [K H]. eapply compound_bare. eapply compound_total; [exact K|apply r_value; eassumption].
    - apply here_one in H. destruct H as [H ->]. apply compound_currency. apply r_currency; assumption.
  Qed.
  Lemma r_cost_pairs c : common_cost E c -> Forall (fun p => forall i j, here (fst p) i j -> cost_comp_at E I i j (snd p)) (cost_pairs c).
  Proof.
    intro C. unfold cost_pairs. repeat (apply Forall_app; split).
    - apply Forall_map, Forall_forall. intros x Hx i j H. cbn [fst snd] in *. pose proof (r_cost_amount c i j C H) as F. rewrite Forall_forall in F. apply F. exact Hx.
    - destruct (cs_date c); constructor; [|constructor]. intros i j H. cbn [fst snd] in *. apply here_one in H. destruct H as [H ->]. apply comp_date. constructor. exact H.
    - destruct (cs_label c); constructor; [|constructor]. intros i j H. cbn [fst snd] in *. apply here_one in H. destruct H as [H ->]. apply comp_label. constructor. exact H.
    - destruct (cs_merge c); constructor; [|constructor]. intros i j H. cbn [fst snd] in *. apply here_one in H. destruct H as [H ->]. constructor. exact H.
  Qed.

  Lemma given_items {A} (f : cost_comp -> option A) l : map item (given f l) = flat_map (fun x => match f x with Some a => [a] | None => [] end) (map item l).
  Proof.
    unfold given. induction l as [|x l IH]; [reflexivity|]. cbn [flat_map map]. rewrite map_app, IH. destruct (f (item x)); reflexivity.
  Qed.
  Lemma only_given {A} (f : cost_comp -> option A) l (o : option (spanned A)) :
    flat_map (fun x => match f x with Some a => [a] | None => [] end) (map item l) = match o with Some x => [item x] | None => [] end ->
    only (given f l) (hd_error (given f l)) /\ same_option same_item o (hd_error (given f l)).
  Proof.
    intro H. rewrite <- given_items in H. destruct o as [x|], (given f l) as [|y [|z r]]; try discriminate; cbn; split; try constructor.
    injection H as H. symmetry. exact H.
  Qed.
  Lemma spells_pairs c l : map item l = map snd (cost_pairs c) -> exists c', spells_cost l c' /\ alike_cost c c'.
  Proof.
    intro Q.
    assert (P1 := only_given per_unit_of l (cs_per_unit c)). assert (P2 := only_given total_of l (cs_total c)). assert (P3 := only_given currency_of l (cs_currency c)).
    assert (P4 := only_given date_of l (cs_date c)). assert (P5 := only_given label_of l (cs_label c)). assert (P6 := given_items merge_of l).
    rewrite Q in *.
    exists (mk_cost_spec (hd_error (given per_unit_of l)) (hd_error (given total_of l)) (hd_error (given currency_of l)) (hd_error (given date_of l)) (hd_error (given label_of l)) (cs_merge c)).
    destruct P1 as [A1 B1]; [destruct c as [[p|] [t|] [u|] [d|] [b|] []]; reflexivity|].
    destruct P2 as [A2 B2]; [destruct c as [[p|] [t|] [u|] [d|] [b|] []]; reflexivity|].
    destruct P3 as [A3 B3]; [destruct c as [[p|] [t|] [u|] [d|] [b|] []]; reflexivity|].
    destruct P4 as [A4 B4]; [destruct c as [[p|] [t|] [u|] [d|] [b|] []]; reflexivity|].
    destruct P5 as [A5 B5]; [destruct c as [[p|] [t|] [u|] [d|] [b|] []]; reflexivity|].
    split; [|repeat split; assumption]. constructor; try assumption. cbn [cs_merge].
    assert (M : map item (given merge_of l) = if cs_merge c then [tt] else []) by (rewrite P6; destruct c as [[p|] [t|] [u|] [d|] [b|] []]; reflexivity).
    destruct (cs_merge c), (given merge_of l) as [|x [|y r]]; try discriminate; [right; eauto|left; auto].
  Qed.
  Lemma r_cost c i j : common_cost E c -> here (t_cost c) i j -> exists c', cost_at E I i j c' /\ alike_cost c c'.
  Proof.
    intros C H. unfold t_cost in H. apply here_cons in H. destruct H as [T H]. apply here_app in H. destruct H as (k & H & K). apply here_one in K. destruct K as [K ->].
    rewrite cost_pairs_tokens in H. destruct (cost_pairs c) as [|p ps] eqn:Q.
    - apply here_nil in H. subst k. destruct (spells_pairs c []) as (c' & S & A); [rewrite Q; reflexivity|]. exists c'. split; [|exact A]. apply cost_empty; assumption.
    - rewrite <- Q in H. destruct (r_separated (cost_comp_at E I) (cost_pairs c)) with (i := S i) (j := k) as (l & S & M); [congruence|apply r_cost_pairs; exact C|exact H|].
      destruct (spells_pairs c l M) as (c' & S' & A). exists c'. split; [|exact A]. eapply cost_; eassumption.
  Qed.
  Lemma r_price p i j : common_price E p -> here (T_At :: t_price p) i j -> price_at E I i j p.
  Proof.
    intros C H. apply here_cons in H. destruct H as [T H]. assert (S := price_at_sign I i T). destruct p as [|c|[v|v]|[v|v] c]; cbn [t_price t_scoped common_price common_scoped] in *; try contradiction.
    - apply here_nil in H. subst j. eapply price_bare. exact S.
    - apply here_one in H. destruct H as [H ->]. eapply price_currency; [exact S|]. apply r_currency; assumption.
    - eapply (price_amount _ _ _ SE_PerUnit); [exact S|]. apply r_value; assumption.
    - apply here_app in H. destruct H as (k & H & K). apply here_one in K. destruct K as [K ->].
      eapply (price_both _ _ _ SE_PerUnit); [exact S|apply r_value; [apply C|exact H]|apply r_currency; [apply C|assumption]].
    - destruct C as [[] _].
  Qed.

  (** ** Optional things *)
  Lemma r_option {A} (f : A -> list token) (R : nat -> nat -> A -> Prop) (P : A -> Prop) (Q : A -> A -> Prop) o i j :
    (forall x i j, P x -> here (f x) i j -> exists y, R i j y /\ Q x y) -> optional (fun x => P (item x)) o -> here (t_options f o) i j ->
    exists o', maybe (written I R) i j o' /\ same_option (fun x y => Q (item x) (item y)) o o'.
  Proof.
    intros H C K. destruct o as [x|]; cbn in *.
    - destruct (H _ _ _ C K) as (y & Y & S). exists (Some (sp i j y)). split; [constructor; apply written_sp; exact Y|exact S].
    - apply here_nil in K. subst. exists None. split; [constructor|exact Logic.I].
  Qed.
  Lemma r_option_same {A} (f : A -> list token) (R : nat -> nat -> A -> Prop) (P : A -> Prop) o i j :
    (forall x i j, P x -> here (f x) i j -> R i j x) -> optional (fun x => P (item x)) o -> here (t_options f o) i j ->
    exists o', maybe (written I R) i j o' /\ same_option same_item o o'.
  Proof.
    intros H C K. destruct (r_option f R P eq o i j) as (o' & M & S); eauto.
  Qed.

  (** ** Lines of metadata *)
  Context (D : display_env) (Dok : display_ok D).

  Lemma forall_order {A} (P : A -> Prop) l m : Permutation l m -> Forall P l -> Forall P m.
  Proof. intros Q F. rewrite Forall_forall in *. intros x Hx. apply F. eapply Permutation_in; [symmetry; exact Q|exact Hx]. Qed.
  Lemma nodup_order {A B} (f : A -> B) l m : Permutation l m -> NoDup (map f l) -> NoDup (map f m).
  Proof. intros Q F. eapply Permutation_NoDup; [apply Permutation_map; exact Q|exact F]. Qed.

  Lemma r_metadata m i j : common_metadata L E names m -> here (flat_map as_line (l_of_metadata D T_Key m)) i j ->
    exists m', metadata_at E I names i j m' [] /\ alike_metadata m (item m').
  Proof.
    intros [Ck Ct Cl Nk Nt Nl] H. unfold l_of_metadata in H. rewrite l_items in H. destruct Dok as [_ _ Ds Dm].
    destruct (r_lines (items_of (de_set_order D (md_tags m)) (de_set_order D (md_links m)) (de_map_order D (md_key_values m)))) with (i := i) (j := j) as (ms' & S & F).
    { apply common_items; eapply forall_order; eauto. }
    { exact H. }
    eexists (sp i j (mk_metadata (key_values_in ms') (tags_in ms') (links_in ms'))). split.
    - eapply metadata_; [exact S| |reflexivity]. eapply collects_all; [|exact F]. apply nodup_items; eapply nodup_order; eauto.
    - pose proof (alike_tags _ _ F) as A. pose proof (alike_links _ _ F) as B. pose proof (alike_kvs _ _ F) as K.
      rewrite tags_items in A. rewrite links_items in B. rewrite kvs_items in K. split; [|split]; (eexists; split; [|eassumption]); auto.
  Qed.
  Lemma r_keys m i j : common_metadata L E names m -> here (flat_map as_line (l_of_keys D T_Key m)) i j ->
    exists m', metadata_at E I names i j m' [] /\ md_tags (item m') = [] /\ md_links (item m') = [] /\
      same_elements (fun x y => same_item (fst x) (fst y) /\ alike_meta_value (item (snd x)) (item (snd y))) (md_key_values m) (md_key_values (item m')).
  Proof.
    intros [Ck Ct Cl Nk Nt Nl] H. unfold l_of_keys in H. rewrite l_only_keys in H. destruct Dok as [_ _ Ds Dm].
    destruct (r_lines (items_of [] [] (de_map_order D (md_key_values m)))) with (i := i) (j := j) as (ms' & S & F).
    { apply common_items; [constructor|constructor|]. eapply forall_order; eauto. }
    { exact H. }
    exists (sp i j (mk_metadata (key_values_in ms') (tags_in ms') (links_in ms'))). split; [|split; [|split]].
    - eapply metadata_; [exact S| |reflexivity]. eapply collects_all; [|exact F]. apply nodup_items; [constructor|constructor|]. eapply nodup_order; eauto.
    - pose proof (alike_tags _ _ F) as A. rewrite tags_items in A. inversion A. reflexivity.
    - pose proof (alike_links _ _ F) as A. rewrite links_items in A. inversion A. reflexivity.
    - pose proof (alike_kvs _ _ F) as K. rewrite kvs_items in K. eexists; split; [|eassumption]; auto.
  Qed.

  (** ** Tags and links of the first line *)
  Context (Go : forall l, Permutation l (g_order E l)).

  Lemma merges_all dup l m : (forall x y : str, dup x = dup y -> x = y) -> NoDup (map item l) -> Permutation l m -> merges dup [] m m [].
  Proof.
    intros Inj N P. apply (merges_ dup [] m m [] m []); [|reflexivity|constructor]. apply dedup_fresh. rewrite <- (map_map item dup).
    apply nodup_map_inj; [exact Inj|]. eapply nodup_order; eauto.
  Qed.
  Lemma r_first_line m i j : common_metadata L E names m -> here (t_of_marks D m) i j ->
    exists ms, star (silent (mark_at E I)) i j ms [] /\
      forall md, md_tags (item md) = [] -> md_links (item md) = [] ->
        same_elements (fun x y => same_item (fst x) (fst y) /\ alike_meta_value (item (snd x)) (item (snd y))) (md_key_values m) (md_key_values (item md)) ->
        exists md', joined E md ms md' [] [] /\ alike_metadata m (item md').
  Proof.
    intros [Ck Ct Cl Nk Nt Nl] H. unfold t_of_marks in H. rewrite t_marks_items in H. destruct Dok as [_ _ Ds Dm].
    destruct (r_marks (marks_of (de_set_order D (md_tags m)) (de_set_order D (md_links m)))) with (i := i) (j := j) as (ms & S & F).
    { unfold marks_of. apply Forall_app; split; apply Forall_map; eapply forall_order; eauto. }
    { apply marks_are_marks. }
    { exact H. }
    exists ms. split; [exact S|]. intros md Qt Ql Qk.
    pose proof (alike_tags _ _ F) as A. pose proof (alike_links _ _ F) as B. rewrite tags_marks in A. rewrite links_marks in B.
    assert (Na : NoDup (map item (tags_in ms))) by (rewrite <- (forall2_map same_item item item _ _ (fun x y H => H) A); eapply nodup_order; eauto).
    assert (Nb : NoDup (map item (links_in ms))) by (rewrite <- (forall2_map same_item item item _ _ (fun x y H => H) B); eapply nodup_order; eauto).
    eexists. split.
    - apply (joined_ E md ms ms [] (g_order E (tags_in ms)) (g_order E (links_in ms)) [] []).
      + apply dedup_fresh. rewrite <- (forall2_map alike_metadatum metadatum_label metadatum_label _ _ alike_label F). apply nodup_marks; eapply nodup_order; eauto.
      + rewrite Qt. eapply merges_all; [congruence|exact Na|apply Go].
      + rewrite Ql. eapply merges_all; [congruence|exact Nb|apply Go].
    - split; [exact Qk|]. split; cbn [item md_tags md_links].
      + eapply same_elements_order; [apply Ds|exact A|apply Go].
      + eapply same_elements_order; [apply Ds|exact B|apply Go].
  Qed.

  (** ** Postings *)
  Lemma r_posting p i j : common_posting L E names p -> here (flat_map as_line (l_posting D T_Key p)) i j ->
    exists p', posting_at E I names i j p' [] /\ alike_posting p (item p').
  Proof.
    intros [Cf Ca Cn Cu Cc Cp Cm] H. unfold l_posting in H. cbn [flat_map] in H. unfold as_line in H at 1. apply here_app in H. destruct H as (g & H & M).
    apply here_cons in H. destruct H as [Ti H]. apply here_app in H. destruct H as (f & H & Tn). apply here_one in Tn. destruct Tn as [Tn ->].
    unfold t_posting in H. apply here_app in H. destruct H as (a & Hf & H). apply here_cons in H. destruct H as [Ha H]. change ([] ++ ?x) with x in H.
    apply here_app in H. destruct H as (c & Hn & H). apply here_app in H. destruct H as (d & Hu & H). apply here_app in H. destruct H as (e & Hc & Hp).
    destruct (r_option_same (fun f => [t_flag f]) (flag_at I) common_flag (po_flag p) (S i) a) as (o1 & R1 & S1); [|exact Cf|exact Hf|].
    { intros x k l _ X. apply here_one in X. destruct X as [X ->]. apply r_flag. exact X. }
    destruct (r_option_same t_value (value_at E I) (common_value E) (po_amount p) (S a) c) as (o2 & R2 & S2); [|exact Cn|exact Hn|].
    { intros. apply r_value; assumption. }
    destruct (r_option_same (fun c => [T_Currency c]) (currency_at I) common_currency (po_currency p) c d) as (o3 & R3 & S3); [|exact Cu|exact Hu|].
    { intros x k l Cx X. apply here_one in X. destruct X as [X ->]. apply r_currency; assumption. }
    destruct (r_option t_cost (cost_at E I) (common_cost E) alike_cost (po_cost_spec p) d e) as (o4 & R4 & S4); [|exact Cc|exact Hc|].
    { intros. apply r_cost; assumption. }
    destruct (r_option_same (fun x => T_At :: t_price x) (price_at E I) (common_price E) (po_price p) e f) as (o5 & R5 & S5); [|exact Cp|exact Hp|].
    { intros. apply r_price; assumption. }
    destruct (r_metadata (item (po_metadata p)) (S f) j Cm M) as (m & Rm & Sm).
    eexists. split; [eapply posting_; [exact Ti|exact R1|apply written_sp; apply r_account; [exact Ca|exact Ha]|exact R2|exact R3|exact R4|exact R5|constructor; exact Tn|exact Rm]|].
    repeat split; assumption || apply Sm.
  Qed.
  Lemma r_postings ps : Forall (fun p => common_posting L E names (item p)) ps -> forall i j, here (flat_map as_line (flat_map (fun p => l_posting D T_Key (item p)) ps)) i j ->
    exists ps', star (posting_at E I names) i j ps' [] /\ Forall2 (fun x y => alike_posting (item x) (item y)) ps ps'.
  Proof.
    induction 1 as [|p ps C F IH]; intros i j H.
    - apply here_nil in H. subst. exists []. split; constructor.
    - cbn [flat_map] in H. rewrite flat_map_app in H. apply here_app in H. destruct H as (k & H & K). destruct (r_posting _ _ _ C H) as (p' & P & Q).
      destruct (IH _ _ K) as (ps' & S & Q'). exists (p' :: ps'). split; [|constructor; assumption]. exact (star_cons _ _ _ _ _ _ [] [] P S).
  Qed.

  (** ** The first line *)
  Lemma one_string s i j : here [T_String s] i j -> star (silent (written I (string_at I))) i j [sp i j s] [].
  Proof. intro H. apply here_one in H. destruct H as [H ->]. eapply star_silent; [apply written_sp; constructor; exact H|constructor]. Qed.
  Lemma r_titles p n i j : optional (fun s : spanned str => clean (item s) /\ item s <> []) p -> optional (fun s => clean (item s) /\ item s <> []) n ->
    here (t_options (fun s => [T_String s]) p ++ t_options (fun s => [T_String s]) n ++ match p, n with Some _, None => [T_String []] | _, _ => [] end) i j ->
    exists ss p' n', star (silent (written I (string_at I))) i j ss [] /\ titles ss p' n' /\ same_option same_item p p' /\ same_option same_item n n'.
  Proof.
    intros P N H. destruct p as [p|], n as [n|]; cbn [t_options app optional] in *.
    - apply here_cons in H. destruct H as [T H]. apply here_one in H. destruct H as [T' ->].
      exists [sp i (S i) (item p); sp (S i) (S (S i)) (item n)]. eexists. eexists. split; [|split; [apply titles_both; apply is_not_empty; [apply P|apply N]|split; reflexivity]].
      eapply star_silent; [apply written_sp; constructor; exact T|]. eapply star_silent; [apply written_sp; constructor; exact T'|constructor].
    - apply here_cons in H. destruct H as [T H]. apply here_one in H. destruct H as [T' ->].
      exists [sp i (S i) (item p); sp (S i) (S (S i)) []]. eexists. eexists.
      split; [|split; [apply titles_both; [apply is_not_empty; apply P|apply is_empty; reflexivity]|split; [reflexivity|exact Logic.I]]].
      eapply star_silent; [apply written_sp; constructor; exact T|]. eapply star_silent; [apply written_sp; constructor; exact T'|constructor].
    - exists [sp i j (item n)]. eexists. eexists. split; [apply one_string; exact H|]. split; [apply titles_narration; apply is_not_empty; apply N|]. split; [exact Logic.I|reflexivity].
    - apply here_nil in H. subst. exists [], None, None. split; [constructor|]. split; [constructor|]. split; exact Logic.I.
  Qed.

  Lemma forall2_snoc {A} (R : A -> A -> Prop) x l y m : R x y -> Forall2 R l m -> Forall2 R (l ++ [x]) (m ++ [y]).
  Proof. intros H F. apply Forall2_app; auto. Qed.
  Lemma same_items (l m : list (spanned str)) : map item l = map item m -> Forall2 same_item l m.
  Proof. revert m. induction l as [|x l IH]; intros [|y m] Q; try discriminate; [constructor|]. cbn in Q. injection Q as Q1 Q2. constructor; [exact Q1|auto]. Qed.
  Lemma r_currencies cs i j : Forall (fun c => common_currency (item c)) cs -> NoDup (map item cs) ->
    here (between [T_Comma] (map (fun c => [T_Currency (item c)]) (de_set_order D cs))) i j ->
    exists cs', currencies_at I i j cs' [] /\ same_elements same_item cs cs'.
  Proof.
    intros F N H. destruct Dok as [_ _ Ds _]. specialize (Ds cs). apply (forall_order _ _ _ Ds) in F. apply (nodup_order _ _ _ Ds) in N.
    destruct (de_set_order D cs) as [|c l].
    - apply here_nil in H. subst. exists []. split; [constructor|]. exists []. split; [exact Ds|constructor].
    - pose proof (r_separated (currency_at I) (map (fun c => ([T_Currency (item c)], item c)) (c :: l))) as S.
      rewrite !map_map in S. cbn [fst snd] in S. destruct S with (i := i) (j := j) as (cs' & Sc & Q); [discriminate| |exact H|].
      { apply Forall_map. eapply Forall_impl; [|exact F]. intros x Cx a b X. cbn [fst snd] in *. apply here_one in X. destruct X as [X ->]. apply r_currency; assumption. }
      destruct cs' as [|c' l']; [discriminate|]. cbn [map] in Q. injection Q as Q1 Q2.
      exists (l' ++ [c']). split.
      + apply (currencies_ I i j c' l' (l' ++ [c']) [] Sc). apply dedup_fresh. rewrite <- (map_map item DuplicateCurrency). apply nodup_map_inj; [congruence|].
        rewrite map_app. cbn [map]. rewrite Q1, Q2. change [item c] with (map item [c]). rewrite <- map_app. eapply nodup_order; [apply Permutation_cons_append|exact N].
      + exists (l ++ [c]). split; [etransitivity; [exact Ds|apply Permutation_cons_append]|]. apply same_items. rewrite !map_app. cbn [map]. rewrite Q1, Q2. reflexivity.
  Qed.

  Definition keyword_for (v : variant) : option keyword :=
    match v with
    | V_Transaction _ _ _ _ | V_Custom _ _ => None
    | V_Price _ _ => Some K_Price
    | V_Balance _ _ => Some K_Balance
    | V_Open _ _ _ => Some K_Open
    | V_Close _ => Some K_Close
    | V_Commodity _ => Some K_Commodity
    | V_Pad _ _ => Some K_Pad
    | V_Document _ _ => Some K_Document
    | V_Note _ _ => Some K_Note
    | V_Event _ _ => Some K_Event
    | V_Query _ _ => Some K_Query
    end.
  Lemma same_sp {A} (x : spanned A) i j : same_item x (sp i j (item x)).
  Proof. reflexivity. Qed.
  Lemma r_fields v k i j : common_variant L E names v -> keyword_for v = Some k -> here (t_fields D v) i j ->
    tok I i (T_Keyword k) /\ exists v', fields_at E I names (S i) k j v' [] /\ alike_variant v v'.
  Proof.
    intros C K H. destruct v as [f p n ps|c a|a t|a cs b|a|c|a s|a s|a s|a s|a s|t vs]; try discriminate; injection K as <-; cbn [t_fields common_variant] in *;
      apply here_cons in H; destruct H as [T H]; (split; [exact T|]); apply here_cons in H; destruct H as [T1 H].
    - destruct C as [Cc Ca]. destruct (r_amount _ _ _ Ca H) as (a' & A & Q). exists (V_Price (sp (S i) (S (S i)) (item c)) (sp (S (S i)) j a')). split; [|constructor; [reflexivity|exact Q]].
      econstructor; apply written_sp; [apply r_currency; assumption|exact A].
    - destruct C as (Ca & Ct & Cn). destruct (r_amount _ _ _ Ct H) as (a' & A & Q).
      exists (V_Balance (sp (S i) (S (S i)) (item a)) (sp (S (S i)) j (mk_amount_tol (sp (S (S i)) j a') None))). split.
      + econstructor; apply written_sp; [apply r_account; assumption|]. constructor. apply written_sp. exact A.
      + constructor; [reflexivity|]. split; [exact Q|]. rewrite Cn. exact Logic.I.
    - destruct C as (Ca & Cc & Cn). apply here_app in H. destruct H as (k & H & Hb). destruct (r_currencies _ _ _ Cc Cn H) as (cs' & S & Q).
      destruct (r_option_same (fun b => [T_String (booking_name b)]) (booking_at I) (fun _ => True) b k j) as (b' & B & Q'); [|destruct b; exact Logic.I|exact Hb|].
      { intros x p q _ X. apply here_one in X. destruct X as [X ->]. constructor. exact X. }
      exists (V_Open (sp (Datatypes.S i) (Datatypes.S (Datatypes.S i)) (item a)) cs' b'). split; [|constructor; [reflexivity|exact Q|exact Q']].
      econstructor; [apply written_sp; apply r_account; assumption|exact S|exact B].
    - apply here_nil in H. subst j. exists (V_Close (sp (S i) (S (S i)) (item a))). split; [constructor; apply written_sp; apply r_account; eassumption|constructor; reflexivity].
    - apply here_nil in H. subst j. exists (V_Commodity (sp (S i) (S (S i)) (item c))). split; [constructor; apply written_sp; apply r_currency; eassumption|constructor; reflexivity].
    - apply here_one in H. destruct H as [T2 ->]. destruct C as [C1 C2]. exists (V_Pad (sp (S i) (S (S i)) (item a)) (sp (S (S i)) (S (S (S i))) (item s))). split; [econstructor; apply written_sp; apply r_account; eassumption|constructor; reflexivity].
    - apply here_one in H. destruct H as [T2 ->]. destruct C as [C1 C2]. exists (V_Document (sp (S i) (S (S i)) (item a)) (sp (S (S i)) (S (S (S i))) (item s))). split; [econstructor; apply written_sp; [apply r_account; eassumption|constructor; exact T2]|constructor; reflexivity].
    - apply here_one in H. destruct H as [T2 ->]. destruct C as [C1 C2]. exists (V_Note (sp (S i) (S (S i)) (item a)) (sp (S (S i)) (S (S (S i))) (item s))). split; [econstructor; apply written_sp; [apply r_account; eassumption|constructor; exact T2]|constructor; reflexivity].
    - apply here_one in H. destruct H as [T2 ->]. exists (V_Event (sp (S i) (S (S i)) (item a)) (sp (S (S i)) (S (S (S i))) (item s))). split; [econstructor; apply written_sp; constructor; [exact T1|exact T2]|constructor; reflexivity].
    - apply here_one in H. destruct H as [T2 ->]. exists (V_Query (sp (S i) (S (S i)) (item a)) (sp (S (S i)) (S (S (S i))) (item s))). split; [econstructor; apply written_sp; constructor; [exact T1|exact T2]|constructor; reflexivity].
  Qed.

  (** ** The values of custom directives *)
  Definition starts_expr (t : token) : Prop := t = T_Plus \/ t = T_Minus \/ t = T_Lparen \/ exists d, t = T_Number d.
  Lemma expr_first :
    (forall i j e, sum I i j e -> exists t, tok I i t /\ starts_expr t) /\ (forall i j e, product I i j e -> exists t, tok I i t /\ starts_expr t) /\
    (forall i j e, factor I i j e -> exists t, tok I i t /\ starts_expr t) /\ (forall i j e, primary I i j e -> exists t, tok I i t /\ starts_expr t).
  Proof.
    apply expr_mutind; intros; try assumption.
    - eexists; split; [eassumption|left; reflexivity].
    - eexists; split; [eassumption|right; left; reflexivity].
    - eexists; split; [eassumption|do 3 right; eexists; reflexivity].
    - eexists; split; [eassumption|do 2 right; left; reflexivity].
  Qed.
  Lemma value_first i j v t : value_at E I i j v -> tok I i t -> starts_expr t.
  Proof. intros [V _] T. apply expr_first in V. destruct V as (t' & T' & S). rewrite (tok_fun I i t t' T T'). exact S. Qed.

  (** No operator here. *)
  Definition stops (i : nat) : Prop := forall t, tok I i t -> ~ operator t.
  Lemma longest_expr e i j : left_assoc e -> here (written_with e) i j -> stops j -> longest (sum I) i j e.
  Proof.
    intros La [T ->] N. pose proof (C19_tree_read_back I i e La T N) as H. apply C19_reads_longest in H. destruct H as [H _]. exact H.
  Qed.
  Lemma meta_value_plain i t j v : tok I i t -> ~ starts_expr t -> meta_value_at E I names i j v -> j = S i.
  Proof.
    intros T N [a A|s A].
    - destruct A as [k [A _] _]. destruct (N (value_first _ _ _ _ A T)).
    - destruct A as [? ? A|? ? A|? ? A|? ? A|? ? A|? ? A|? ? A|A|? ? A]; try (destruct A; reflexivity). destruct (N (value_first _ _ _ _ A T)).
  Qed.
  Lemma meta_value_bound i j e k v : longest (sum I) i j e -> meta_value_at E I names i k v -> k <= j \/ (exists c, tok I j (T_Currency c)) /\ k = S j.
  Proof.
    intros [S M] [a A|s A].
    - destruct A as [m [A _] [C _]]. apply proj1 in A. apply M in A. inversion C as [c Tc _]; subst. destruct (Nat.eq_dec m j) as [->|]; [right; eauto|left; lia].
    - left. destruct (proj1 expr_first _ _ _ S) as (t & T & St).
      destruct A as [? ? A|? ? A|? ? A|? ? A|? ? A|? ? A|? ? A|A|? ? A]; [..|exact (M _ _ (proj1 A))];
        inversion A; subst; match goal with X : tok I i ?u |- _ => pose proof (tok_fun _ _ _ _ T X) as Z; rewrite Z in St; destruct St as [St|[St|[St|[? St]]]]; discriminate | |- _ => idtac end.
  Qed.

  Lemma expr_head e : exists t r, written_with e = t :: r /\ (t = T_Lparen \/ (exists d, t = T_Number d) \/ t = T_Minus /\ starts_with_sign e).
  Proof.
    induction e as [d|a IHa b _|a IHa b _|a IHa b _|a IHa b _|a _|a _]; cbn [written_with starts_with_sign];
      try (destruct IHa as (t & r & -> & H); cbn [app]; eauto).
    - eauto 7.
    - eauto 8.
    - eauto.
  Qed.
  Lemma meta_value_head w : exists t r, t_meta_value w = t :: r /\ (operator t -> sign_first w) /\ (forall c, t = T_Currency c -> w = MV_Simple (SV_Currency c)).
  Proof.
    assert (Op : forall t, operator t -> t = T_Lparen \/ (exists d, t = T_Number d) -> False).
    { intros t O [->|[d ->]]; cbn in O; repeat (destruct O as [O|O]; [discriminate|]); destruct O. }
    assert (No : forall (t : token) P, (~ operator t) -> operator t -> P) by (intros; contradiction).
    destruct w as [[s|c|a|t|l|d|[]| |v]|a]; cbn [t_meta_value t_simple];
      try (eexists; eexists; split; [reflexivity|]; split; [apply No; intro O; cbn in O; repeat (destruct O as [O|O]; [discriminate|]); destruct O|intros; congruence]).
    - unfold t_value. destruct (expr_head (ev_expr v)) as (t & r & Q & H). exists t, r. split; [exact Q|]. split.
      + intro O. cbn. destruct H as [H|[H|[_ H]]]; [destruct (Op t O); auto|destruct (Op t O); auto|exact H].
      + intros c ->. destruct H as [H|[[d H]|[H _]]]; discriminate.
    - unfold t_amount, t_value. destruct (expr_head (ev_expr (item (am_number a)))) as (t & r & Q & H). rewrite Q. exists t, (r ++ [T_Currency (item (am_currency a))]). split; [reflexivity|]. split.
      + intro O. cbn. destruct H as [H|[H|[_ H]]]; [destruct (Op t O); auto|destruct (Op t O); auto|exact H].
      + intros c ->. destruct H as [H|[[d H]|[H _]]]; discriminate.
  Qed.
  Lemma not_starts t : ~ starts_expr t -> forall i, tok I i t -> forall k b, meta_value_at E I names i k b -> k <= S i.
  Proof. intros N i T k b H. rewrite (meta_value_plain _ _ _ _ T N H). lia. Qed.

  Lemma r_values vs : Forall (fun v => common_meta_value L E names (item v)) vs -> all_apart (map item vs) -> forall i j,
    here (flat_map (fun v => t_meta_value (item v)) vs) i j -> tok I j T_Eol ->
    exists vs', star (silent (longest (written I (meta_value_at E I names)))) i j vs' [] /\ Forall2 (fun x y => alike_meta_value (item x) (item y)) vs vs'.
  Proof.
    induction 1 as [|v vs C F IH]; intros A i j H Te.
    - apply here_nil in H. subst. exists []. split; constructor.
    - cbn [flat_map] in H. apply here_app in H. destruct H as (k & H & K).
      assert (A' : all_apart (map item vs)) by (destruct vs as [|w vs]; [exact Logic.I|apply A]).
      destruct (IH A' _ _ K Te) as (vs' & S & Q). destruct (r_meta_value _ _ _ C H) as (v' & V & Qv).
      enough (M : forall m b, meta_value_at E I names i m b -> m <= k).
      { exists (sp i k v' :: vs'). split; [|constructor; assumption]. eapply star_silent; [|exact S]. split; [apply written_sp; exact V|]. intros m b [B _]. exact (M m _ B). }
      clear IH S Q V Qv. intros m b B.
      assert (Ns : forall t, here [t] i k -> ~ starts_expr t -> m <= k).
      { intros t X N. apply here_one in X. destruct X as [X ->]. exact (not_starts t N i X m b B). }
      assert (St : forall t, t <> T_Plus -> t <> T_Minus -> t <> T_Lparen -> (forall d, t <> T_Number d) -> ~ starts_expr t).
      { intros t N1 N2 N3 N4 [X|[X|[X|[d X]]]]; [exact (N1 X)|exact (N2 X)|exact (N3 X)|exact (N4 d X)]. }
      destruct (item v) as [[s|c|a|t|l|d|bb| |e]|a] eqn:Qi; cbn [t_meta_value t_simple] in H; try (apply (Ns _ H), St; discriminate).
      + apply (Ns _ H), St; destruct bb; discriminate.
      + assert (Nx : stops k /\ forall c, ~ tok I k (T_Currency c)).
        { destruct vs as [|w vs].
          - apply here_nil in K. subst k. split; [intros t T O; rewrite (tok_fun _ _ _ _ T Te) in O; cbn in O; repeat (destruct O as [O|O]; [discriminate|]); destruct O|].
            intros c T. pose proof (tok_fun _ _ _ _ T Te). discriminate.
          - cbn [map] in A. rewrite Qi in A. destruct A as [A _]. destruct (A (ex_intro _ e eq_refl)) as [Ac As].
            cbn [flat_map] in K. apply here_app in K. destruct K as (k' & K & _). destruct (meta_value_head (item w)) as (t & r & Qt & Ho & Hc).
            rewrite Qt in K. apply here_cons in K. destruct K as [K _]. split.
            + intros t' T O. rewrite (tok_fun _ _ _ _ T K) in O. exact (As (Ho O)).
            + intros c T. pose proof (tok_fun _ _ _ _ T K) as X. exact (Ac c (Hc c (eq_sym X))). }
        destruct Nx as [Nx Nc]. assert (Lg := longest_expr (ev_expr e) i k (proj1 C) H Nx).
        destruct (meta_value_bound _ _ _ _ _ Lg B) as [X|[[c X] _]]; [exact X|destruct (Nc c X)].
      + unfold t_amount in H. apply here_app in H. destruct H as (k' & H & Hc). apply here_one in Hc. destruct Hc as [Hc ->].
        assert (Nx : stops k') by (intros t T O; rewrite (tok_fun _ _ _ _ T Hc) in O; cbn in O; repeat (destruct O as [O|O]; [discriminate|]); destruct O).
        assert (Lg := longest_expr (ev_expr (item (am_number a))) i k' (proj1 (proj1 C)) H Nx).
        destruct (meta_value_bound _ _ _ _ _ Lg B) as [X|[_ X]]; lia.
  Qed.

  (** ** Directives *)
  Lemma r_directive d i j : common L E names d -> here (o_directive D d) i j -> exists d', directive_at E I names i j d' [] /\ alike d d'.
  Proof.
    intros [Cd Cm Cv] H. unfold o_directive in H. rewrite as_lines in H. apply here_app in H. destruct H as (n & H & K). apply here_cons in K. destruct K as [Te K].
    unfold t_header in H. apply here_cons in H. destruct H as [Td H]. apply here_app in H. destruct H as (b & H & M).
    assert (Wd : written I (date_at I) i (S i) (sp i (S i) (item (dir_date d)))) by (apply written_sp; constructor; exact Td).
    assert (Wl : line_end I n (S n)) by (constructor; exact Te).
    destruct (keyword_for (dir_variant d)) as [kw|] eqn:Kw.
    - destruct (r_fields _ _ _ _ Cv Kw H) as (Tk & v' & Fv & Qv).
      assert (M' : here (t_of_marks D (item (dir_metadata d))) b n) by (destruct (dir_variant d); try discriminate; exact M).
      assert (K' : here (flat_map as_line (l_of_keys D T_Key (item (dir_metadata d)))) (S n) j) by (unfold l_directive in K; destruct (dir_variant d); try discriminate; exact K).
      destruct (r_first_line _ _ _ Cm M') as (ms & Sm & J). destruct (r_keys _ _ _ Cm K') as (md & Smd & Q1 & Q2 & Q3). destruct (J md Q1 Q2 Q3) as (md' & Jm & Qm).
      eexists. split; [exact (directive_line E I names i (S i) b n (S n) j kw _ v' ms md md' [] [] [] [] Wd Tk Fv Sm Wl Smd Jm)|].
      constructor; [reflexivity|exact Qm|exact Qv].
    - unfold l_directive in K. destruct (dir_variant d) as [f p nr ps| | | | | | | | | | |t vs] eqn:Qv; try discriminate; cbn [t_fields common_variant] in *.
      + destruct Cv as (Cf & Cp & Cn & Cps). apply here_cons in H. destruct H as [Tf H].
        destruct (r_titles _ _ _ _ Cp Cn H) as (ss & p' & n' & Ss & Ti & Qp & Qn).
        destruct (r_first_line _ _ _ Cm M) as (ms & Sm & J). rewrite flat_map_app in K. apply here_app in K. destruct K as (q & K & P).
        destruct (r_keys _ _ _ Cm K) as (md & Smd & Q1 & Q2 & Q3). destruct (J md Q1 Q2 Q3) as (md' & Jm & Qm).
        destruct (r_postings _ Cps _ _ P) as (ps' & Sp & Qps).
        eexists. split.
        * eapply (directive_transaction E I names i (S i) (S (S i)) b n (S n) q j _ (sp (S i) (S (S i)) (item f)) ss p' n' ms md md' ps' [] [] [] []); try eassumption.
          apply written_sp. apply txn_flag. apply r_flag. exact Tf.
        * constructor; [reflexivity|exact Qm|]. cbn [dir_variant]. rewrite Qv. constructor; [reflexivity|exact Qp|exact Qn|exact Qps].
      + destruct Cv as (Ct & Cvs & Ap). apply here_cons in H. destruct H as [Tk H]. apply here_cons in H. destruct H as [Ts H]. apply here_nil in M. subst n.
        destruct (r_values _ Cvs Ap _ _ H Te) as (vs' & Sv & Qvs). destruct (r_metadata _ _ _ Cm K) as (md & Smd & Qm).
        eexists. split.
        * eapply (directive_custom E I names i (S i) (S (S (S i))) b (S b) j); [exact Wd|exact Tk|apply written_sp; constructor; exact Ts|exact Sv|exact Wl|exact Smd].
        * constructor; [reflexivity|exact Qm|]. cbn [dir_variant]. rewrite Qv. constructor; [reflexivity|exact Qvs].
  Qed.
  Lemma r_whole d i j : common L E names d -> here (o_directive D d) i j -> ~ tok I j T_Indent -> exists d', whole_at E I names i j d' [] /\ alike d d'.
  Proof.
    intros C H N. destruct (r_directive d i j C H) as (d' & Dd & Q). exists d'. split; [|exact Q]. split; [exact Dd|]. split.
    - intros k m [q T _ _]. exact (N T).
    - intros f p n ps _ k a es P. inversion P; subst. contradiction.
  Qed.
End Read.
