(** * The expressions in a displayed document *)
From Coq Require Import String Ascii.
From Coq Require Import List NArith ZArith Arith Bool Lia Permutation.
From Verif Require Import Base BaseFacts Types SpecTypes Decimal SpecDecimal Token SpecOptions Lexer SpecLexer Peg Grammar SpecExpr Display SpecDisplay
  PegFacts ExprFacts P_Arith DisplayLex DisplayText DisplayDirective DisplayLexed SpecGrammar SpecDirective GrammarSafe DisplayRead.
Import ListNotations.
Local Open Scope nat_scope.

Lemma not_in_app {A} (P : A -> Prop) x y : Forall P x -> Forall P y -> Forall P (x ++ y).
Proof. intros. apply Forall_app. auto. Qed.

(** ** Inside an expression *)
Definition joint (a b : token) : Prop :=
  In a [T_Plus; T_Minus; T_Asterisk; T_Slash; T_Lparen] \/ ends_expr a /\ (operator b \/ b = T_Rparen).
Definition chained (ts : list token) : Prop := forall n a b, nth_error ts n = Some a -> nth_error ts (S n) = Some b -> joint a b.
Lemma chained_one t : chained [t].
Proof. intros [|n] a b _ X; cbn in X; [discriminate|destruct n; discriminate]. Qed.
Lemma chained_cons t ts : chained ts -> (forall u r, ts = u :: r -> joint t u) -> chained (t :: ts).
Proof.
  intros C H [|n] a b X Y; cbn in X, Y.
  - injection X as <-. destruct ts as [|u r]; [discriminate|]. injection Y as <-. eapply H. reflexivity.
  - eapply C; eassumption.
Qed.
Lemma chained_app xs x ys : chained (xs ++ [x]) -> chained ys -> (forall u r, ys = u :: r -> joint x u) -> chained (xs ++ x :: ys).
Proof.
  induction xs as [|z xs IH]; intros Cx Cy H; cbn [app] in *.
  - apply chained_cons; assumption.
  - apply chained_cons.
    + apply IH; [|exact Cy|exact H]. intros n a b X Y. exact (Cx (S n) a b X Y).
    + intros u r Q. apply (Cx 0 z u); [reflexivity|]. destruct xs; cbn [app] in Q; injection Q as <- _; reflexivity.
Qed.
Lemma expr_end e : exists l t, written_with e = l ++ [t] /\ ends_expr t.
Proof.
  induction e as [d|a _ b (l & t & Q & Et)|a _ b (l & t & Q & Et)|a _ b (l & t & Q & Et)|a _ b (l & t & Q & Et)|a (l & t & Q & Et)|a _]; cbn [written_with].
  - exists [], (T_Number d). split; [reflexivity|]. right. eauto.
  - rewrite Q. exists (written_with a ++ T_Plus :: l), t. split; [rewrite <- app_assoc; reflexivity|exact Et].
  - rewrite Q. exists (written_with a ++ T_Minus :: l), t. split; [rewrite <- app_assoc; reflexivity|exact Et].
  - rewrite Q. exists (written_with a ++ T_Asterisk :: l), t. split; [rewrite <- app_assoc; reflexivity|exact Et].
  - rewrite Q. exists (written_with a ++ T_Slash :: l), t. split; [rewrite <- app_assoc; reflexivity|exact Et].
  - rewrite Q. exists (T_Minus :: l), t. split; [reflexivity|exact Et].
  - exists (T_Lparen :: written_with a), T_Rparen. split; [reflexivity|]. left. reflexivity.
Qed.
Lemma operator_joint t u : In t [T_Plus; T_Minus; T_Asterisk; T_Slash; T_Lparen] -> joint t u.
Proof. intro H. left. exact H. Qed.
Lemma expr_chained e : chained (written_with e).
Proof.
  assert (Bin : forall a b op, chained (written_with a) -> chained (written_with b) -> operator op -> chained (written_with a ++ op :: written_with b)).
  { intros a b op Ca Cb O. destruct (expr_end a) as (l & t & Q & Et). rewrite Q in Ca |- *. rewrite <- app_assoc. cbn [app]. apply chained_app; [exact Ca| |].
    - apply chained_cons; [exact Cb|]. intros u r _. left. destruct O as [<-|[<-|[<-|[<-|[]]]]]; cbn; auto.
    - intros u r X. injection X as <- _. right. split; [exact Et|left; exact O]. }
  induction e as [d|a IHa b IHb|a IHa b IHb|a IHa b IHb|a IHa b IHb|a IHa|a IHa]; cbn [written_with]; try (apply Bin; [assumption|assumption|cbn; auto 6]).
  - apply chained_one.
  - apply chained_cons; [exact IHa|]. intros u r _. left. cbn. auto.
  - apply chained_cons; [|intros u r _; left; cbn; auto 6]. destruct (expr_end a) as (l & t & Q & Et). rewrite Q in IHa |- *. rewrite <- app_assoc. cbn [app].
    apply chained_app; [exact IHa|apply chained_one|]. intros u r X. injection X as <- _. right. split; [exact Et|right; reflexivity].
Qed.

(** ** Expressions and other tokens *)

(** Tokens outside of expressions. *)
Definition outside (t : token) : Prop :=
  match t with
  | T_Number _ | T_Plus | T_Minus | T_Slash | T_Lparen | T_Rparen => False
  | T_Currency s => Forall ascii s
  | T_Keyword k => k <> K_Option /\ k <> K_Include
  | _ => True
  end.
Definition stop_head (ts : list token) : Prop := match ts with t :: _ => ~ operator t | [] => True end.

Lemma currency_lang_ascii c : currency_lang c -> Forall ascii c.
Proof.
  unfold ascii. intros [_ [(a & -> & U)|(a & m & z & -> & A & M & Z)]]; unfold upper, digit in *.
  - constructor; [lia|constructor].
  - constructor; [lia|]. apply Forall_app. split; [|constructor; [lia|constructor]]. eapply Forall_impl; [|exact M]. intros x X. unfold currency_middle, upper, digit in X. lia.
Qed.

Section Laid.
  Context (E : grammar_env).

  Inductive laid_out : list token -> Prop :=
  | lo_nil : laid_out []
  | lo_token t ts : outside t -> laid_out ts -> laid_out (t :: ts)
  | lo_value v ts : common_value E v -> stop_head ts -> laid_out ts -> laid_out (t_value v ++ ts).

  Lemma laid_tokens ts : laid_out ts -> forall t, In t ts -> outside t \/ (exists d, t = T_Number d) \/ operator t \/ t = T_Lparen \/ t = T_Rparen.
  Proof.
    assert (Ex : forall e t, In t (written_with e) -> (exists d, t = T_Number d) \/ operator t \/ t = T_Lparen \/ t = T_Rparen).
    { induction e as [d|a IHa b IHb|a IHa b IHb|a IHa b IHb|a IHa b IHb|a IHa|a IHa]; cbn [written_with]; intros t H.
      - destruct H as [<-|[]]. eauto.
      - apply in_app_iff in H. destruct H as [H|[<-|H]]; auto. right; left; cbn; auto.
      - apply in_app_iff in H. destruct H as [H|[<-|H]]; auto. right; left; cbn; auto.
      - apply in_app_iff in H. destruct H as [H|[<-|H]]; auto. right; left; cbn; auto.
      - apply in_app_iff in H. destruct H as [H|[<-|H]]; auto. right; left; cbn; auto.
      - destruct H as [<-|H]; auto. right; left; cbn; auto.
      - destruct H as [<-|H]; [auto|]. apply in_app_iff in H. destruct H as [H|[<-|[]]]; auto. }
    induction 1 as [|u ts O _ IH|v ts C S _ IH]; intros t H; [destruct H| |].
    - destruct H as [<-|H]; auto.
    - apply in_app_iff in H. destruct H as [H|H]; [right; exact (Ex _ _ H)|auto].
  Qed.

  Lemma outside_starts t : outside t -> ~ starts_expr t.
  Proof. intros O [->|[->|[->|[d ->]]]]; exact O. Qed.

  Section At.
    Context (I : input).
    Lemma here_nth ts i k : here I ts i k -> forall n t, nth_error ts n = Some t -> tok I (i + n) t.
    Proof.
      revert i. induction ts as [|u ts IH]; intros i H n t X; [destruct n; discriminate|]. apply here_cons in H. destruct H as [T H]. destruct n as [|n]; cbn in X.
      - injection X as <-. rewrite Nat.add_0_r. exact T.
      - rewrite Nat.add_succ_r. exact (IH (S i) H n t X).
    Qed.
    Lemma longest_once i j e j' e' : longest (sum I) i j e -> longest (sum I) i j' e' -> e = e'.
    Proof.
      intros [A M] [B M']. assert (j = j') as <- by (apply Nat.le_antisymm; [exact (M' _ _ A)|exact (M _ _ B)]). exact (sum_unique I i j e e' A B).
    Qed.
    Lemma laid_worth ts : laid_out ts -> forall i0 k, here I ts i0 k -> stops I k -> forall i, i0 <= i -> i < k -> may_start I i ->
      forall j e, longest (sum I) i j e -> exists v, worth (g_ops E) v /\ ev_expr v = e.
    Proof.
      induction 1 as [|t ts O _ IH|v ts C S Lo IH]; intros i0 k H Sk i Hi Hk Ms j e Le.
      - apply here_nil in H. lia.
      - apply here_cons in H. destruct H as [T H]. destruct (Nat.eq_dec i i0) as [->|Ne]; [|apply (IH (S i0) k H Sk i ltac:(lia) Hk Ms j e Le)].
        exfalso. destruct (proj1 (expr_first I) _ _ _ (proj1 Le)) as (t' & T' & St). rewrite (tok_fun _ _ _ _ T' T) in St. exact (outside_starts t O St).
      - apply here_app in H. destruct H as (m & H & K). destruct (le_lt_dec m i) as [Hm|Hm]; [exact (IH m k K Sk i Hm Hk Ms j e Le)|].
        assert (Sm : stops I m).
        { destruct ts as [|t ts]; [apply here_nil in K; subst; exact Sk|]. apply here_cons in K. destruct K as [K _]. intros u T. rewrite (tok_fun _ _ _ _ T K). exact S. }
        destruct (Nat.eq_dec i i0) as [->|Ne].
        + exists v. split; [apply C|]. eapply longest_once; [|exact Le]. apply longest_expr; [apply C|exact H|exact Sm].
        + exfalso. destruct i as [|p]; [lia|]. assert (Len : m = i0 + List.length (written_with (ev_expr v))) by (destruct H; assumption).
          destruct (nth_error (written_with (ev_expr v)) (p - i0)) as [a|] eqn:Qa; [|apply nth_error_None in Qa; lia].
          destruct (nth_error (written_with (ev_expr v)) (Datatypes.S (p - i0))) as [b|] eqn:Qb; [|apply nth_error_None in Qb; lia].
          pose proof (expr_chained (ev_expr v) _ _ _ Qa Qb) as J.
          pose proof (here_nth _ _ _ H _ _ Qa) as Ta. pose proof (here_nth _ _ _ H _ _ Qb) as Tb.
          replace (i0 + (p - i0)) with p in Ta by lia. replace (i0 + Datatypes.S (p - i0)) with (Datatypes.S p) in Tb by lia.
          destruct (Ms p a eq_refl Ta) as [M1 M2]. destruct J as [J|[Ea J]]; [exact (M1 J)|]. destruct (M2 Ea) as [Np Nm].
          destruct (proj1 (expr_first I) _ _ _ (proj1 Le)) as (t' & T' & St). pose proof (tok_fun _ _ _ _ T' Tb) as ->.
          destruct J as [J|J]; [|subst b; destruct St as [St|[St|[St|[d St]]]]; discriminate].
          destruct J as [J|[J|[J|[J|[]]]]]; subst b; [exact (Np Tb)|exact (Nm Tb)| |]; destruct St as [St|[St|[St|[d St]]]]; discriminate.
    Qed.

    Lemma laid_computable : laid_out (map fst (in_tokens I)) -> computable E I.
    Proof.
      intro Lo. assert (Tk : forall i t, tok I i t -> In t (map fst (in_tokens I))).
      { intros i t [r X]. apply nth_error_In in X. apply in_map_iff. exists (t, r). auto. }
      split.
      - intros i s T. destruct (laid_tokens _ Lo _ (Tk _ _ T)) as [O|[[d X]|[O|[X|X]]]]; try discriminate; [exact O|].
        cbn in O. repeat (destruct O as [O|O]; [discriminate|]). destruct O.
      - intros i j e Ms Le. apply (laid_worth _ Lo 0 (List.length (in_tokens I)) (here_all I _ eq_refl)) with (i := i) (j := j); [|lia| |exact Ms|exact Le].
        + intros t [r X]. apply (f_equal (fun o => match o with Some _ => true | None => false end)) in X. exfalso.
          assert (Y : nth_error (in_tokens I) (List.length (in_tokens I)) = None) by (apply nth_error_None; lia). rewrite Y in X. discriminate.
        + destruct (proj1 (expr_first I) _ _ _ (proj1 Le)) as (t & T & _). exact (tok_lt I i t T).
    Qed.
    Lemma laid_no_keyword k : laid_out (map fst (in_tokens I)) -> In k [K_Option; K_Include] -> forall i, ~ tok I i (T_Keyword k).
    Proof.
      intros Lo Hk i [r X]. apply nth_error_In in X. assert (Hin : In (T_Keyword k) (map fst (in_tokens I))) by (apply in_map_iff; exists (T_Keyword k, r); auto).
      destruct (laid_tokens _ Lo _ Hin) as [[O1 O2]|[[d Y]|[O|[Y|Y]]]]; try discriminate.
      - destruct Hk as [<-|[<-|[]]]; congruence.
      - cbn in O. repeat (destruct O as [O|O]; [discriminate|]). destruct O.
    Qed.
  End At.

  (** ** Putting together *)
  Definition closed (a : list token) : Prop := forall b, laid_out b -> laid_out (a ++ b).
  Definition open_ (a : list token) : Prop := forall b, stop_head b -> laid_out b -> laid_out (a ++ b).
  Lemma closed_open a : closed a -> open_ a.
  Proof. intros C b _ H. exact (C b H). Qed.
  Lemma closed_nil : closed [].
  Proof. intros b H. exact H. Qed.
  Lemma closed_cons t a : outside t -> closed a -> closed (t :: a).
  Proof. intros O C b H. constructor; [exact O|exact (C b H)]. Qed.
  Lemma open_cons t a : outside t -> open_ a -> open_ (t :: a).
  Proof. intros O C b S H. constructor; [exact O|exact (C b S H)]. Qed.
  Lemma closed_all a : Forall outside a -> closed a.
  Proof. induction 1; [apply closed_nil|apply closed_cons; assumption]. Qed.
  Lemma closed_app a b : closed a -> closed b -> closed (a ++ b).
  Proof. intros A B c H. rewrite <- app_assoc. apply A, B, H. Qed.
  Lemma closed_open_app a b : closed a -> open_ b -> open_ (a ++ b).
  Proof. intros A B c S H. rewrite <- app_assoc. apply A, B; assumption. Qed.
  Lemma open_closed a b : open_ a -> closed b -> b <> [] -> stop_head b -> closed (a ++ b).
  Proof. intros A B N S c H. rewrite <- app_assoc. apply A; [destruct b; [congruence|exact S]|apply B; exact H]. Qed.
  Lemma open_app a b : open_ a -> open_ b -> stop_head b -> open_ (a ++ b).
  Proof. intros A B S c Sc H. rewrite <- app_assoc. apply A; [destruct b; [exact Sc|exact S]|apply B; assumption]. Qed.
  Lemma closed_flat_map {A} (f : A -> list token) l : Forall (fun x => closed (f x)) l -> closed (flat_map f l).
  Proof. induction 1; [apply closed_nil|]. cbn [flat_map]. apply closed_app; assumption. Qed.
  Lemma open_value v : common_value E v -> open_ (t_value v).
  Proof. intros C b S H. apply lo_value; assumption. Qed.
  Lemma currency_outside c : common_currency c -> outside (T_Currency c).
  Proof. intros (_ & _ & C). cbn. exact (currency_lang_ascii c C). Qed.

  (** ** What is displayed *)
  Context (L : lexer_env) (names : account_type -> str) (D : display_env) (Dok : display_ok D).

  Ltac out := repeat first [apply closed_nil | apply closed_cons; [exact Logic.I || (split; discriminate) || (apply currency_outside; assumption)|]].
  Lemma flag_outside f : outside (t_flag f).
  Proof. destruct f; exact Logic.I. Qed.
  Lemma closed_amount a : common_amount E a -> closed (t_amount a).
  Proof. intros [V C]. apply open_closed; [apply open_value; exact V|out|discriminate|]. intro O. cbn in O. repeat (destruct O as [O|O]; [discriminate|]). destruct O. Qed.
  Lemma closed_simple v : common_simple L E names v -> (forall e, v <> SV_Expr e) -> closed (t_simple v).
  Proof. destruct v as [s|c|a|t|l|d|[]| |e]; cbn [t_simple common_simple]; intros C N; try (destruct (N e eq_refl)); out. Qed.
  Lemma open_meta_value v : common_meta_value L E names v -> open_ (t_meta_value v).
  Proof.
    destruct v as [v|a]; intro C; [|apply closed_open, closed_amount; exact C]. destruct v; try (apply closed_open, closed_simple; [exact C|discriminate]). apply open_value. exact C.
  Qed.
  Lemma closed_line l : open_ l -> closed (as_line l).
  Proof. intro O. unfold as_line. apply closed_cons; [exact Logic.I|]. apply open_closed; [exact O|out|discriminate|]. intro X. cbn in X. repeat (destruct X as [X|X]; [discriminate|]). destruct X. Qed.
  Lemma open_metadatum m : common_metadatum L E names m -> open_ (t_metadatum m).
  Proof.
    destruct m as [kv|t|t]; cbn [t_metadatum]; intro C; [|apply closed_open; out|apply closed_open; out].
    unfold t_key_value. cbn [fst snd]. do 2 (apply open_cons; [exact Logic.I|]). apply open_meta_value. apply C.
  Qed.
  Lemma closed_lines ms : Forall (common_metadatum L E names) ms -> closed (flat_map as_line (map t_metadatum ms)).
  Proof. intro F. apply closed_flat_map. apply Forall_map. eapply Forall_impl; [|exact F]. intros m C. apply closed_line, open_metadatum, C. Qed.
  Lemma closed_metadata m : common_metadata L E names m -> closed (flat_map as_line (l_of_metadata D T_Key m)).
  Proof.
    intros [Ck Ct Cl _ _ _]. unfold l_of_metadata. rewrite l_items. apply closed_lines. destruct Dok as [_ _ Ds Dm]. apply common_items; eapply forall_order; eauto.
  Qed.
  Lemma closed_keys m : common_metadata L E names m -> closed (flat_map as_line (l_of_keys D T_Key m)).
  Proof.
    intros [Ck Ct Cl _ _ _]. unfold l_of_keys. rewrite l_only_keys. apply closed_lines. destruct Dok as [_ _ Ds Dm]. apply common_items; [constructor|constructor|]. eapply forall_order; eauto.
  Qed.
  Lemma closed_marks tags links : closed (t_marks tags links).
  Proof. unfold t_marks. apply closed_app; apply closed_all, Forall_map, Forall_forall; intros; exact Logic.I. Qed.

  Lemma stop_not t ts : (operator t -> False) -> stop_head (t :: ts).
  Proof. intros H O. exact (H O). Qed.
  Ltac nop := first [exact Logic.I | apply stop_not; let X := fresh in intro X; cbn in X; repeat (destruct X as [X|X]; [discriminate|]); destruct X].

  Lemma open_between l : Forall open_ l -> open_ (between [T_Comma] l).
  Proof.
    intro F. induction F as [|x l O F IH]; [apply closed_open, closed_nil|]. destruct F as [|y l O' F]; [exact O|].
    change (between [T_Comma] (x :: y :: l)) with (x ++ T_Comma :: between [T_Comma] (y :: l)). apply open_app; [exact O|apply open_cons; [exact Logic.I|exact IH]|nop].
  Qed.
  Lemma closed_cost c : common_cost E c -> closed (t_cost c).
  Proof.
    intros (P & T & U & _). unfold t_cost. apply closed_cons; [exact Logic.I|]. apply open_closed; [|out|discriminate|nop]. apply open_between.
    rewrite cost_pairs_tokens. unfold cost_pairs. rewrite !map_app. repeat (apply Forall_app; split).
    - rewrite map_map. cbn [fst]. apply Forall_map, Forall_forall. intros x _. unfold t_cost_amount, amount_parts.
      destruct (cs_per_unit c) as [p|], (cs_total c) as [t|], (cs_currency c) as [u|]; cbn [app between optional] in *;
        repeat first [apply open_value; assumption | apply closed_open; out; fail | apply open_cons; [exact Logic.I|] | apply open_app; [| |nop]].
    - destruct (cs_date c); constructor; [|constructor]. apply closed_open. out.
    - destruct (cs_label c); constructor; [|constructor]. apply closed_open. out.
    - destruct (cs_merge c); constructor; [|constructor]. apply closed_open. out.
  Qed.
  Lemma open_price p : common_price E p -> open_ (t_price p).
  Proof.
    destruct p as [|c|[v|v]|[v|v] c]; cbn [t_price t_scoped common_price common_scoped]; intro C; try contradiction.
    - apply closed_open. out.
    - apply closed_open. out.
    - apply open_value. exact C.
    - destruct C. apply open_app; [apply open_value; assumption|apply closed_open; out|nop].
    - destruct C as [[] _].
  Qed.
  Lemma open_posting p : common_posting L E names p -> open_ (t_posting p).
  Proof.
    intros [Cf Ca Cn Cu Cc Cp Cm]. unfold t_posting. apply closed_open_app; [destruct (po_flag p); cbn [t_options]; [apply closed_cons; [apply flag_outside|]|]; apply closed_nil|].
    cbn [app]. apply open_cons; [exact Logic.I|].
    assert (Op : open_ (t_options (fun x => T_At :: t_price x) (po_price p))).
    { destruct (po_price p); cbn [t_options]; [apply open_cons; [exact Logic.I|apply open_price; exact Cp]|apply closed_open, closed_nil]. }
    assert (Oc : open_ (t_options t_cost (po_cost_spec p) ++ t_options (fun x => T_At :: t_price x) (po_price p))).
    { apply closed_open_app; [|exact Op]. destruct (po_cost_spec p); cbn [t_options]; [apply closed_cost; exact Cc|apply closed_nil]. }
    assert (Ou : open_ (t_options (fun c => [T_Currency c]) (po_currency p) ++ t_options t_cost (po_cost_spec p) ++ t_options (fun x => T_At :: t_price x) (po_price p))).
    { apply closed_open_app; [|exact Oc]. destruct (po_currency p); cbn [t_options optional] in *; out. }
    apply open_app; [|exact Ou|].
    - destruct (po_amount p); cbn [t_options]; [apply open_value; exact Cn|apply closed_open, closed_nil].
    - destruct (po_currency p); cbn [t_options app]; [nop|]. destruct (po_cost_spec p); cbn [t_options app]; [nop|]. destruct (po_price p); cbn [t_options app]; nop.
  Qed.
  Lemma closed_postings ps : Forall (fun p => common_posting L E names (item p)) ps -> closed (flat_map as_line (flat_map (fun p => l_posting D T_Key (item p)) ps)).
  Proof.
    induction 1 as [|p ps C F IH]; [apply closed_nil|]. cbn [flat_map]. rewrite flat_map_app. apply closed_app; [|exact IH]. unfold l_posting. cbn [flat_map].
    apply closed_app; [apply closed_line, open_posting; exact C|apply closed_metadata; apply C].
  Qed.
  Lemma open_values vs : Forall (fun v : spanned meta_value => common_meta_value L E names (item v)) vs -> all_apart (map item vs) -> open_ (flat_map (fun v => t_meta_value (item v)) vs).
  Proof.
    induction 1 as [|v vs C F IH]; intro A; [apply closed_open, closed_nil|]. cbn [flat_map].
    assert (A' : all_apart (map item vs)) by (destruct vs as [|w vs]; [exact Logic.I|apply A]). specialize (IH A').
    destruct (item v) as [[s|c|a|t|l|d|bb| |e]|a] eqn:Qi; try (apply closed_open_app; [apply closed_simple; [exact C|discriminate]|exact IH]).
    - apply open_app; [apply open_value; exact C|exact IH|]. destruct vs as [|w vs]; [exact Logic.I|]. cbn [map flat_map] in *. rewrite Qi in A. destruct A as [A _].
      destruct (A (ex_intro _ e eq_refl)) as [_ As]. destruct (meta_value_head (item w)) as (t & r & Qt & Ho & _). rewrite Qt. intro O. exact (As (Ho O)).
    - apply closed_open_app; [apply closed_amount; exact C|exact IH].
  Qed.
  Lemma closed_fields v : common_variant L E names v -> (forall t vs, v <> V_Custom t vs) -> closed (t_fields D v).
  Proof.
    intros C N. destruct v as [f p n ps|c a|a t|a cs b|a|c|a s|a s|a s|a s|a s|t vs]; cbn [t_fields common_variant] in *.
    - apply closed_cons; [apply flag_outside|]. destruct p, n; cbn [t_options app]; out.
    - destruct C. out. apply closed_amount. assumption.
    - destruct C as (_ & C & _). out. apply closed_amount. exact C.
    - destruct C as (_ & C & _). out. apply closed_app; [|destruct b; cbn [t_options]; out]. destruct Dok as [_ _ Ds _]. apply (forall_order _ _ _ (Ds cs)) in C.
      induction C as [|x l Cx F IH]; [out|]. destruct l as [|y l]; cbn [map between] in *; out. exact IH.
    - out.
    - out.
    - out.
    - out.
    - out.
    - out.
    - out.
    - destruct (N t vs eq_refl).
  Qed.
  Lemma closed_directive d : common L E names d -> closed (o_directive D d).
  Proof.
    intros [_ Cm Cv]. unfold o_directive. rewrite as_lines. unfold t_header, l_directive.
    assert (Fi : (forall t vs, dir_variant d <> V_Custom t vs) -> forall l, closed (flat_map as_line l) ->
      closed ((T_Date (item (dir_date d)) :: t_fields D (dir_variant d) ++ t_of_marks D (item (dir_metadata d))) ++ T_Eol :: flat_map as_line l)).
    { intros N l Cl. apply closed_app; [|apply closed_cons; [exact Logic.I|exact Cl]]. apply closed_cons; [exact Logic.I|]. apply closed_app; [apply closed_fields; assumption|apply closed_marks]. }
    destruct (dir_variant d) as [f p n ps|c a|a t|a cs b|a|c|a s|a s|a s|a s|a s|t vs] eqn:Q; try (apply Fi; [discriminate|apply closed_keys; exact Cm]).
    - apply Fi; [discriminate|]. rewrite flat_map_app. apply closed_app; [apply closed_keys; exact Cm|apply closed_postings; apply Cv].
    - clear Fi. cbn [t_fields]. rewrite app_nil_r. cbn [app]. apply closed_cons; [exact Logic.I|]. apply closed_cons; [split; discriminate|]. apply closed_cons; [exact Logic.I|].
      apply open_closed; [apply open_values; apply Cv|apply closed_cons; [exact Logic.I|apply closed_metadata; exact Cm]|discriminate|nop].
  Qed.
  Lemma laid_document_ ds : Forall (common L E names) ds -> laid_out (flat_map (o_directive D) ds).
  Proof.
    intro F. rewrite <- (app_nil_r (flat_map (o_directive D) ds)). apply closed_flat_map; [|constructor]. eapply Forall_impl; [|exact F]. intros d C. apply closed_directive. exact C.
  Qed.
End Laid.
