(** * The example programs (C60, C61) *)
From Coq Require Import String Ascii.
From Coq Require Import List NArith ZArith QArith Arith Bool Lia Permutation.
From Verif Require Import Base BaseFacts Types Decimal SpecDecimal SortM SpecSort Sources Read SpecRead P_Read Display Report SpecReport P_Report Grammar Parse Messages Checks SpecChecks
  Path SpecPath Pragma SpecPragma Token Lexer SpecOptions SpecLexer P_Lexer Options P_Grammar P_File P_Includes SpecParse SpecWhole P_Parse P_Written P_Messages DecimalFacts P_Display.
Import ListNotations.
Local Open Scope nat_scope.

(** ** Sums *)
Section Sums.
  Context (add : decimal -> decimal -> outcome decimal) (Add : op_ok add Qplus (fun _ => True)).

  Lemma representable_eq p q : (p == q)%Q -> representable p -> representable q.
  Proof. intros E (d & V & H). exists d. split; [exact V|]. now rewrite H. Qed.

  Lemma sum_from_exact l : forall acc, dec_valid acc -> Forall (fun a => dec_valid (ev_value (item a))) l ->
    (forall a b, l = a ++ b -> representable (dec_value acc + exact_sum a)) ->
    exists t, sum_from add acc (map (fun a => ev_value (item a)) l) = Fine t /\ (dec_value t == dec_value acc + exact_sum l)%Q.
  Proof.
    induction l as [|x l IH]; intros acc V F R; cbn [map sum_from exact_sum].
    - exists acc. split; [reflexivity|]. now rewrite Qplus_0_r.
    - inversion F as [|? ? Vx Fl]; subst.
      destruct (oo_exact _ _ _ Add acc (ev_value (item x)) V Vx Logic.I) as (t & Qt & Et).
      { eapply representable_eq; [|exact (R [x] l eq_refl)]. cbn [exact_sum]. now rewrite Qplus_0_r. }
      rewrite Qt. destruct (IH t (oo_valid _ _ _ Add _ _ _ V Vx Qt) Fl) as (r & Qr & Er).
      + intros a b ->. eapply representable_eq; [|exact (R (x :: a) b eq_refl)]. cbn [exact_sum]. rewrite Et. ring.
      + exists r. split; [exact Qr|]. rewrite Er, Et. ring.
  Qed.

  Lemma exact_sum_app a b : (exact_sum (a ++ b) == exact_sum a + exact_sum b)%Q.
  Proof. induction a as [|x a IH]; cbn [app exact_sum]; [now rewrite Qplus_0_l|]. rewrite IH. ring. Qed.
  Lemma exact_sum_permutation a b : Permutation a b -> (exact_sum a == exact_sum b)%Q.
  Proof.
    induction 1 as [|x a b _ IH|x y a|a b c _ IH _ IH']; cbn [exact_sum]; [reflexivity|now rewrite IH|ring|now rewrite IH].
  Qed.
  Lemma sums_fit_permutation a b : Permutation a b -> sums_fit a -> sums_fit b.
  Proof.
    intros P [V R]. split; [eapply Permutation_Forall; eassumption|]. intros some rest Q. apply (R some rest). now rewrite P.
  Qed.
  Lemma sum_exact l : sums_fit l -> exists t, sum add (map (fun a => ev_value (item a)) l) = Fine t /\ (dec_value t == exact_sum l)%Q.
  Proof.
    intros [V R]. destruct (sum_from_exact l dec_zero) as (t & Q & E).
    - split; cbn; [reflexivity|apply Nat.le_0_l].
    - exact V.
    - intros a b ->. eapply representable_eq; [|exact (R a b (Permutation_refl _))].
      assert (Z : (dec_value dec_zero == 0)%Q) by reflexivity. rewrite Z. now rewrite Qplus_0_l.
    - exists t. split; [exact Q|]. rewrite E. assert (Z : (dec_value dec_zero == 0)%Q) by reflexivity. rewrite Z. now rewrite Qplus_0_l.
  Qed.

  Lemma ten_pow_pos n : (0 < ten_pow n)%Q.
  Proof. unfold ten_pow. change 0%Q with (inject_Z 0). rewrite <- Zlt_Qlt. apply Z.pow_pos_nonneg; lia. Qed.
  Lemma is_zero_iff d : is_zero d = true <-> (dec_value d == 0)%Q.
  Proof.
    unfold is_zero. rewrite N.eqb_eq. unfold dec_value. pose proof (ten_pow_pos (dec_scale d)) as P. split.
    - intros ->. destruct (dec_neg d); cbn; unfold Qdiv; apply Qmult_0_l.
    - intro H. assert (X : (inject_Z (if dec_neg d then - Z.of_N (dec_mant d) else Z.of_N (dec_mant d)) == 0)%Q).
      { rewrite <- (Qmult_div_r (inject_Z _) (ten_pow (dec_scale d))); [rewrite H; apply Qmult_0_r|]. intro Z. rewrite Z in P. discriminate P. }
      change 0%Q with (inject_Z 0) in X. apply (proj1 (inject_Z_injective _ _)) in X. destruct (dec_neg d); lia.
  Qed.

  Lemma pop_some {A} (l : list A) x : pop (l ++ [x]) = Some (x, l).
  Proof. induction l as [|y l IH]; [reflexivity|]. cbn [app pop]. rewrite IH. destruct l; reflexivity. Qed.
  Lemma pop_cases {A} (l : list A) : l = [] \/ exists r x, l = r ++ [x] /\ pop l = Some (x, r).
  Proof.
    destruct l as [|y l] using rev_ind; [now left|]. right. exists l, y. split; [reflexivity|apply pop_some].
  Qed.
End Sums.

(** ** Errors and warnings *)
Lemma directive_named d : (el_type (directive_element d), el_span (directive_element d)) = the_directive d.
Proof. unfold the_directive, directive_element. cbn. destruct (dir_variant (item d)); reflexivity. Qed.

Ltac the_notice := unfold saying; constructor; try reflexivity; cbn;
  rewrite ?map_map; repeat match goal with |- context [labelled_span (directive_element ?d)] => change (labelled_span (directive_element d)) with (el_type (directive_element d), el_span (directive_element d)); rewrite (directive_named d) end; try reflexivity.

Section Balance.
  Context (add : decimal -> decimal -> outcome decimal) (Add : op_ok add Qplus (fun _ => True)) (show : decimal -> str).

  Lemma unwrap_all ps as_ : all_amounts ps as_ -> unwrap_amounts ps = Fine as_.
  Proof. induction 1 as [|p a ps as_ H _ IH]; [reflexivity|]. cbn. now rewrite H, IH. Qed.
  Lemma given_all ps : Forall has_amount ps -> exists as_, all_amounts ps as_.
  Proof. induction 1 as [|p ps (a & H) _ (as_ & IH)]; [exists []; constructor|]. exists (a :: as_). now constructor. Qed.
  Lemma all_amounts_permutation ps ps' as_ : Permutation ps ps' -> all_amounts ps as_ -> exists as_', all_amounts ps' as_' /\ Permutation as_ as_'.
  Proof. intros P H. destruct (Permutation_Forall2 P H) as (as_' & Pa & F). exists as_'. split; assumption. Qed.

  Lemma unbalanced_notice d last_ others total n :
    (dec_value total == exact_sum (others ++ [last_]))%Q ->
    n = in_context (related_to_all (spanned_error (amount_element last_) (sum_text show total)) (map amount_element others)) (directive_element d) ->
    tells_sum show d last_ others n.
  Proof. intros Q ->. exists total. split; [exact Q|]. the_notice. Qed.

  Context (partition : list (spanned posting) -> list (spanned posting) * nat) (Part : partitions partition).

  Lemma check_balance_spec d : (forall ps as_, is_transaction d ps -> all_amounts ps as_ -> sums_fit as_) ->
    exists es ws, check_balance add show partition d = Fine (es, ws) /\ balance_verdict show d es ws.
  Proof.
    intro Fit. destruct (dir_variant (item d)) as [fl payee narration ps| | | | | | | | | | |] eqn:V.
    2-12: exists [], []; split; [unfold check_balance; rewrite V; reflexivity|apply bv_other; intros ps (? & ? & ? & Q); rewrite Q in V; discriminate].
    assert (T : is_transaction d ps) by (exists fl, payee, narration; exact V).
    unfold check_balance. rewrite V. destruct (Part ps) as (given & lack & -> & P & G & Lk).
    pose proof (Permutation_length P) as Len. rewrite app_length in Len.
    destruct (given ++ lack) as [|p0 rest] eqn:Q.
    { eexists [], [_]. split; [reflexivity|]. apply Permutation_sym, Permutation_nil in P. subst ps. apply bv_empty; [exact T|]. the_notice. }
    rewrite <- Q in *. cbn match. replace (match given ++ lack with [] => true | _ => false end) with false by (now rewrite Q).
    destruct (Nat.ltb_spec (List.length given + 1) (List.length ps)) as [Lt|Ge].
    { rewrite (proj2 (Nat.leb_le _ _)) by (rewrite app_length; lia). eexists [_], []. split; [reflexivity|].
      apply (bv_many _ _ ps lack); [exact T|exists given; auto|lia|].
      replace (skipn (List.length given) (given ++ lack)) with lack by (rewrite skipn_app, skipn_all, Nat.sub_diag; reflexivity). the_notice. }
    destruct (Nat.eqb_spec (List.length given) (List.length ps)) as [Eq|Ne].
    2:{ exists [], []. split; [reflexivity|]. destruct lack as [|p [|? ?]]; cbn in Len; try lia. apply (bv_inferred _ _ ps p); [exact T|]. exists given. auto. }
    assert (lack = []) as -> by (destruct lack; [reflexivity|cbn in Len; lia]). rewrite app_nil_r in *.
    destruct (given_all given G) as (as' & A').
    destruct (all_amounts_permutation given ps as' (Permutation_sym P) A') as (as_ & A & Pa).
    pose proof (Fit ps as_ T A) as Fa. pose proof (sums_fit_permutation _ _ (Permutation_sym Pa) Fa) as Fa'.
    rewrite (unwrap_all _ _ A'). destruct (sum_exact add Add as' Fa') as (total & -> & Ht).
    pose proof (exact_sum_permutation _ _ Pa) as Es.
    destruct (is_zero total) eqn:Z.
    - exists [], []. split; [reflexivity|]. apply is_zero_iff in Z. apply (bv_balanced _ _ ps as_); [exact T| |exact A|].
      + intros ->. apply Permutation_nil in P. subst given. discriminate.
      + now rewrite <- Es, <- Ht.
    - assert (NZ : ~ (dec_value total == 0)%Q) by (intro X; apply is_zero_iff in X; congruence).
      destruct (pop_cases as') as [->|(others & last_ & -> & Pp)].
      { exfalso. apply NZ. rewrite Ht. reflexivity. }
      rewrite Pp. eexists [_], []. split; [reflexivity|].
      apply (bv_unbalanced _ _ ps as_ last_ others); [exact T|exact A| |exact (Permutation_sym Pa)|].
      + intro X. apply NZ. now rewrite Ht, Es.
      + eapply unbalanced_notice; [exact Ht|reflexivity].
  Qed.

  (** What check-postings-balance.rs, which is also the example in the
      documentation, finds. *)
  Theorem C60_balances : forall ds, sums_fit_in ds ->
    exists es ws, check_balances add show partition ds = Fine (es, ws) /\ balance_verdicts show ds es ws.
  Proof.
    induction ds as [|d ds IH]; intro Fit; [exists [], []; split; [reflexivity|constructor]|].
    destruct (check_balance_spec d) as (es & ws & Q & V). { intros ps as_. apply Fit. now left. }
    destruct IH as (es' & ws' & Q' & V'). { intros d' ps as_ I. apply Fit. now right. }
    exists (es ++ es'), (ws ++ ws'). split; [cbn; now rewrite Q, Q'|now constructor].
  Qed.
End Balance.

(** ** The state of accounts *)
Section Status.
  Context (k : str).

  Lemma opens_dec d : opens k d \/ ~ opens k d.
  Proof.
    destruct (dir_variant (item d)) as [| | |a cs b| | | | | | | |] eqn:V; try (right; intros (? & ? & ? & Q & _); rewrite Q in V; discriminate).
    destruct (list_eq_dec N.eq_dec (acc_name (item a)) k) as [Q|Q]; [left; exists a, cs, b; auto|].
    right. intros (a' & ? & ? & Q' & H). rewrite Q' in V. injection V as -> _ _. auto.
  Qed.
  Lemma closes_dec d : closes k d \/ ~ closes k d.
  Proof.
    destruct (dir_variant (item d)) as [| | | |a| | | | | | |] eqn:V; try (right; intros (? & Q & _); rewrite Q in V; discriminate).
    destruct (list_eq_dec N.eq_dec (acc_name (item a)) k) as [Q|Q]; [left; exists a; auto|].
    right. intros (a' & Q' & H). rewrite Q' in V. injection V as ->. auto.
  Qed.
  Lemma opens_not_closes d : opens k d -> ~ closes k d.
  Proof. intros (a & cs & b & V & _) (a' & V' & _). rewrite V in V'. discriminate. Qed.
  Lemma opened_dec l : never_opened k l \/ exists o, In o l /\ opens k o.
  Proof.
    induction l as [|d l [N|(o & I & O)]]; [left; intros d []| |right; exists o; cbn; auto].
    destruct (opens_dec d) as [O|O]; [right; exists d; cbn; auto|]. left. intros x [<-|I]; auto.
  Qed.

  Lemma split_snoc {A} (l : list A) d a x b : l ++ [d] = a ++ x :: b ->
    (b = [] /\ a = l /\ x = d) \/ exists b', b = b' ++ [d] /\ l = a ++ x :: b'.
  Proof.
    destruct b as [|y b] using rev_ind; intro H.
    - apply app_inj_tail in H as [-> ->]. auto.
    - right. exists b. change (a ++ x :: b ++ [y]) with (a ++ (x :: b) ++ [y]) in H. rewrite app_assoc in H. apply app_inj_tail in H as [-> ->]. auto.
  Qed.

  Lemma opened_by_app l r o : opened_by k l o -> opened_by k (l ++ r) o.
  Proof. intros (a & b & -> & H). exists a, (b ++ r). split; [now rewrite <- app_assoc|exact H]. Qed.
  Lemma closed_by_app l r c : closed_by k l c -> closed_by k (l ++ r) c.
  Proof. intros (a & b & -> & H). exists a, (b ++ r). split; [now rewrite <- app_assoc|exact H]. Qed.
  Lemma opened_by_opened l o : opened_by k l o -> exists o, In o l /\ opens k o.
  Proof. intros (a & b & -> & O & _). exists o. split; [apply in_elt|exact O]. Qed.
  Lemma closed_by_snoc l d c : closed_by k (l ++ [d]) c -> closed_by k l c \/ (c = d /\ closes k d /\ exists o, In o l /\ opens k o).
  Proof.
    intros (a & b & Q & C & O & N). apply split_snoc in Q as [(-> & -> & ->)|(b' & -> & ->)]; [auto|]. left. exists a, b'. auto.
  Qed.
  Lemma first_closing l : (exists c, closed_by k l c) \/ (forall x y z, l = x ++ y :: z -> closes k y -> never_opened k x).
  Proof.
    induction l as [|d l [(c & C)|N]] using rev_ind; [right; intros [|? ?] ? ?; discriminate|left; exists c; now apply closed_by_app|].
    destruct (closes_dec d) as [C|C]; [destruct (opened_dec l) as [O|O]|].
    - right. intros x y z Q Cy. apply split_snoc in Q as [(-> & -> & ->)|(b' & -> & ->)]; [exact O|]. eapply N; [reflexivity|exact Cy].
    - left. exists d. exists l, []. auto.
    - right. intros x y z Q Cy. apply split_snoc in Q as [(-> & -> & ->)|(b' & -> & ->)]; [contradiction|]. eapply N; [reflexivity|exact Cy].
  Qed.

  Lemma opened_first l : (exists o, In o l /\ opens k o) -> exists o, opened_by k l o.
  Proof.
    induction l as [|d l IH] using rev_ind; intros (o & I & O); [destruct I|].
    destruct (opened_dec l) as [N|X]; [|destruct (IH X) as (o' & H); exists o'; now apply opened_by_app].
    apply in_app_or in I as [I|[<-|[]]]; [destruct (N _ I O)|]. exists d, l, []. auto.
  Qed.

  Lemma status_open l d : status k l None -> opens k d -> status k (l ++ [d]) (Some (d, None)).
  Proof.
    intros H O. inversion H as [N| |]; subst. constructor.
    - exists l, []. auto.
    - intros c C. apply closed_by_snoc in C as [(a & b & -> & _ & (o & I & Oo) & _)|(-> & C & _)]; [|exact (opens_not_closes _ O C)].
      apply (N o); [apply in_or_app; now left|exact Oo].
  Qed.
  Lemma status_same l d x : status k l x -> (x = None -> ~ opens k d) -> (forall o, x = Some (o, None) -> ~ closes k d) -> status k (l ++ [d]) x.
  Proof.
    intros H No Nc. destruct H as [N|o O C|o c O C].
    - apply is_unknown. intros y I. apply in_app_or in I as [I|[<-|[]]]; auto.
    - apply SpecChecks.is_open; [now apply opened_by_app|]. intros c H. apply closed_by_snoc in H as [H|(-> & H & _)]; [exact (C _ H)|exact (Nc o eq_refl H)].
    - apply is_closed; [now apply opened_by_app|now apply closed_by_app].
  Qed.
  Lemma status_close l d o : status k l (Some (o, None)) -> closes k d -> status k (l ++ [d]) (Some (o, Some d)).
  Proof.
    intros H C. inversion H as [|? O N|]; subst. apply is_closed; [now apply opened_by_app|]. exists l, []. split; [reflexivity|]. split; [exact C|].
    split; [exact (opened_by_opened _ _ O)|]. destruct (first_closing l) as [(c & X)|X]; [destruct (N _ X)|exact X].
  Qed.
End Status.

Section Check.
  Context (add : decimal -> decimal -> outcome decimal) (Add : op_ok add Qplus (fun _ => True)) (show : decimal -> str).

  Definition found (m : status_map) (k : str) : option (spanned directive * option (spanned directive)) :=
    match find_status k m with Some st => Some (st_opened st, st_closed st) | None => None end.
  Definition tracks (l : list (spanned directive)) (m : status_map) : Prop := forall k, status k l (found m k).

  Lemma found_closed m k c k' : found (set_closed k c m) k' =
    if str_eqb k k' then match found m k with Some (o, _) => Some (o, Some c) | None => None end else found m k'.
  Proof.
    unfold found. induction m as [|[q st] m IH]; cbn [set_closed find_status]; [now destruct (str_eqb k k')|].
    destruct (str_eqb k q) eqn:Q; cbn [find_status].
    - apply str_eqb_eq in Q. subst q. destruct (str_eqb k' k) eqn:Q'.
      + apply str_eqb_eq in Q'. subst k'. rewrite (proj2 (str_eqb_eq k k) eq_refl). reflexivity.
      + destruct (str_eqb k k') eqn:X; [apply str_eqb_eq in X; subst k'; rewrite (proj2 (str_eqb_eq k k) eq_refl) in Q'; discriminate|]. reflexivity.
    - destruct (str_eqb k' q) eqn:Q'; [|exact IH]. apply str_eqb_eq in Q'. subst q. rewrite Q. reflexivity.
  Qed.

  Lemma posting_spec before m d p : tracks before m -> posting_verdict before d p (check_posting_account d m p).
  Proof.
    intro T. pose proof (T (acc_name (item (po_account (item p))))) as X. unfold found in X. unfold check_posting_account, display_account.
    destruct (find_status (acc_name (item (po_account (item p)))) m) as [[o [c|]]|]; cbn in X.
    - eapply pv_closed; [exact X|]. the_notice.
    - eapply pv_open; exact X.
    - eapply pv_unknown; [exact X|]. the_notice.
  Qed.

  Lemma given_amounts_all ps as_ : all_amounts ps as_ -> given_amounts ps = as_.
  Proof. induction 1 as [|p a ps as_ H _ IH]; [reflexivity|]. unfold given_amounts in *. cbn. now rewrite H, IH. Qed.
  Lemma amounts_cases ps : (exists as_, all_amounts ps as_) \/ ((exists p, In p ps /\ po_amount (item p) = None) /\ List.length (given_amounts ps) < List.length ps).
  Proof.
    assert (Le : forall l, List.length (given_amounts l) <= List.length l).
    { induction l as [|p l IH]; [constructor|]. unfold given_amounts in *. cbn. rewrite app_length. destruct (po_amount (item p)); cbn; lia. }
    induction ps as [|p ps [(as_ & A)|((q & I & N) & L)]]; [left; exists []; constructor| |].
    - destruct (po_amount (item p)) as [a|] eqn:Q; [left; exists (a :: as_); now constructor|].
      right. split; [exists p; cbn; auto|]. specialize (Le ps). unfold given_amounts in *. cbn. rewrite Q. cbn. lia.
    - right. split; [exists q; cbn; auto|]. unfold given_amounts in *. cbn. rewrite app_length. destruct (po_amount (item p)); cbn; lia.
  Qed.

  Lemma amounts_spec d ps : (forall as_, all_amounts ps as_ -> sums_fit as_) ->
    exists es, check_postings_amounts add show d ps = Fine es /\ amounts_verdict show d ps es.
  Proof.
    intro Fit. unfold check_postings_amounts. destruct (amounts_cases ps) as [(as_ & A)|((p & I & N) & L)].
    2:{ exists []. split; [|now apply (av_some_lack _ _ _ p)]. rewrite (proj2 (Nat.eqb_neq _ _)) by lia. now rewrite andb_false_r. }
    rewrite (given_amounts_all _ _ A). assert (Len : List.length ps = List.length as_) by (clear - A; induction A; cbn; auto). rewrite <- Len, Nat.eqb_refl, andb_true_r.
    destruct ps as [|p ps]; cbn [List.length Nat.ltb Nat.leb].
    { exists []. split; [reflexivity|]. inversion A; subst. apply (av_balanced _ _ _ [] A). reflexivity. }
    destruct (sum_exact add Add as_ (Fit _ A)) as (total & -> & Ht).
    destruct (is_zero total) eqn:Z.
    - exists []. split; [reflexivity|]. apply is_zero_iff in Z. apply (av_balanced _ _ _ as_ A). now rewrite <- Ht.
    - assert (NZ : ~ (dec_value total == 0)%Q) by (intro X; apply is_zero_iff in X; congruence).
      destruct (pop_cases as_) as [->|(others & last_ & -> & Pp)]; [inversion A|]. rewrite Pp. eexists. split; [reflexivity|].
      apply (av_unbalanced _ _ _ others last_ _ A); [intro X; apply NZ; now rewrite Ht|]. eapply unbalanced_notice; [exact Ht|reflexivity].
  Qed.

  Lemma check_directive_spec before m d : tracks before m -> (forall ps as_, is_transaction d ps -> all_amounts ps as_ -> sums_fit as_) ->
    exists es ws m', check_directive add show m d = Fine (es, ws, m') /\ check_verdict show before d es ws /\ tracks (before ++ [d]) m'.
  Proof.
    intros T Fit.
    assert (Same : (forall k, ~ opens k d) -> (forall k, ~ closes k d) -> tracks (before ++ [d]) m).
    { intros O C k. apply status_same; [apply T|auto|auto]. }
    unfold check_directive. destruct (dir_variant (item d)) as [fl payee narration ps|? ?|? ?|a cs b|a|?|? ?|? ?|? ?|? ?|? ?|? ?] eqn:V.
    4: assert (Op : opens (acc_name (item a)) d) by (exists a, cs, b; auto);
       assert (Op' : forall k, opens k d -> k = acc_name (item a)) by (intros k (? & ? & ? & Q & H); rewrite Q in V; injection V as -> _ _; auto);
       assert (NC : forall k, ~ closes k d) by (intros k (? & Q & _); rewrite Q in V; discriminate).
    5: assert (Cl : closes (acc_name (item a)) d) by (exists a; auto);
       assert (Cl' : forall k, closes k d -> k = acc_name (item a)) by (intros k (? & Q & H); rewrite Q in V; injection V as ->; auto);
       assert (NO : forall k, ~ opens k d) by (intros k (? & ? & ? & Q & _); rewrite Q in V; discriminate).
    1: { destruct (amounts_spec d ps) as (es & -> & A). { intros as_. apply Fit. exists fl, payee, narration. exact V. }
      eexists _, [], m. split; [reflexivity|]. split; [|apply Same; [intros k (? & ? & ? & Q & _)|intros k (? & Q & _)]; rewrite Q in V; discriminate].
      unfold check_postings_accounts. rewrite flat_map_concat_map. apply (cv_transaction _ _ _ ps); [exists fl, payee, narration; exact V|exact A|].
      clear - T. induction ps as [|p ps IH]; cbn; constructor; auto using posting_spec. }
    3: { unfold display_account. pose proof (T (acc_name (item a))) as St. unfold found in St.
      destruct (find_status (acc_name (item a)) m) as [[o [c|]]|] eqn:F; cbn in St.
      - eexists [_], [], m. split; [reflexivity|]. split; [eapply cv_open_closed; [exact Op|exact St|the_notice]|].
        intro k. apply status_same; [apply T| |intros; apply NC]. intros Q O. apply Op' in O. subst k. unfold found in Q. rewrite F in Q. discriminate.
      - eexists [], [_], m. split; [reflexivity|]. split; [eapply cv_open_again; [exact Op|exact St|the_notice]|].
        intro k. apply status_same; [apply T| |intros; apply NC]. intros Q O. apply Op' in O. subst k. unfold found in Q. rewrite F in Q. discriminate.
      - eexists [], [], _. split; [reflexivity|]. split; [eapply cv_open; [exact Op|exact St]|].
        intro k. unfold found. cbn [find_status]. destruct (str_eqb k (acc_name (item a))) eqn:Q.
        + apply str_eqb_eq in Q. subst k. cbn. apply status_open; assumption.
        + apply status_same; [apply T| |intros; apply NC]. intros _ O. apply Op' in O. subst k. rewrite (proj2 (str_eqb_eq _ _) eq_refl) in Q. discriminate. }
    3: { unfold display_account. pose proof (T (acc_name (item a))) as St. unfold found in St.
      destruct (find_status (acc_name (item a)) m) as [[o [c|]]|] eqn:F; cbn in St.
      - eexists [_], [], m. split; [reflexivity|]. split; [eapply cv_close_again; [exact Cl|exact St|the_notice]|].
        intro k. apply status_same; [apply T|intros; apply NO|]. intros o' Q C. apply Cl' in C. subst k. unfold found in Q. rewrite F in Q. discriminate.
      - eexists [], [], _. split; [reflexivity|]. split; [eapply cv_close; [exact Cl|exact St]|].
        intro k. rewrite found_closed. destruct (str_eqb (acc_name (item a)) k) eqn:Q.
        + apply str_eqb_eq in Q. subst k. unfold found. rewrite F. cbn. eapply status_close; eassumption.
        + apply status_same; [apply T|intros; apply NO|]. intros o' _ C. apply Cl' in C. subst k. rewrite (proj2 (str_eqb_eq _ _) eq_refl) in Q. discriminate.
      - eexists [_], [], m. split; [reflexivity|]. split; [eapply cv_close_unknown; [exact V|exact St|the_notice]|].
        intro k. apply status_same; [apply T|intros; apply NO|]. intros o' Q C. apply Cl' in C. subst k. unfold found in Q. rewrite F in Q. discriminate. }
    all: exists [], [], m; split; [reflexivity|]; split;
      [apply cv_other; [intros ps (? & ? & ? & Q)|intros k (? & ? & ? & Q & _)|intros k (? & Q & _)]; rewrite Q in V; discriminate
      |apply Same; [intros k (? & ? & ? & Q & _)|intros k (? & Q & _)]; rewrite Q in V; discriminate].
  Qed.

  Lemma check_directives_spec ds : forall before m, tracks before m -> sums_fit_in ds ->
    exists es ws, check_directives add show m ds = Fine (es, ws) /\ check_verdicts show before ds es ws.
  Proof.
    induction ds as [|d ds IH]; intros before m T Fit; [exists [], []; split; [reflexivity|constructor]|].
    destruct (check_directive_spec before m d T) as (es & ws & m' & Q & V & T'). { intros ps as_. apply Fit. now left. }
    destruct (IH _ _ T') as (es' & ws' & Q' & V'). { intros d' ps as_ I. apply Fit. now right. }
    exists (es ++ es'), (ws ++ ws'). split; [cbn; now rewrite Q, Q'|now constructor].
  Qed.

  (** What check.rs finds. *)
  Theorem C61_checks : forall ds, sums_fit_in ds ->
    exists es ws, check_directives add show [] ds = Fine (es, ws) /\ check_verdicts show [] ds es ws.
  Proof. intros ds. apply check_directives_spec. intro k. apply is_unknown. intros d []. Qed.
End Check.

(** ** Order by date *)
Section Dates.
  Context (ds : list (spanned directive)).
  Context (Order : forall i j x y, occurs_before ds i j x y -> ~ must_precede (item y) (item x)).

  Lemma not_before x y : ~ before x y -> before y x \/ y = x.
  Proof.
    destruct x as [y1 m1 d1], y as [y2 m2 d2]. unfold before. cbn. intro H.
    destruct (N.lt_trichotomy y1 y2) as [?|[->|?]]; [lia| |lia].
    destruct (N.lt_trichotomy m1 m2) as [?|[->|?]]; [lia| |lia].
    destruct (N.lt_trichotomy d1 d2) as [?|[->|?]]; [lia|now right|lia].
  Qed.

  Lemma earlier_in_order a t b x : ds = a ++ t :: b -> In x a -> ~ must_precede (item t) (item x).
  Proof.
    intros Q I. apply In_nth_error in I as [i I]. assert (Hi : i < List.length a) by (apply nth_error_Some; congruence).
    apply (Order i (List.length a) x t). split; [exact Hi|]. rewrite Q. split; [now rewrite nth_error_app1|]. rewrite nth_error_app2, Nat.sub_diag by lia. reflexivity.
  Qed.
  Lemma later_in_order a t b x : ds = a ++ t :: b -> In x b -> ~ must_precede (item x) (item t).
  Proof.
    intros Q I. apply In_nth_error in I as [i I].
    apply (Order (List.length a) (List.length a + Datatypes.S i) t x). split; [lia|]. rewrite Q. split.
    - rewrite nth_error_app2, Nat.sub_diag by lia. reflexivity.
    - rewrite nth_error_app2 by lia. replace (List.length a + Datatypes.S i - List.length a) with (Datatypes.S i) by lia. exact I.
  Qed.

  Lemma opened_by_date a t b k : ds = a ++ t :: b -> ~ SpecSort.is_open (item t) ->
    (exists o, In o a /\ opens k o) <-> exists o, In o ds /\ opens k o /\ by_date o t.
  Proof.
    intros Q N. split.
    - intros (o & I & O). exists o. split; [rewrite Q; apply in_or_app; now left|]. split; [exact O|].
      intro B. apply (earlier_in_order a t b o Q I). now left.
    - intros (o & I & O & B). exists o. split; [|exact O].
      assert (Oo : SpecSort.is_open (item o)) by (destruct O as (ac & cs & bk & V & _); exists ac, cs, bk; exact V).
      rewrite Q in I. apply in_app_or in I as [I|[<-|I]]; [exact I|contradiction|].
      exfalso. apply (later_in_order a t b o Q I). apply not_before in B as [B|B]; [now left|]. right. split; [exact B|]. left. auto.
  Qed.
  Lemma dated_earlier a t b c : ds = a ++ t :: b -> In c ds -> dated_before c t -> In c a.
  Proof.
    intros Q I B. rewrite Q in I. apply in_app_or in I as [I|[<-|I]]; [exact I| |].
    - exfalso. unfold dated_before, before in B. lia.
    - exfalso. apply (later_in_order a t b c Q I). now left.
  Qed.
  Lemma closes_not_open k c : closes k c -> ~ SpecSort.is_open (item c).
  Proof. intros (x & V & _) (y & cs & bk & V'). rewrite V in V'. discriminate. Qed.
  Lemma closed_by_date a t b k : ds = a ++ t :: b ->
    (exists c, closed_by k a c) <-> exists o c, In o ds /\ opens k o /\ In c a /\ closes k c /\ by_date o c.
  Proof.
    intros Q. split.
    - intros (c & x & y & Qa & C & O & _). subst a. rewrite <- app_assoc in Q. cbn in Q.
      apply (opened_by_date x c _ k Q (closes_not_open _ _ C)) in O as (o & I & O & B). exists o, c. split; [exact I|]. split; [exact O|]. split; [apply in_elt|]. auto.
    - intros (o & c & I & O & Ic & C & B). apply in_split in Ic as (x & y & Qa). pose proof Q as Q'. rewrite Qa, <- app_assoc in Q'. cbn in Q'.
      destruct (proj2 (opened_by_date x c _ k Q' (closes_not_open _ _ C))) as (o' & I' & O'); [exists o; auto|].
      destruct (first_closing k a) as [X|X]; [exact X|]. exfalso. exact (X x c y Qa C o' I' O').
  Qed.
End Dates.

(** ** After a successful parse *)
Section Parsed.
  Context (L : lexer_env) (E : grammar_env) (En : environment_ok E) (UO : unicode_ok (le_unicode L)).
  Context (glob_with : str -> result (list glob_item) str) (canonicalize : path -> option path) (read : path -> result str str).
  Context (Cano : forall p q c d, same_path p q -> canonicalize p = Some c -> canonicalize q = Some d -> same_path c d).
  Context (canonicalize' : path -> option path) (fuel : nat) (root : option path) (content : str) (s : sources).
  Context (Reads : reads_to (includes_of L) glob_with canonicalize read fuel root content s).

  Section Program.
    Context {W Er : Type} (draw : drawing -> list (str * str) -> W -> W * option Er) (put : str -> W -> W * option Er).
    Context (msgs : message_env).

    (** All are drawn, or the program panics. *)
    Definition draws (l : list notice) (f : W -> outcome W) : Prop :=
      exists texts drawings, list_sources s = Fine texts /\ Forall2 (asked (label_for s)) l drawings /\
        forall w, f w = match perform draw put texts (map Draw drawings) w with (w', None) => Fine w' | (_, Some _) => Panic end.

    Lemma write_unwrap_draws l : draws l (fun w => write_unwrap draw put s w l).
    Proof.
      destruct (C54_written _ _ _ _ _ _ _ _ Reads W Er draw put (map unannotated l)) as (texts & ds & Ls & As & Wr).
      rewrite Forall2_mapped in As. cbn [an_notice unannotated] in As. exists texts, ds. split; [exact Ls|]. split; [exact As|].
      intro w. unfold write_unwrap. rewrite Wr, draw_only by (symmetry; exact (drawn_length _ _ _ As)).
      destruct (perform draw put texts (map Draw ds) w) as [w' [e|]]; reflexivity.
    Qed.
    Lemma perform_app texts a b w : perform draw put texts (a ++ b) w =
      match perform draw put texts a w with (w', None) => perform draw put texts b w' | failed => failed end.
    Proof.
      revert w. induction a as [|x a IH]; intro w; [reflexivity|]. cbn [app perform].
      destruct (perform_one draw put texts x w) as [w' [e|]]; [reflexivity|apply IH].
    Qed.
    Lemma draws_both a b : draws (a ++ b) (fun w => write_both draw put s w a b).
    Proof.
      destruct (write_unwrap_draws a) as (texts & da & Ls & Fa & Wa). destruct (write_unwrap_draws b) as (texts' & db & Ls' & Fb & Wb).
      rewrite Ls in Ls'. injection Ls' as <-. exists texts, (da ++ db). split; [exact Ls|]. split; [now apply Forall2_app|].
      intro w. unfold write_both. rewrite Wa, map_app, perform_app. destruct (perform draw put texts (map Draw da) w) as [w' [e|]]; [reflexivity|apply Wb].
    Qed.

    Context (add : decimal -> decimal -> outcome decimal) (Add : op_ok add Qplus (fun _ => True)) (show : decimal -> str).
    Context (partition : list (spanned posting) -> list (spanned posting) * nat) (Part : partitions partition).

    (** The whole of check-postings-balance.rs: errors are drawn first, then
        the warnings of the parse and then its own. *)
    Theorem C60_program : forall ds opts plugins warnings, sums_fit_in ds ->
      exists es ws, balance_verdicts show ds es ws /\
        draws (es ++ warnings_of msgs (Success ds opts plugins warnings) ++ ws)
          (balance_program add show partition draw put msgs s (Success ds opts plugins warnings)).
    Proof.
      intros ds opts plugins warnings Fit. destruct (C60_balances add Add show partition Part ds Fit) as (es & ws & Q & V).
      exists es, ws. split; [exact V|]. destruct (draws_both es (warnings_of msgs (Success ds opts plugins warnings) ++ ws)) as (texts & dr & Ls & F & Wr).
      exists texts, dr. split; [exact Ls|]. split; [exact F|]. intro w. unfold balance_program. rewrite Q. apply Wr.
    Qed.

    (** The whole of check.rs: warnings are drawn first. *)
    Theorem C61_program : forall ds opts plugins warnings, sums_fit_in ds ->
      exists es ws, check_verdicts show [] ds es ws /\
        draws (warnings_of msgs (Success ds opts plugins warnings) ++ ws ++ es)
          (check_program add show draw put msgs s (Success ds opts plugins warnings)).
    Proof.
      intros ds opts plugins warnings Fit. destruct (C61_checks add Add show ds Fit) as (es & ws & Q & V).
      exists es, ws. split; [exact V|]. destruct (draws_both (warnings_of msgs (Success ds opts plugins warnings) ++ ws) es) as (texts & dr & Ls & F & Wr).
      rewrite <- app_assoc in F. exists texts, dr. split; [exact Ls|]. split; [exact F|]. intro w. rewrite <- Wr. unfold check_program, write_both. rewrite Q.
      destruct (write_unwrap draw put s w (warnings_of msgs (Success ds opts plugins warnings) ++ ws)) as [w'|]; [|reflexivity].
      destruct es; [|reflexivity]. unfold write_unwrap. reflexivity.
    Qed.

    (** When parsing fails all programs draw the errors, then the warnings. *)
    Theorem C60_failure : forall es ws, let p := Failure es ws in
      draws (errors_of msgs p ++ warnings_of msgs p) (balance_program add show partition draw put msgs s p) /\
      draws (errors_of msgs p ++ warnings_of msgs p) (check_program add show draw put msgs s p) /\
      forall D, draws (errors_of msgs p ++ warnings_of msgs p)
        (fun w => match dump_program draw put msgs s D p w with Fine (out, w') => if str_eqb out [] then Fine w' else Panic | Panic => Panic end).
    Proof.
      intros es ws p. split; [apply draws_both|]. split; [apply draws_both|]. intro D.
      destruct (draws_both (errors_of msgs p) (warnings_of msgs p)) as (texts & dr & Ls & F & Wr). exists texts, dr. split; [exact Ls|]. split; [exact F|].
      intro w. rewrite <- Wr. cbn. destruct (write_both draw put s w _ _); reflexivity.
    Qed.
  End Program.

  Context (Root : forall p, root = Some p -> canonicalize p <> None).
  Context (toks : list (list rtoken)) (directives : list (spanned directive)) (opts : options) (plugins : list plugin) (warnings : list report).
  Context (Pn : parser_new L s = Fine (Some toks)) (Fi : forall id f c, In (id, f, c) (content_iter s) -> fine_content L E id c).
  Context (Ps : parse E canonicalize' s toks = Fine (Some (Success directives opts plugins warnings))).

  Lemma parsed_in_order i j x y : occurs_before directives i j x y -> ~ must_precede (item y) (item x).
  Proof.
    destruct (C50_success_sound L E En UO _ _ _ Cano canonicalize' _ _ _ _ Reads Root _ _ _ _ _ Pn Fi Ps) as [rootds others r' po es rest yielded directives warnings Ti Wa _ _ Y So _].
    destruct So as (places & _ & _ & H). intro O. apply (H _ _ _ _ O).
  Qed.

  (** Since directives come in order of date, with those which open accounts
      first, an account is known to check.rs at a directive if it is opened
      anywhere, not later by date; *)
  Theorem C61_known_by_date : forall a t b k, directives = a ++ t :: b -> (forall k, ~ opens k t) ->
    (status k a None <-> forall o, In o directives -> opens k o -> ~ by_date o t).
  Proof.
    intros a t b k Q N. assert (N' : ~ SpecSort.is_open (item t)) by (intros (x & cs & bk & V); apply (N (acc_name (item x))); exists x, cs, bk; auto).
    pose proof (opened_by_date _ parsed_in_order a t b k Q N') as X. split.
    - intros H o I O B. inversion H as [Ne| |]; subst. destruct (proj2 X) as (o' & I' & O'); [exists o; auto|]. exact (Ne o' I' O').
    - intro H. constructor. intros o I O. destruct (proj1 X) as (o' & I' & O' & B'); [exists o; auto|]. exact (H o' I' O' B').
  Qed.

  (** and it is closed if some directive closes it which is not before, by
      date, one which opens it, and which is before the other by date.  On the
      same day what is first in the text counts. *)
  Theorem C61_closed_by_date : forall a t b k, directives = a ++ t :: b ->
    ((exists o c, In o directives /\ opens k o /\ In c directives /\ closes k c /\ by_date o c /\ dated_before c t) ->
     exists o c, status k a (Some (o, Some c))) /\
    (forall o c, status k a (Some (o, Some c)) ->
     closes k c /\ In c directives /\ by_date c t /\ exists o', In o' directives /\ opens k o' /\ by_date o' c).
  Proof.
    intros a t b k Q. pose proof (closed_by_date _ parsed_in_order a t b k Q) as X. split.
    - intros (o & c & Io & O & Ic & C & B & B'). pose proof (dated_earlier _ parsed_in_order a t b c Q Ic B') as Ia.
      destruct (proj2 X) as (c' & C'). { exists o, c. auto 6. }
      destruct C' as (x & y & Qa & Cc & (o' & I' & O') & F). destruct (opened_first k a) as (o2 & O2); [exists o'; rewrite Qa; split; [apply in_or_app; now left|exact O']|].
      exists o2, c'. apply is_closed; [exact O2|]. exists x, y. split; [exact Qa|]. split; [exact Cc|]. split; [exists o'; auto|exact F].
    - intros o c H. inversion H as [| |? ? O C]. subst o0 c0. destruct C as (x & y & -> & Cc & Ox & _). split; [exact Cc|].
      assert (Ic : In c directives) by (rewrite Q; apply in_or_app; left; apply in_elt). split; [exact Ic|]. split.
      + intro B. apply (earlier_in_order _ parsed_in_order _ t b c Q); [apply in_elt|now left].
      + rewrite <- app_assoc in Q. cbn in Q. exact (proj1 (opened_by_date _ parsed_in_order x c _ k Q (closes_not_open _ _ Cc)) Ox).
  Qed.
End Parsed.

(** ** Sums which fit

    If no amount has more than [s] places, and all together, whatever their
    signs, stay below 2^96 in units of that, every sum of some is exact. *)
Definition in_units (s : nat) (a : spanned expr_value) : Z := (dec_signed (ev_value (item a)) * ten (s - dec_scale (ev_value (item a))))%Z.
Definition all_units (s : nat) (l : list (spanned expr_value)) : Z := fold_right (fun a z => (Z.abs (in_units s a) + z)%Z) 0%Z l.

Lemma exact_units s l : Forall (fun a => dec_scale (ev_value (item a)) <= s) l ->
  exists z, (exact_sum l == inject_Z z / inject_Z (ten s))%Q /\ (Z.abs z <= all_units s l)%Z.
Proof.
  induction 1 as [|a l H F (z & Q & B)]; [exists 0%Z; split; [reflexivity|cbn; lia]|].
  exists (in_units s a + z)%Z. split; [|cbn [all_units fold_right]; fold (all_units s l); lia].
  cbn [exact_sum]. rewrite Q, inject_Z_plus, dec_value_eq. unfold in_units. rewrite inject_Z_mult.
  set (k := dec_scale (ev_value (item a))) in *. assert (T : (inject_Z (ten s) == inject_Z (ten k) * inject_Z (ten (s - k)))%Q).
  { rewrite <- inject_Z_mult, <- ten_add. replace (k + (s - k)) with s by lia. reflexivity. }
  rewrite T.
  field. split; apply ten_inject_nonzero.
Qed.
Lemma all_units_app s a b : all_units s (a ++ b) = (all_units s a + all_units s b)%Z.
Proof. induction a as [|x a IH]; [reflexivity|]. cbn [app all_units fold_right]. fold (all_units s (a ++ b)) (all_units s a). rewrite IH. lia. Qed.
Lemma all_units_perm s a b : Permutation a b -> all_units s a = all_units s b.
Proof. induction 1; cbn [all_units fold_right] in *; try fold (all_units s l) in *; try fold (all_units s l') in *; lia. Qed.
Lemma all_units_pos s l : (0 <= all_units s l)%Z.
Proof. induction l as [|a l IH]; cbn [all_units fold_right]; [lia|]. fold (all_units s l). lia. Qed.

Theorem C60_sums_fit : forall s l, s <= 28 -> Forall (fun a => dec_valid (ev_value (item a)) /\ dec_scale (ev_value (item a)) <= s) l ->
  (all_units s l < 2 ^ 96)%Z -> sums_fit l.
Proof.
  intros s l Hs F B. split; [eapply Forall_impl; [|exact F]; intros a H; apply H|].
  intros some rest P. destruct (exact_units s some) as (z & Q & Bz).
  { apply (Permutation_Forall P) in F. apply Forall_app in F as [F _]. eapply Forall_impl; [|exact F]. intros a H; apply H. }
  rewrite (all_units_perm _ _ _ P), all_units_app in B. pose proof (all_units_pos s rest).
  exists (of_signed z s). split; [apply of_signed_valid; [|exact Hs]|rewrite dec_value_eq, dec_signed_of_signed, Q; reflexivity].
  unfold max_mant. change (2 ^ 96)%Z with (Z.of_N (2 ^ 96)) in B. lia.
Qed.

Print Assumptions C60_balances.
Print Assumptions C60_program.
Print Assumptions C60_failure.
Print Assumptions C60_sums_fit.
Print Assumptions C61_checks.
Print Assumptions C61_program.
Print Assumptions C61_known_by_date.
Print Assumptions C61_closed_by_date.

(** ** Cases *)
Definition ex_partition (ps : list (spanned posting)) : list (spanned posting) * nat :=
  let has p := match po_amount (item p) with Some _ => true | None => false end in
  (filter has ps ++ filter (fun p => negb (has p)) ps, List.length (filter has ps)).
Example ex_partitions : partitions ex_partition.
Proof.
  intro ps. unfold ex_partition. set (has := fun p : spanned posting => _). exists (filter has ps), (filter (fun p => negb (has p)) ps). split; [reflexivity|].
  split; [induction ps as [|p ps IH]; [reflexivity|]; cbn [filter]; destruct (has p); cbn [negb app]; [now constructor|now apply Permutation_cons_app]|].
  split; apply Forall_forall; intros p H; apply filter_In in H as [_ H]; unfold has, has_amount in *; destruct (po_amount (item p)); try discriminate; eauto.
Qed.

Definition ex_books : str :=
  ex_line "2024-01-01 open Assets:Cash" ++
  ex_line "2024-03-01 open Assets:Cash" ++
  ex_line "2024-01-02 * ""fine""" ++ ex_line "  Assets:Cash  1.50 USD" ++ ex_line "  Assets:Cash  -1.5 USD" ++
  ex_line "2024-01-03 * ""off""" ++ ex_line "  Assets:Cash  5 USD" ++ ex_line "  Assets:Bank  -4.25 USD" ++
  ex_line "2024-01-04 * ""two""" ++ ex_line "  Assets:Cash  5 USD" ++ ex_line "  Assets:Cash" ++ ex_line "  Assets:Cash" ++
  ex_line "2024-01-05 * ""none""" ++
  ex_line "2024-01-06 * ""inferred""" ++ ex_line "  Assets:Cash  5 USD" ++ ex_line "  Assets:Cash" ++
  ex_line "2024-05-01 close Assets:Cash" ++ ex_line "2024-05-02 close Assets:Cash" ++
  ex_line "2024-05-03 * ""late""" ++ ex_line "  Assets:Cash  0 USD".
Definition ex_parsed_books : list (spanned directive) :=
  match ex_parse ex_books with Fine (Some (Success ds _ _ _)) => ds | _ => [] end.
Definition ex_brief (n : notice) : str * str * list str * nat :=
  (nt_message n, nt_reason n, map fst (contexts n), List.length (related n)).
Definition ex_briefs (r : outcome (list notice * list notice)) :=
  match r with Fine (es, ws) => Some (map ex_brief es, map ex_brief ws) | Panic => None end.
(** (to two places) *)
Definition ex_sum (d : decimal) : str := ex_show_decimal (op_rescale exact_ops d 2).

Example ex_books_balance : ex_briefs (check_balances (op_add exact_ops) ex_sum ex_partition ex_parsed_books) = Some
  ([ (lit "invalid amount", lit "sum is 0.75, expected zero", [lit "transaction"], 1);
     (lit "invalid transaction", lit "multiple postings without amount specified", [], 2) ],
   [ (lit "questionable transaction", lit "no postings", [], 0) ]).
Proof. vm_compute. reflexivity. Qed.
Example ex_books_check : ex_briefs (check_directives (op_add exact_ops) ex_sum [] ex_parsed_books) = Some
  ([ (lit "invalid amount", lit "sum is 0.75, expected zero", [lit "transaction"], 1);
     (lit "invalid account", lit "no such account", [lit "posting"; lit "transaction"], 0);
     (lit "invalid close", lit "account already closed", [], 1);
     (lit "invalid account", lit "account is closed", [lit "posting"; lit "transaction"], 1) ],
   [ (lit "questionable open", lit "duplicate open", [], 1) ]).
Proof. vm_compute. reflexivity. Qed.

(** The hypotheses are met: *)
Definition check_sums (s : nat) (d : spanned directive) : bool :=
  match dir_variant (item d) with
  | V_Transaction _ _ _ ps =>
      let l := given_amounts ps in
      forallb (fun a => (dec_mant (ev_value (item a)) <? 2 ^ 96)%N && (dec_scale (ev_value (item a)) <=? s)) l && (all_units s l <? 2 ^ 96)%Z
  | _ => true
  end.
Lemma all_amounts_given ps l : all_amounts ps l -> given_amounts ps = l.
Proof. induction 1 as [|p a ps l Q F IH]; [reflexivity|]. cbn. rewrite Q. cbn. f_equal. exact IH. Qed.
Lemma check_sums_ok s ds : s <= 28 -> forallb (check_sums s) ds = true -> sums_fit_in ds.
Proof.
  intros Hs H d ps l I (fl & pa & na & V) A. rewrite forallb_forall in H. specialize (H d I). unfold check_sums in H. rewrite V, (all_amounts_given _ _ A) in H.
  apply andb_true_iff in H as [F B]. apply (C60_sums_fit s); [exact Hs| |now apply Z.ltb_lt]. rewrite forallb_forall in F. apply Forall_forall.
  intros a Ia. specialize (F a Ia). apply andb_true_iff in F as [F G]. apply N.ltb_lt in F. apply Nat.leb_le in G. split; [split; [exact F|lia]|exact G].
Qed.
Example ex_books_fit : sums_fit_in ex_parsed_books /\ List.length ex_parsed_books = 10 /\ op_ok (op_add exact_ops) Qplus (fun _ => True).
Proof.
  split; [|split; [vm_compute; reflexivity|exact (do_add _ exact_ops_ok)]]. apply (check_sums_ok 2); [lia|]. vm_compute. reflexivity.
Qed.
(** Amounts in different currencies are added all the same. *)
Example ex_currencies : ex_briefs (check_balances (op_add exact_ops) ex_sum ex_partition
  (match ex_parse (ex_line "2024-01-02 * ""mixed""" ++ ex_line "  Assets:Cash  1 USD" ++ ex_line "  Assets:Cash  -1 EUR") with Fine (Some (Success ds _ _ _)) => ds | _ => [] end)) = Some ([], []).
Proof. vm_compute. reflexivity. Qed.
