(** * Properties C12, C13, C14, C49: options *)
From Coq Require Import String Ascii.
From Coq Require Import List NArith ZArith Arith Bool Lia ZifyBool ZifyN Permutation.
From Verif Require Import Base BaseFacts Path PathFacts Types SpecTypes TypesFacts Options SpecOptions OptionsFacts P_Types.
Import ListNotations.
Local Open Scope nat_scope.

(** ** C12: single-valued options *)

Lemma os_first {A} (f : option_variant -> option A) opts :
  os_spanned (first_sourced f opts) = first_given f opts.
Proof. unfold first_sourced, first_given. destruct (given f opts) as [|[a s] ?]; reflexivity. Qed.

(** Each accessor reports the first value given, with its span. *)
Theorem C12_first_wins po opts :
  let o := fst (assimilate_all (options_new po) opts) in
  os_spanned (os_title o) = first_given as_title opts /\
  (forall w, os_spanned (os_subaccount o w) = first_given (as_subaccount w) opts) /\
  os_spanned (os_conversion_currency o) = first_given as_conversion_currency opts /\
  os_spanned (os_tolerance_multiplier o) = first_given as_tolerance_multiplier opts /\
  os_spanned (os_tolerance_from_cost o) = first_given as_tolerance_from_cost opts /\
  os_spanned (os_render_commas o) = first_given as_render_commas opts /\
  os_spanned (os_booking_method o) = first_given as_booking_method opts /\
  os_spanned (os_plugin_mode o) = first_given as_plugin_mode opts /\
  os_parser_options o = po.
Proof.
  simpl. destruct (assimilate_all_spec po [] (options_new po) opts (state_after_nil po)) as [H _].
  simpl in H. destruct H as [T SU CC TO TM TC DO OC RC BM PM PO].
  rewrite T, CC, TM, TC, RC, BM, PM, !os_first.
  repeat (split; [reflexivity || (intros w; rewrite SU; apply os_first)|]). exact PO.
Qed.

(** What is reported, option by option, for both kinds of option: exactly the
    due reports. *)
Theorem C12_reports po opts :
  snd (assimilate_all (options_new po) opts) = due_reports [] opts.
Proof. apply (assimilate_all_spec po [] (options_new po) opts (state_after_nil po)). Qed.

(** Read off: the report for the option after [before] is as described. *)
Theorem C12_report_at po earlier o rest :
  nth_error (snd (assimilate_all (options_new po) (earlier ++ o :: rest))) (List.length earlier)
  = Some (due_report earlier o).
Proof.
  rewrite C12_reports.
  assert (H : forall a b, nth_error (due_reports b (a ++ o :: rest)) (List.length a) = Some (due_report (b ++ a) o)).
  { induction a as [|x a IH]; intros b; simpl; [now rewrite app_nil_r|]. rewrite IH, <- app_assoc. reflexivity. }
  apply (H earlier []).
Qed.

(** A rejected option changes nothing, an accepted one reports nothing. *)
Theorem C12_rejected_unchanged o x r : snd (options_assimilate o x) = Some r -> fst (options_assimilate o x) = o.
Proof.
  unfold options_assimilate, assimilate_field. destruct o. destruct (opt_variant x); simpl; try discriminate.
  all: match goal with |- context[assign _ _ ?u] => destruct u; simpl; congruence end.
Qed.

(** long_string_maxlines is not single-valued in this sense: the last one
    given is in force, without a report; the account type names are [C15]. *)
Fixpoint po_assimilate_all (po : parser_options) (opts : list beancount_option) : outcome parser_options :=
  match opts with
  | [] => Fine po
  | x :: opts' =>
      match po_assimilate po x with
      | Panic => Panic
      | Fine (Ok (_, po')) => po_assimilate_all po' opts'
      | Fine (Err _) => po_assimilate_all po opts'
      end
  end.

Definition as_name v := match v with O_AccountTypeName t n => Some (t, n) | _ => None end.

Theorem C12_maxlines_last_wins opts :
  exists po names, po_assimilate_all default_parser_options opts = Fine po /\
    os_spanned (po_maxlines po) = last_given as_maxlines opts /\
    long_string_maxlines po = match last_given as_maxlines opts with Some n => item n | None => 64%N end /\
    update_all default_atns (map fst (given as_name opts)) = Fine names /\
    po_names po = names.
Proof.
  assert (H : forall opts po, (exists us, update_all default_atns us = Fine (po_names po)) ->
    exists po', po_assimilate_all po opts = Fine po' /\
      os_spanned (po_maxlines po') = match last_given as_maxlines opts with Some n => Some n | None => os_spanned (po_maxlines po) end /\
      update_all (po_names po) (map fst (given as_name opts)) = Fine (po_names po')).
  { clear opts. induction opts as [|x opts IH]; intros po (us & R).
    - exists po. auto.
    - assert (APP : forall us vs n, update_all default_atns us = Fine n ->
          update_all default_atns (us ++ vs) = update_all n vs).
      { clear. intros us. generalize default_atns. induction us as [|[t s] us IH]; intros n0 vs n; simpl.
        - intros E; injection E as ->; auto.
        - destruct (atn_update n0 t s) as [[n'|e]|]; auto. discriminate. }
      simpl. unfold po_assimilate.
      destruct (opt_variant x) eqn:V; simpl;
      try (destruct (IH po (ex_intro _ us R)) as (po' & E & M & N); exists po'; split; [auto|]; split; [|auto];
           unfold last_given in *; simpl; rewrite V; simpl; auto; fail).
      + (* a name *)
        destruct (C15_names_bijection us) as (n & E & NM & _). rewrite R in E. injection E as <-.
        assert (P : exists r, atn_update (po_names po) t name = Fine r).
        { destruct (in_use_by_another (rename_all default_names us) t name) eqn:I.
          - apply in_use_spec in I as (t' & D & Q). rewrite (C15_update_rejects _ _ t t' name NM D Q). eauto.
          - destruct (C15_update_accepts _ _ t name NM) as (n' & Q & _); [|rewrite Q; eauto].
            intros t' D Q. assert (in_use_by_another (rename_all default_names us) t name = true) by (apply in_use_spec; eauto). congruence. }
        destruct P as (r & P). rewrite P. destruct r as [n'|e].
        * destruct (IH (mk_parser_options n' (po_maxlines po))) as (po' & E & M & N).
          { exists (us ++ [(t, name)]). rewrite (APP us [(t, name)] _ R). simpl. now rewrite P. }
          exists po'. split; auto. split; [|auto].
          unfold last_given in *; simpl; rewrite V; simpl; auto.
        * destruct (IH po (ex_intro _ us R)) as (po' & E & M & N). exists po'. split; auto. split; [|auto].
          unfold last_given in *; simpl; rewrite V; simpl; auto.
      + (* maxlines *)
        destruct (IH (mk_parser_options (po_names po) (Some (new_sourced n (opt_source x)))) (ex_intro _ us R)) as (po' & E & M & N).
        exists po'. split; auto. split; [|auto]. rewrite M.
        unfold last_given; simpl; rewrite V; simpl.
        destruct (rev (given as_maxlines opts)) as [|[a s] l] eqn:G; simpl; auto. }
  destruct (H opts default_parser_options (ex_intro _ [] eq_refl)) as (po & E & M & N).
  exists po, (po_names po). simpl in M. split; auto. split.
  - rewrite M. destruct (last_given as_maxlines opts); auto.
  - split; [|auto]. unfold long_string_maxlines.
    destruct (po_maxlines po) as [s|]; simpl in M.
    + destruct (last_given as_maxlines opts); [|discriminate]. injection M as ->. reflexivity.
    + destruct (last_given as_maxlines opts); [discriminate|reflexivity].
Qed.

(** ** C13: multi-valued options *)

(** The entries are those options whose key had not been given before, in any
    iteration order, each with its own value. *)
Theorem C13_entries po opts :
  let o := fst (assimilate_all (options_new po) opts) in
  Permutation (documents o) (map fst (first_entries path_eqb (given as_documents opts))) /\
  Permutation (operating_currency o) (map fst (first_entries str_eqb (given as_operating_currency opts))) /\
  Permutation (inferred_tolerance_defaults o)
    (map (fun e => (match fst e with OneCurrency c => Some c | AnyCurrency => None end, snd e))
       (first_entries currency_or_any_eqb (map fst (given as_tolerance opts)))).
Proof.
  simpl. destruct (assimilate_all_spec po [] (options_new po) opts (state_after_nil po)) as [H _].
  simpl in H. destruct H as [T SU CC TO TM TC DO OC RC BM PM PO].
  unfold documents, operating_currency, inferred_tolerance_defaults. rewrite DO, OC, TO.
  split; [apply Permutation_refl|split; [apply Permutation_refl|]].
  assert (FM : forall (p : currency_or_any -> bool) l,
     map (fun '(c, (d, _)) => (match c with OneCurrency c => Some c | AnyCurrency => None end, d))
         (filter (fun e => p (fst e)) l) =
     map (fun e => (match fst e with OneCurrency c => Some c | AnyCurrency => None end, snd e))
         (filter (fun e => p (fst e)) (map (fun e : currency_or_any * (decimal * option_source) => (fst e, fst (snd e))) l))).
  { intros p l. induction l as [|[c [d s]] l IH]; simpl; auto. destruct (p c); simpl; now rewrite IH. }
  assert (G : forall l : list (currency_or_any * decimal * option_source),
     map (fun e : currency_or_any * (decimal * option_source) => (fst e, fst (snd e))) (first_entries currency_or_any_eqb (tol_entries l)) =
     first_entries currency_or_any_eqb (map fst l)).
  { induction l as [|[[c d] s] l IH]; simpl; auto. f_equal. rewrite <- IH.
    generalize (first_entries currency_or_any_eqb (tol_entries l)). intros m.
    induction m as [|[c' [d' s']] m IHm]; simpl; auto. destruct (currency_or_any_eqb c c'); simpl; now rewrite IHm. }
  rewrite <- G. rewrite map_map.
  replace (map _ (first_entries currency_or_any_eqb (tol_entries (given as_tolerance opts))))
    with (map (fun x : currency_or_any * (decimal * option_source) =>
       (match fst (fst x, fst (snd x)) with OneCurrency c => Some c | AnyCurrency => None end, snd (fst x, fst (snd x))))
       (first_entries currency_or_any_eqb (tol_entries (given as_tolerance opts)))).
  - apply Permutation_refl.
  - apply map_ext. intros [c [d s]]. reflexivity.
Qed.

(** What [first_entries] says: an entry is kept iff no earlier one has its key. *)
Theorem C13_first_entries_meaning {K X} (eqb : K -> K -> bool) (l : list (K * X)) k x :
  eq_equiv eqb ->
  (exists i, nth_error l i = Some (k, x) /\ forall j k' x', j < i -> nth_error l j = Some (k', x') -> eqb k' k = false) <->
  In (k, x) (first_entries eqb l).
Proof.
  intros E. induction l as [|[k0 x0] l IH]; simpl.
  - split; [|tauto]. intros ([|i] & H & _); discriminate.
  - split.
    + intros ([|i] & H & F).
      * simpl in H. injection H as -> ->. auto.
      * right. apply filter_In. split.
        -- apply IH. exists i. split; auto. intros j k' x' L N. apply (F (S j) k' x'); auto. lia.
        -- simpl. rewrite (F 0 k0 x0); auto. lia.
    + intros [H|H].
      * injection H as -> ->. exists 0. split; auto. intros; lia.
      * apply filter_In in H as [H Q]. simpl in Q. apply IH in H as (i & N & F).
        exists (S i). split; auto. intros [|j] k' x' L M.
        -- simpl in M. injection M as -> ->. now destruct (eqb k' k).
        -- apply (F j k' x'); auto. lia.
Qed.

(** A repeated key is reported at its value, related to the first value. *)
Theorem C13_duplicate_reported po earlier o rest s first :
  setting_of (opt_variant o) = Some s -> keyed s = true -> find (sets s) earlier = Some first ->
  nth_error (snd (assimilate_all (options_new po) (earlier ++ o :: rest))) (List.length earlier) =
  Some (Some (mk_report DuplicateOptionValue (src_value (opt_source o)) [src_value (opt_source first)])).
Proof. intros A B C. rewrite C12_report_at. unfold due_report. now rewrite A, C, B. Qed.

(** ** C14: tolerance lookup *)

Theorem C14_tolerance_fallback po opts c :
  let o := fst (assimilate_all (options_new po) opts) in
  inferred_tolerance_default o c =
    match option_map item (first_given (as_tolerance_for (OneCurrency c)) opts) with
    | Some d => Some d
    | None => option_map item (first_given (as_tolerance_for AnyCurrency) opts)
    end /\
  inferred_tolerance_default_fallback o = option_map item (first_given (as_tolerance_for AnyCurrency) opts).
Proof.
  simpl. destruct (assimilate_all_spec po [] (options_new po) opts (state_after_nil po)) as [H _].
  simpl in H. destruct H as [T SU CC TO TM TC DO OC RC BM PM PO].
  assert (L : forall k, option_map fst (lookup currency_or_any_eqb k (os_tolerance_default (fst (assimilate_all (options_new po) opts)))) =
     option_map item (first_given (as_tolerance_for k) opts)).
  { intros k. rewrite TO, lookup_first_entries by apply currency_or_any_equiv. unfold first_given.
    clear. induction opts as [|o opts IH]; simpl; auto.
    unfold as_tolerance, as_tolerance_for in *. destruct (opt_variant o) eqn:V; auto. simpl.
    destruct (currency_or_any_eqb k c); auto. }
  unfold inferred_tolerance_default, inferred_tolerance_default_fallback.
  rewrite <- !L. split; [|reflexivity].
  destruct (lookup currency_or_any_eqb (OneCurrency c) _) as [[d s]|]; reflexivity.
Qed.

Example ex_options :
  let src i := mk_source (mk_span 0 i (i + 1)) (mk_span 0 (i + 2) (i + 3)) in
  let o i v := mk_option (src i) v in
  let d n := mk_dec false n 2 in
  let opts := [o 0 (O_Title (lit "A")); o 10 (O_InferredToleranceDefault AnyCurrency (d 5%N));
               o 20 (O_InferredToleranceDefault (OneCurrency (lit "USD")) (d 7%N));
               o 30 (O_Title (lit "B")); o 40 (O_Documents (lit "x/y")); o 50 (O_Documents (lit "x//y/."))] in
  let '(os, rs) := assimilate_all (options_new default_parser_options) opts in
  os_spanned (os_title os) = Some (mk_spanned (lit "A") (mk_span 0 2 3)) /\
  inferred_tolerance_default os (lit "USD") = Some (d 7%N) /\
  inferred_tolerance_default os (lit "GBP") = Some (d 5%N) /\
  rs = [None; None; None; Some (mk_report DuplicateOption (mk_span 0 30 31) [mk_span 0 0 1]);
        None; Some (mk_report DuplicateOptionValue (mk_span 0 52 53) [mk_span 0 42 43])].
Proof. repeat split. Qed.

(** ** C49: how option text is read *)

Lemma to_lower_spec c d : lower d -> (to_lower c = d <-> c = d \/ c = (d - 32)%N).
Proof. unfold to_lower, lower, is_ascii_uppercase. intros L. destruct ((65 <=? c)%N && (c <=? 90)%N) eqn:E; lia. Qed.

Lemma spells_spec v w : Forall lower w -> eq_ignore_case v w = true <-> spells v w.
Proof.
  unfold eq_ignore_case. rewrite str_eqb_eq. intros F.
  assert (W : map to_lower w = w).
  { clear v. induction F as [|c w L F IH]; simpl; auto. rewrite IH. f_equal. apply to_lower_spec; auto. }
  rewrite W. clear W. revert v; induction F as [|c w L F IH]; intros v.
  - split; [destruct v; [constructor|discriminate]|]. intros H; inversion H; auto.
  - split.
    + destruct v as [|x v]; [discriminate|]. simpl. intros H; injection H as A B.
      apply to_lower_spec in A as [->| ->]; auto; constructor; auto; now apply IH.
    + intros H; inversion H as [|? ? ? Q|? ? ? Q R]; subst; simpl.
      * f_equal; [apply to_lower_spec; auto|now apply IH].
      * f_equal; [apply to_lower_spec; auto|now apply IH].
Qed.

Lemma lower_true : Forall lower (lit "true"). Proof. apply Forall_forall. intros c H. vm_compute in H. unfold lower. intuition (subst; lia). Qed.
Lemma lower_false : Forall lower (lit "false"). Proof. apply Forall_forall. intros c H. vm_compute in H. unfold lower. intuition (subst; lia). Qed.

Lemma parse_bool_spec v b : parse_bool v = Ok b <-> bool_word v b.
Proof.
  unfold parse_bool, bool_word.
  destruct (eq_ignore_case v (lit "true")) eqn:T; [|destruct (eq_ignore_case v (lit "false")) eqn:F].
  - split; [intros H; injection H as <-; apply spells_spec; auto using lower_true|].
    destruct b; auto. intros H. apply (spells_spec _ _ lower_false) in H.
    unfold eq_ignore_case in *. apply str_eqb_eq in T, H. rewrite T in H. discriminate.
  - split; [intros H; injection H as <-; apply spells_spec; auto using lower_false|].
    destruct b; auto. intros H. apply (spells_spec _ _ lower_true) in H. congruence.
  - split; [discriminate|]. destruct b; intros H; apply spells_spec in H; auto using lower_true, lower_false; congruence.
Qed.

Lemma parse_currency_spec v c : parse_currency v = Fine (Ok c) <-> c = v /\ currency_lang v.
Proof.
  unfold parse_currency. rewrite <- currency_ok.
  destruct (currency_try_from v) as [[x|e]|]; split; intros H; try discriminate; congruence.
Qed.

Lemma parse_tolerance_spec dp v c d :
  parse_tolerance_default dp v = Fine (Ok (c, d)) <->
  exists a b, v = a ++ 58%N :: b /\ ~ In 58%N a /\ ~ In 58%N b /\ tolerance_key a c /\ dp b = Some d.
Proof.
  assert (KEY : forall a k, parse_currency_or_any a = Fine (Ok k) <-> tolerance_key a k).
  { intros a k. unfold parse_currency_or_any, tolerance_key. destruct (str_eqb a (lit "*")) eqn:E.
    - apply str_eqb_eq in E as ->. split; [intros H; injection H as <-; auto|].
      intros [[_ ->]|[L _]]; auto. exfalso.
      assert (currency_try_from (lit "*") = Fine (Ok (lit "*"))) as X by (apply currency_ok; auto). discriminate.
    - apply str_eqb_neq in E. destruct (parse_currency a) as [[x|e]|] eqn:P; simpl.
      + apply parse_currency_spec in P as [-> L]. split; [intros H; injection H as <-; auto|]. intros [[A _]|[_ ->]]; [congruence|auto].
      + split; [discriminate|]. intros [[A _]|[L _]]; [congruence|].
        assert (parse_currency a = Fine (Ok a)) by (apply parse_currency_spec; auto). congruence.
      + split; [discriminate|]. intros [[A _]|[L _]]; [congruence|].
        assert (parse_currency a = Fine (Ok a)) by (apply parse_currency_spec; auto). congruence. }
  unfold parse_tolerance_default, parse_decimal. split.
  - pose proof (join_colon_split v) as J. pose proof (fun w => split_on_pieces colon v w) as PC.
    destruct (split_on colon v) as [|a fs]; [discriminate|].
    destruct (parse_currency_or_any a) as [[k|e]|] eqn:K; try discriminate.
    destruct fs as [|b fs]; [discriminate|].
    destruct (dp b) as [d'|] eqn:D; [|discriminate].
    destruct fs; [|discriminate]. intros H; injection H as <- <-.
    exists a, b. simpl in J. split; [now rewrite <- J|]. split; [apply PC; simpl; auto|]. split; [apply PC; simpl; auto|].
    split; auto. now apply KEY.
  - intros (a & b & -> & NA & NB & K & D).
    rewrite split_on_app, split_on_piece, split_on_piece by auto. simpl.
    apply KEY in K. rewrite K, D. reflexivity.
Qed.

Ltac inner := repeat match goal with
  | |- context[match ?b with _ => _ end] =>
      lazymatch b with context[match _ with _ => _ end] => fail | _ => destruct b end
  end.

Ltac name_cases name :=
  repeat match goal with
  | |- context[str_eqb name (lit ?s)] =>
      let E := fresh "E" in destruct (str_eqb name (lit s)) eqn:E; [apply str_eqb_eq in E; subst name|]
  end.

Theorem C49_option_value U dp sp name v x : unicode_ok U ->
  option_value U dp name v sp = Fine (Ok x) <-> reads U dp sp name v x.
Proof.
  intros O. split.
  - unfold option_value.
    assert (NM : forall t, fine (O_AccountTypeName t) (parse_account_type_name U v) = Fine (Ok x) ->
       reads U dp sp (name_option t) v x).
    { intros t. unfold parse_account_type_name, fine, mapr. destruct (account_type_name_try_from U v) eqn:A; [|discriminate].
      apply atn_ok in A as [-> A]. intros H; injection H as <-. now constructor. }
    assert (SB : forall w, fine (O_Subaccount w) (parse_subaccount U v) = Fine (Ok x) -> reads U dp sp (subaccount_name w) v x).
    { intros w. unfold parse_subaccount, fine, mapr. destruct (subaccount_try_from U v) eqn:A; [|discriminate].
      apply C17_subaccount in A as [-> (ws & A & -> & B)]; auto. intros H; injection H as <-. now constructor. }
    name_cases name.
    + intros H; injection H as <-; constructor.
    + apply (NM Assets).
    + apply (NM Liabilities).
    + apply (NM Equity).
    + apply (NM Income).
    + apply (NM Expenses).
    + apply (SB PreviousBalances).
    + apply (SB PreviousEarnings).
    + apply (SB PreviousConversions).
    + apply (SB CurrentEarnings).
    + apply (SB CurrentConversions).
    + apply (SB UnrealizedGains).
    + apply (SB Rounding).
    + destruct (parse_currency v) as [[c|e]|] eqn:P; try discriminate. apply parse_currency_spec in P as [-> P].
      intros H; injection H as <-. now constructor.
    + destruct (parse_tolerance_default dp v) as [[[c d]|e]|] eqn:P; try discriminate.
      apply parse_tolerance_spec in P as (a & b & -> & A & B & C & D). intros H; injection H as <-. now constructor.
    + unfold parse_decimal. destruct (dp v) eqn:D; try discriminate. intros H; injection H as <-. now constructor.
    + destruct (parse_bool v) eqn:D; try discriminate. apply parse_bool_spec in D. intros H; injection H as <-. now constructor.
    + intros H; injection H as <-. constructor. unfold documents_path. destruct sp as [p|]; auto. destruct (parent p); auto.
    + destruct (parse_currency v) as [[c|e]|] eqn:P; try discriminate. apply parse_currency_spec in P as [-> P].
      intros H; injection H as <-. now constructor.
    + destruct (parse_bool v) eqn:D.
      * apply parse_bool_spec in D. intros H; injection H as <-. constructor. auto.
      * simpl. unfold parse_zero_or_one.
        destruct (str_eqb v (lit "1")) eqn:A; [|destruct (str_eqb v (lit "0")) eqn:B; [|discriminate]].
        -- apply str_eqb_eq in A. intros H; injection H as <-. constructor. auto.
        -- apply str_eqb_eq in B. intros H; injection H as <-. constructor. auto.
    + destruct (parse_usize v) eqn:P; [|discriminate]. apply parse_usize_spec in P. intros H; injection H as <-. now constructor.
    + unfold parse_booking. destruct (booking_try_from v) eqn:P; [|discriminate]. intros H; injection H as <-. constructor.
      apply lookup_In in P as (k & I & Q). apply str_eqb_eq in Q as <-. exact I.
    + unfold parse_plugin_mode. destruct (plugin_mode_try_from v) eqn:P; [|discriminate]. intros H; injection H as <-. constructor.
      apply lookup_In in P as (k & I & Q). apply str_eqb_eq in Q as <-. exact I.
    + discriminate.
  - intros R; inversion R; subst.
    + reflexivity.
    + assert (A : account_type_name_try_from U v = Ok v) by (apply atn_ok; auto).
      destruct t; unfold option_value, fine, mapr, parse_account_type_name; rewrite A; reflexivity.
    + assert (A : subaccount_try_from U (join_colon ws) = Ok (join_colon ws)) by (apply C17_subaccount; eauto).
      destruct w; unfold option_value, fine, mapr, parse_subaccount; rewrite A; reflexivity.
    + assert (A : parse_currency v = Fine (Ok v)) by (apply parse_currency_spec; auto).
      unfold option_value. rewrite A. reflexivity.
    + assert (A : parse_tolerance_default dp (a ++ 58%N :: b) = Fine (Ok (c, d))) by (apply parse_tolerance_spec; eauto 10).
      unfold option_value. rewrite A. reflexivity.
    + unfold option_value, parse_decimal. rewrite H. reflexivity.
    + apply parse_bool_spec in H. unfold option_value. rewrite H. reflexivity.
    + unfold option_value, documents_path. destruct sp as [q|]; [destruct (parent q)|]; subst; reflexivity.
    + assert (A : parse_currency v = Fine (Ok v)) by (apply parse_currency_spec; auto).
      unfold option_value. rewrite A. reflexivity.
    + destruct H as [H|[[-> ->]|[-> ->]]]; [apply parse_bool_spec in H; unfold option_value; rewrite H|..]; reflexivity.
    + apply parse_usize_spec in H. unfold option_value. rewrite H. reflexivity.
    + simpl in H. repeat (destruct H as [H|H]; [injection H as <- <-; reflexivity|]). tauto.
    + simpl in H. repeat (destruct H as [H|H]; [injection H as <- <-; reflexivity|]). tauto.
Qed.

(** A parsed option remembers where its name and value were. *)
Theorem C49_option_parse U dp sp name v o : unicode_ok U ->
  option_parse U dp name v sp = Fine (Ok o) <->
  reads U dp sp (item name) (item v) (opt_variant o) /\
  src_name (opt_source o) = span_of name /\ src_value (opt_source o) = span_of v.
Proof.
  intros O. rewrite <- (C49_option_value U dp sp _ _ _ O). unfold option_parse, mapr.
  destruct (option_value U dp (item name) (item v) sp) as [[x|e]|].
  - split.
    + intros H; injection H as <-. auto.
    + intros (A & B & C). injection A as ->. destruct o as [[a b] w]; simpl in *; subst. reflexivity.
  - split; [discriminate|]. intros [A _]; discriminate.
  - split; [discriminate|]. intros [A _]; discriminate.
Qed.

(** The name is blamed exactly when it is not one of the known options. *)
Theorem C49_unknown_option U dp sp name v :
  option_value U dp name v sp = Fine (Err OptUnknown) <-> ~ In name option_names.
Proof.
  split.
  - intros H I. simpl in I. repeat (destruct I as [<-|I]; [revert H|]); try tauto;
    unfold option_value; simpl str_eqb; cbn iota.
    all: unfold fine, mapr, parse_account_type_name, parse_subaccount, parse_currency, parse_decimal, parse_booking, parse_plugin_mode, parse_zero_or_one, or_else.
    all: try (unfold parse_bool; repeat match goal with |- context[if ?b then _ else _] => destruct b end; discriminate).
    all: try (inner; discriminate).
    unfold parse_tolerance_default, parse_currency_or_any, mapr, parse_currency, parse_decimal.
    destruct (split_on colon v) as [|f fs]; [discriminate|].
    destruct (str_eqb f (lit "*")).
    + destruct fs as [|f2 fs]; [discriminate|]. destruct (dp f2); [|discriminate]. destruct fs; discriminate.
    + destruct (currency_try_from f) as [[c|e]|]; try discriminate.
      destruct fs as [|f2 fs]; [discriminate|]. destruct (dp f2); [|discriminate]. destruct fs; discriminate.
  - intros H. unfold option_value. simpl in H.
    repeat match goal with
    | |- context[str_eqb name (lit ?s)] =>
        let E := fresh "E" in
        destruct (str_eqb name (lit s)) eqn:E; [apply str_eqb_eq in E; exfalso; apply H; rewrite E; tauto|clear E]
    end.
    reflexivity.
Qed.

(** The value is blamed for exactly what is wrong with it. *)
Lemma parse_currency_wrong v e : parse_currency v = Fine (Err e) <-> exists x, e = OptBad (BadCurrency x) /\ currency_fault v x.
Proof.
  unfold parse_currency. setoid_rewrite <- currency_err.
  destruct (currency_try_from v) as [[x|x]|]; split; try discriminate.
  - intros (? & ? & X). discriminate.
  - intro X. injection X as <-. eauto.
  - intros (y & -> & X). congruence.
  - intros (? & ? & X). discriminate.
Qed.

Lemma key_spec a k : parse_currency_or_any a = Fine (Ok k) <-> tolerance_key a k.
Proof.
  unfold parse_currency_or_any, tolerance_key. destruct (str_eqb a (lit "*")) eqn:E.
  - apply str_eqb_eq in E as ->. split; [intros H; injection H as <-; auto|].
    intros [[_ ->]|[L _]]; auto. exfalso.
    assert (currency_try_from (lit "*") = Fine (Ok (lit "*"))) as X by (apply currency_ok; auto). discriminate.
  - apply str_eqb_neq in E. destruct (parse_currency a) as [[x|e]|] eqn:P; simpl.
    + apply parse_currency_spec in P as [-> L]. split; [intros H; injection H as <-; auto|]. intros [[A _]|[_ ->]]; [congruence|auto].
    + split; [discriminate|]. intros [[A _]|[L _]]; [congruence|].
      assert (parse_currency a = Fine (Ok a)) by (apply parse_currency_spec; auto). congruence.
    + split; [discriminate|]. intros [[A _]|[L _]]; [congruence|].
      assert (parse_currency a = Fine (Ok a)) by (apply parse_currency_spec; auto). congruence.
Qed.

Lemma key_wrong a e : parse_currency_or_any a = Fine (Err e) <-> a <> lit "*" /\ exists x, e = OptBad (BadCurrency x) /\ currency_fault a x.
Proof.
  rewrite <- parse_currency_wrong. unfold parse_currency_or_any. destruct (str_eqb a (lit "*")) eqn:E.
  - apply str_eqb_eq in E. split; [discriminate|]. intros [X _]. contradiction.
  - apply str_eqb_neq in E. destruct (parse_currency a) as [[x|x]|]; simpl; split; try discriminate.
    + intros [_ X]. discriminate.
    + intro X. injection X as <-. auto.
    + intros [_ X]. congruence.
    + intros [_ X]. discriminate.
Qed.

Lemma parse_bool_wrong v e : parse_bool v = Err e <-> e = OptBad BadBool /\ forall b, ~ bool_word v b.
Proof.
  split.
  - intro H. split.
    + unfold parse_bool in H. destruct (eq_ignore_case v (lit "true")); [discriminate|].
      destruct (eq_ignore_case v (lit "false")); congruence.
    + intros b X. apply parse_bool_spec in X. congruence.
  - intros [-> N]. destruct (parse_bool v) as [b|x] eqn:E; [apply parse_bool_spec in E; destruct (N _ E)|].
    unfold parse_bool in E. destruct (eq_ignore_case v (lit "true")); [discriminate|].
    destruct (eq_ignore_case v (lit "false")); congruence.
Qed.

Lemma parse_usize_wrong v : parse_usize v = None <-> forall n, ~ unsigned_number v n.
Proof.
  destruct (parse_usize v) as [n|] eqn:E.
  - split; [discriminate|]. intro N. apply parse_usize_spec in E. destruct (N _ E).
  - split; [|reflexivity]. intros _ n X. apply parse_usize_spec in X. congruence.
Qed.

Lemma lookup_names_None {V} (names : list (list N * V)) v : lookup str_eqb v names = None <-> ~ In v (map fst names).
Proof.
  rewrite lookup_None. split.
  - intros H I. apply in_map_iff in I as ([k x] & <- & I). specialize (H k x I). now rewrite str_eqb_refl in H.
  - intros H k x I. apply str_eqb_neq. intros ->. apply H. apply in_map_iff. exists (k, x). auto.
Qed.

Theorem C49_wrong_value U dp sp name v e :
  option_value U dp name v sp = Fine (Err (OptBad e)) <-> wrong U dp name v e.
Proof.
  assert (J : forall v, exists a bs, v = join_colon (a :: bs) /\ split_on colon v = a :: bs /\ forall x, In x (a :: bs) -> ~ In 58%N x).
  { clear. intro v. pose proof (split_on_nonempty colon v) as NE. pose proof (join_colon_split v) as J.
    pose proof (fun w => split_on_pieces colon v w) as PC. destruct (split_on colon v) as [|a bs]; [congruence|]. exists a, bs. auto. }
  assert (NM : forall t, fine (O_AccountTypeName t) (parse_account_type_name U v) = Fine (Err (OptBad e)) <->
     exists x, e = BadAccountTypeName x /\ account_type_name_fault U v x).
  { intro t. setoid_rewrite <- C17_account_type_name_errors. unfold parse_account_type_name, fine, mapr.
    destruct (account_type_name_try_from U v); split; try discriminate; try (intros (? & ? & X); discriminate).
    - intro X. injection X as <-. eauto.
    - intros (x & -> & X). congruence. }
  assert (SB : forall w, fine (O_Subaccount w) (parse_subaccount U v) = Fine (Err (OptBad e)) <->
     exists ws x, v = join_colon ws /\ ws <> [] /\ (forall y, In y ws -> ~ In 58%N y) /\ e = BadAccountName x /\ first_fault U ws x).
  { intro w. unfold parse_subaccount, fine, mapr. split.
    - destruct (J v) as (a & bs & Ev & Sv & C). destruct (subaccount_try_from U v) as [s|x] eqn:X; [discriminate|].
      intro H. injection H as <-. exists (a :: bs), x. split; [exact Ev|]. split; [discriminate|]. split; [exact C|]. split; [reflexivity|].
      apply C17_subaccount_errors; [discriminate|exact C|]. congruence.
    - intros (ws & x & -> & NE & C & -> & F). apply C17_subaccount_errors in F; auto. rewrite F. reflexivity. }
  split.
  - unfold option_value. name_cases name.
    + discriminate.
    + intro H. apply NM in H. destruct H as (x & -> & H). apply (wrong_name U dp Assets); assumption.
    + intro H. apply NM in H. destruct H as (x & -> & H). apply (wrong_name U dp Liabilities); assumption.
    + intro H. apply NM in H. destruct H as (x & -> & H). apply (wrong_name U dp Equity); assumption.
    + intro H. apply NM in H. destruct H as (x & -> & H). apply (wrong_name U dp Income); assumption.
    + intro H. apply NM in H. destruct H as (x & -> & H). apply (wrong_name U dp Expenses); assumption.
    + intro H. apply SB in H. destruct H as (ws & x & -> & A & B & -> & F). apply (wrong_subaccount U dp PreviousBalances); assumption.
    + intro H. apply SB in H. destruct H as (ws & x & -> & A & B & -> & F). apply (wrong_subaccount U dp PreviousEarnings); assumption.
    + intro H. apply SB in H. destruct H as (ws & x & -> & A & B & -> & F). apply (wrong_subaccount U dp PreviousConversions); assumption.
    + intro H. apply SB in H. destruct H as (ws & x & -> & A & B & -> & F). apply (wrong_subaccount U dp CurrentEarnings); assumption.
    + intro H. apply SB in H. destruct H as (ws & x & -> & A & B & -> & F). apply (wrong_subaccount U dp CurrentConversions); assumption.
    + intro H. apply SB in H. destruct H as (ws & x & -> & A & B & -> & F). apply (wrong_subaccount U dp UnrealizedGains); assumption.
    + intro H. apply SB in H. destruct H as (ws & x & -> & A & B & -> & F). apply (wrong_subaccount U dp Rounding); assumption.
    + destruct (parse_currency v) as [[c|x]|] eqn:P; try discriminate. intro H. injection H as ->.
      apply parse_currency_wrong in P. destruct P as (x & X & P). injection X as ->. apply wrong_currency; [simpl; auto|exact P].
    + destruct (J v) as (a & bs & Ev & Sv & C). unfold parse_tolerance_default. rewrite Sv. rewrite Ev in *. clear Ev Sv.
      destruct (parse_currency_or_any a) as [[k|x]|] eqn:K.
      * apply key_spec in K. destruct bs as [|b bs].
        -- intro H. injection H as <-. cbn [join_colon]. eapply wrong_tolerance_missing; [apply C; left; reflexivity|exact K].
        -- unfold parse_decimal. destruct (dp b) as [d|] eqn:D.
           ++ destruct bs as [|y bs]; [discriminate|]. intro H. injection H as <-. eapply wrong_tolerance_colons; eauto. discriminate.
           ++ intro H. injection H as <-. eapply wrong_tolerance_number; eauto.
      * apply key_wrong in K. destruct K as (A & y & -> & F). intro H. injection H as <-. apply wrong_tolerance_currency; assumption.
      * discriminate.
    + unfold parse_decimal. destruct (dp v) eqn:D; [discriminate|]. intro H. injection H as <-. constructor; assumption.
    + destruct (parse_bool v) as [b|x] eqn:D; [discriminate|]. intro H. injection H as ->. apply parse_bool_wrong in D.
      destruct D as [X D]. injection X as ->. constructor; assumption.
    + discriminate.
    + destruct (parse_currency v) as [[c|x]|] eqn:P; try discriminate. intro H. injection H as ->.
      apply parse_currency_wrong in P. destruct P as (x & X & P). injection X as ->. apply wrong_currency; [simpl; auto|exact P].
    + destruct (parse_bool v) as [b|x] eqn:D; [discriminate|]. simpl. unfold parse_zero_or_one.
      destruct (str_eqb v (lit "1")) eqn:A; [discriminate|]. destruct (str_eqb v (lit "0")) eqn:B; [discriminate|].
      intro H. injection H as <-. apply parse_bool_wrong in D. apply str_eqb_neq in A, B. apply wrong_commas; tauto.
    + destruct (parse_usize v) eqn:P; [discriminate|]. intro H. injection H as <-. constructor. apply parse_usize_wrong. exact P.
    + unfold parse_booking. destruct (booking_try_from v) eqn:P; [discriminate|]. intro H. injection H as <-. constructor.
      apply lookup_names_None in P. exact P.
    + unfold parse_plugin_mode. destruct (plugin_mode_try_from v) eqn:P; [discriminate|]. intro H. injection H as <-. constructor.
      apply lookup_names_None in P. exact P.
    + discriminate.
  - intro W. inversion W; subst.
    + destruct t; refine (proj2 (NM _) _); eauto.
    + destruct w; refine (proj2 (SB _) _); eauto 10.
    + assert (P : parse_currency v = Fine (Err (OptBad (BadCurrency e0)))) by (apply parse_currency_wrong; eauto).
      simpl in H. destruct H as [<-|[<-|[]]]; unfold option_value; rewrite P; reflexivity.
    + unfold option_value, parse_tolerance_default. rewrite split_join_colon by (try discriminate; assumption).
      assert (K : parse_currency_or_any a = Fine (Err (OptBad (BadCurrency e0)))) by (apply key_wrong; eauto). rewrite K. reflexivity.
    + unfold option_value, parse_tolerance_default. rewrite split_on_piece by assumption. apply key_spec in H0. rewrite H0. reflexivity.
    + unfold option_value, parse_tolerance_default. rewrite split_join_colon by (try discriminate; assumption).
      apply key_spec in H0. rewrite H0. unfold parse_decimal. rewrite H1. reflexivity.
    + unfold option_value, parse_tolerance_default. rewrite split_join_colon by (try discriminate; assumption).
      apply key_spec in H0. rewrite H0. unfold parse_decimal. rewrite H1. destruct bs; [congruence|]. reflexivity.
    + unfold option_value, parse_decimal. rewrite H. reflexivity.
    + assert (P : parse_bool v = Err (OptBad BadBool)) by (apply parse_bool_wrong; auto). unfold option_value. rewrite P. reflexivity.
    + assert (P : parse_bool v = Err (OptBad BadBool)) by (apply parse_bool_wrong; auto). unfold option_value. rewrite P. simpl.
      unfold parse_zero_or_one. apply str_eqb_neq in H0, H1. rewrite H0, H1. reflexivity.
    + apply parse_usize_wrong in H. unfold option_value. rewrite H. reflexivity.
    + assert (P : booking_try_from v = None) by (apply lookup_names_None; exact H). unfold option_value, parse_booking. rewrite P. reflexivity.
    + assert (P : plugin_mode_try_from v = None) by (apply lookup_names_None; exact H). unfold option_value, parse_plugin_mode. rewrite P. reflexivity.
Qed.

(** Reading an option panics exactly on a currency with a non-ASCII character. *)
Theorem C49_option_panics U dp sp name v :
  option_value U dp name v sp = Panic <->
  exists c, Exists (fun x => ~ ascii x) c /\
    ((In name [lit "conversion_currency"; lit "operating_currency"] /\ c = v) \/
     (name = lit "inferred_tolerance_default" /\ ~ In 58%N c /\ (v = c \/ exists r, v = c ++ 58%N :: r))).
Proof.
  assert (PC : forall c, parse_currency c = Panic <-> Exists (fun x => ~ ascii x) c).
  { intros c. rewrite <- C18_panics. unfold parse_currency. destruct (currency_try_from c) as [[x|e]|]; split; congruence. }
  assert (PT : forall w, parse_tolerance_default dp w = Panic <->
     exists c, Exists (fun x => ~ ascii x) c /\ ~ In 58%N c /\ (w = c \/ exists r, w = c ++ 58%N :: r)).
  { intros w. unfold parse_tolerance_default, parse_currency_or_any. split.
    - pose proof (join_colon_split w) as J. pose proof (split_on_nonempty colon w) as NE.
      pose proof (fun x => split_on_pieces colon w x) as PI.
      destruct (split_on colon w) as [|f fs]; [congruence|].
      destruct (str_eqb f (lit "*")).
      + destruct fs as [|f2 fs]; [discriminate|]. destruct (parse_decimal dp f2); [|discriminate]. destruct fs; discriminate.
      + destruct (parse_currency f) as [[c|e]|] eqn:P; simpl.
        * destruct fs as [|f2 fs]; [discriminate|]. destruct (parse_decimal dp f2); [|discriminate]. destruct fs; discriminate.
        * discriminate.
        * intros _. exists f. split; [now apply PC|]. split; [apply PI; simpl; auto|].
          destruct fs as [|f2 fs]; [left; now rewrite <- J|]. right. exists (join_colon (f2 :: fs)). rewrite <- J. reflexivity.
    - intros (c & E & NC & W).
      assert (exists fs, split_on colon w = c :: fs) as (fs & ->).
      { destruct W as [->|(r & ->)]; [exists []; now apply split_on_piece|].
        rewrite split_on_app, split_on_piece by auto. simpl. eauto. }
      destruct (str_eqb c (lit "*")) eqn:S.
      + apply str_eqb_eq in S as ->. apply PC in E. discriminate.
      + apply PC in E. now rewrite E. }
  split.
  - unfold option_value. name_cases name; unfold fine, mapr, parse_account_type_name, parse_subaccount, parse_decimal, parse_booking, parse_plugin_mode.
    all: try discriminate.
    all: try (inner; discriminate).
    + destruct (parse_currency v) as [[c|e]|] eqn:P; try discriminate. intros _. apply PC in P. exists v. simpl; tauto.
    + destruct (parse_tolerance_default dp v) as [[[c d]|e]|] eqn:P; try discriminate. intros _. apply PT in P as (c & A & B & C).
      exists c. split; auto.
    + destruct (parse_currency v) as [[c|e]|] eqn:P; try discriminate. intros _. apply PC in P. exists v. simpl; tauto.
  - intros (c & E & [[I ->]|[-> H]]).
    + apply PC in E. simpl in I. destruct I as [<-|[<-|[]]]; unfold option_value; rewrite E; reflexivity.
    + assert (P : parse_tolerance_default dp v = Panic) by (apply PT; eauto). unfold option_value. rewrite P. reflexivity.
Qed.

Example ex_reads_tolerance dp : dp (lit "0.01") = Some (mk_dec false 1 2) ->
  option_value ascii_unicode dp (lit "inferred_tolerance_default") (lit "*:0.01") None
  = Fine (Ok (O_InferredToleranceDefault AnyCurrency (mk_dec false 1 2))).
Proof. intros H. apply C49_option_value; [split; auto; repeat split|]. apply (reads_tolerance _ _ _ (lit "*") (lit "0.01")); auto.
  - intros [H0|[]]; discriminate.
  - simpl. intuition discriminate.
  - left; auto.
Qed.

Example ex_reads_bool dp : option_value ascii_unicode dp (lit "render_commas") (lit "TrUe") None = Fine (Ok (O_RenderCommas true)).
Proof. reflexivity. Qed.
Example ex_reads_documents dp :
  option_value ascii_unicode dp (lit "documents") (lit "docs") (Some (lit "/home/me/main.bean")) = Fine (Ok (O_Documents (lit "/home/me/docs"))).
Proof. reflexivity. Qed.

Example ex_wrong_tolerance U dp : dp (lit "x") = None -> wrong U dp (lit "inferred_tolerance_default") (lit "USD:x") (BadDecimal (lit "x")).
Proof.
  intro H. apply (wrong_tolerance_number U dp (lit "USD") (OneCurrency (lit "USD")) (lit "x") []); [|apply key_spec; reflexivity|exact H].
  intros x [<-|[<-|[]]]; vm_compute; intuition discriminate.
Qed.
Example ex_wrong_subaccount dp : wrong ascii_unicode dp (lit "account_rounding") (lit "Rounding:off") (BadAccountName (NameInitial 111)).
Proof. apply (C49_wrong_value _ _ None). reflexivity. Qed.
Example ex_wrong_currency U dp : wrong U dp (lit "operating_currency") (lit "NZ D") (BadCurrency (CurrencyIntermediate (lit " "))).
Proof. apply (C49_wrong_value _ _ None). reflexivity. Qed.

Print Assumptions C12_first_wins.
Print Assumptions C13_entries.
Print Assumptions C14_tolerance_fallback.
Print Assumptions C49_option_value.
Print Assumptions C49_wrong_value.
