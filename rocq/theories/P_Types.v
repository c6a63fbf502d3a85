(** * Properties C15, C16, C17, C18, C45, C48: names, identifiers, accounts, metadata lookup *)
From Coq Require Import String Ascii.
From Coq Require Import List NArith ZArith Arith Bool Lia Permutation.
From Verif Require Import Base BaseFacts Path PathFacts Types SpecTypes TypesFacts.
Import ListNotations.
Local Open Scope nat_scope.

(** ** C15: account type names *)

Lemma in_use_spec names t s :
  in_use_by_another names t s = true <-> exists t', t' <> t /\ names t' = s.
Proof.
  unfold in_use_by_another. rewrite existsb_exists. split.
  - intros (t' & _ & H). apply andb_true_iff in H as [A B]. exists t'. split.
    + intros ->. rewrite (proj2 (account_type_eqb_eq t t) eq_refl) in A. discriminate.
    + now apply str_eqb_eq.
  - intros (t' & D & E). exists t'. split; [destruct t'; simpl; tauto|].
    apply andb_true_iff. split; [|now apply str_eqb_eq].
    destruct (account_type_eqb t' t) eqn:Q; auto. apply account_type_eqb_eq in Q; contradiction.
Qed.

(** One assignment, on any table in good order: it is rejected, naming the
    owner, exactly when another type has that name; otherwise exactly the one
    type is renamed.  It never panics. *)
Theorem C15_update_accepts n names t s :
  named n names -> (forall t', t' <> t -> names t' <> s) ->
  exists n', atn_update n t s = Fine (Ok n') /\ named n' (set_name names t s).
Proof. apply atn_update_ok. Qed.

Theorem C15_update_rejects n names t t' s :
  named n names -> t' <> t -> names t' = s -> atn_update n t s = Fine (Err t').
Proof. apply atn_update_err. Qed.

(** Giving a type the name it already has leaves the table as it was. *)
Theorem C15_update_same n names t :
  named n names -> atn_update n t (names t) = Fine (Ok n).
Proof.
  intros [A G]. unfold atn_update. fold (atn_get n (names t)).
  rewrite (proj2 (G (names t) t) eq_refl).
  now rewrite (proj2 (account_type_eqb_eq t t) eq_refl).
Qed.

(** After any sequence of assignments starting from the default names. *)
Theorem C15_names_bijection us :
  exists n, update_all default_atns us = Fine n /\
    named n (rename_all default_names us) /\
    (forall t t', rename_all default_names us t = rename_all default_names us t' -> t = t').
Proof.
  assert (H : forall us n names, named n names ->
    exists n', update_all n us = Fine n' /\ named n' (rename_all names us)).
  { clear us. induction us as [|[t s] us IH]; intros n names N; simpl; [eauto|].
    destruct (in_use_by_another names t s) eqn:I.
    - apply in_use_spec in I as (t' & D & E). rewrite (C15_update_rejects n names t t' s); auto.
    - destruct (C15_update_accepts n names t s N) as (n' & E & N').
      { intros t' D E. assert (in_use_by_another names t s = true) by (apply in_use_spec; eauto). congruence. }
      rewrite E. eauto. }
  destruct (H us _ _ named_default) as (n & E & N).
  exists n. split; auto. split; auto. intros t t'. now apply (named_inj n).
Qed.

Example ex_rename_income :
  exists n, update_all default_atns [(Income, lit "Einnahmen"); (Expenses, lit "Income"); (Equity, lit "Assets")] = Fine n /\
    atn_get n (lit "Income") = Some Expenses /\ atn_get n (lit "Einnahmen") = Some Income /\
    atn_get n (lit "Expenses") = None /\ atn_name n Equity = Fine (lit "Equity").
Proof. eexists; split; [reflexivity|]. repeat split. Qed.

(** ** C17: identifiers *)

Theorem C17_account_type_name U s t :
  account_type_name_try_from U s = Ok t <-> t = s /\ account_type_name_lang U s.
Proof. apply atn_ok. Qed.

Theorem C17_account_name U s t :
  account_name_try_from U s = Ok t <-> t = s /\ account_name_lang U s.
Proof. apply an_ok. Qed.

Theorem C17_key U s t : key_try_from U s = Ok t <-> t = s /\ key_lang U s.
Proof. apply key_ok. Qed.

Theorem C17_tag_link U s t : tag_link_try_from U s = Ok t <-> t = s /\ tag_link_lang U s.
Proof. apply tag_link_ok. Qed.

Theorem C17_flag_letter c f : flag_letter_try_from c = Ok f <-> f = F_Letter c /\ upper c.
Proof.
  unfold flag_letter_try_from. rewrite <- is_upper_spec.
  destruct (is_ascii_uppercase c); split; try discriminate.
  - intros H; injection H as <-; auto.
  - now intros [-> _].
  - intros [_ H]; discriminate.
Qed.

(** A refused identifier is blamed on its emptiness, else on its first
    character, else on exactly the offending later characters, in order. *)
Theorem C17_account_type_name_errors U s e :
  account_type_name_try_from U s = Err e <-> account_type_name_fault U s e.
Proof. apply name_fault_spec; [apply is_upper_spec|apply atn_subsequent_spec]. Qed.

Theorem C17_account_name_errors U s e :
  account_name_try_from U s = Err e <-> account_name_fault U s e.
Proof. apply name_fault_spec; [apply an_initial_spec|apply atn_subsequent_spec]. Qed.

Theorem C17_key_errors U s e : key_try_from U s = Err e <-> key_fault U s e.
Proof. apply name_fault_spec; [apply is_lower_spec|apply key_subsequent_spec]. Qed.

Theorem C17_tag_link_errors U s bad : tag_link_try_from U s = Err bad <-> tag_link_fault U s bad.
Proof.
  rewrite tag_link_err. unfold tag_link_fault.
  rewrite <- (filter_offending (tag_link_char U)) by (intro; apply tag_link_char_spec).
  split; intros [A B]; subst; auto.
Qed.

Theorem C17_flag_letter_errors c e : flag_letter_try_from c = Err e <-> e = c /\ ~ upper c.
Proof.
  unfold flag_letter_try_from. rewrite <- is_upper_spec. destruct (is_ascii_uppercase c); intuition congruence.
Qed.

(** Sub-account option values: a colon-separated, non-empty list of account names. *)
Theorem C17_subaccount U s t : unicode_ok U ->
  subaccount_try_from U s = Ok t <->
  t = s /\ exists ws, ws <> [] /\ s = join_colon ws /\ Forall (account_name_lang U) ws.
Proof.
  intros O. unfold subaccount_try_from. destruct (check_account_names U (split_on colon s)) eqn:C.
  - split; [discriminate|]. intros [_ (ws & A & -> & F)].
    rewrite split_join_colon in C; auto.
    + apply check_account_names_ok in F. congruence.
    + intros w I. rewrite Forall_forall in F. eapply account_name_no_colon; eauto.
  - apply check_account_names_ok in C. pose proof (split_on_nonempty colon s) as NE.
    destruct (split_on colon s) as [|w ws] eqn:S; [congruence|].
    split; [intros H; injection H as <-|now intros [-> _]].
    split; auto. exists (w :: ws). repeat split; auto. rewrite <- S. symmetry. apply join_colon_split.
Qed.

(** A refused one is blamed on the first bad name of it. *)
Theorem C17_subaccount_errors U ws e : ws <> [] -> (forall w, In w ws -> ~ In 58%N w) ->
  subaccount_try_from U (join_colon ws) = Err e <-> first_fault U ws e.
Proof.
  intros A B. unfold subaccount_try_from. rewrite split_join_colon by assumption. rewrite <- check_account_names_err.
  destruct (check_account_names U ws) eqn:C; [split; congruence|]. destruct ws; [congruence|]. split; discriminate.
Qed.

Example ex_key : key_try_from ascii_unicode (lit "file-Name_2") = Ok (lit "file-Name_2").
Proof. reflexivity. Qed.
Example ex_account_name_bad :
  account_name_try_from ascii_unicode (lit "Cash in_hand") = Err (NameSubsequent (lit " _")).
Proof. reflexivity. Qed.
Example ex_account_name_lower :
  account_name_try_from ascii_unicode (lit "cash") = Err (NameInitial 99%N).
Proof. reflexivity. Qed.
Example ex_tag : tag_link_try_from ascii_unicode (lit "trip/2024.a_b-c") = Ok (lit "trip/2024.a_b-c").
Proof. reflexivity. Qed.

(** ** C18: currencies *)

Theorem C18_accepts s t : currency_try_from s = Fine (Ok t) <-> t = s /\ currency_lang s.
Proof. apply currency_ok. Qed.

(** The conversion panics exactly on the strings with a non-ASCII character. *)
Theorem C18_panics s : currency_try_from s = Panic <-> Exists (fun c => ~ ascii c) s.
Proof.
  rewrite currency_panic. split.
  - intros H. apply Exists_exists. 
    destruct (existsb (fun c => negb (is_ascii c)) s) eqn:E.
    + apply existsb_exists in E as (x & I & N). exists x. split; auto.
      rewrite <- is_ascii_spec. destruct (is_ascii x); simpl in *; congruence.
    + exfalso. apply H. apply Forall_forall. intros x I. apply is_ascii_spec.
      destruct (is_ascii x) eqn:A; auto.
      assert (existsb (fun c => negb (is_ascii c)) s = true); [|congruence].
      apply existsb_exists. exists x. now rewrite A.
  - intros E F. apply Exists_exists in E as (x & I & N). rewrite Forall_forall in F. now apply F in I.
Qed.

(** So the expected "rejects every other string without panicking" is false. *)
Theorem C18_total_refuted : exists s, ~ currency_lang s /\ currency_try_from s = Panic.
Proof.
  exists [8364%N]. split.
  - intros [H _]. inversion H as [? ? X|? ? X]; subst; [unfold upper in X; lia|inversion X].
  - reflexivity.
Qed.

(** The reason given for a refused ASCII string. *)
Theorem C18_errors s e : currency_try_from s = Fine (Err e) <-> currency_fault s e.
Proof. apply currency_err. Qed.

(** One-character and empty strings. *)
Theorem C18_short c : ascii c ->
  currency_try_from [] = Fine (Err CurrencyEmpty) /\
  currency_try_from [c] =
    Fine (if (65 <=? c)%N && (c <=? 90)%N then Ok [c]
          else if (c =? 47)%N then Err (CurrencyFinal c) else Err (CurrencyInitial c)).
Proof.
  intros A. split; [reflexivity|].
  unfold currency_try_from. rewrite blen_ascii by (constructor; auto). simpl.
  unfold cur_initial, cur_final, is_ascii_uppercase, is_ascii_digit.
  destruct ((65 <=? c)%N && (c <=? 90)%N) eqn:Q; simpl; [reflexivity|].
  destruct (c =? 47)%N eqn:E; simpl; [|reflexivity].
  apply N.eqb_eq in E as ->. reflexivity.
Qed.

Example ex_currency_ok : currency_try_from (lit "/NQH21_QNEG22.5") = Fine (Ok (lit "/NQH21_QNEG22.5")).
Proof. reflexivity. Qed.
Example ex_currency_digits : currency_try_from (lit "/42") = Fine (Err CurrencyMissingLetter).
Proof. reflexivity. Qed.
Example ex_currency_mid : currency_try_from (lit "Ab D") = Fine (Err (CurrencyIntermediate (lit "b "))).
Proof. reflexivity. Qed.

(** ** C16: accounts *)

Theorem C16_account_new U n names s a :
  unicode_ok U -> named n names -> (forall t, account_type_name_lang U (names t)) ->
  account_new U s n = Ok a <->
  exists t ws, s = join_colon (names t :: ws) /\ Forall (account_name_lang U) ws /\ a = mk_account t s.
Proof.
  intros O N L. unfold account_new.
  pose proof (split_on_nonempty colon s) as NE. pose proof (join_colon_split s) as J.
  destruct (split_on colon s) as [|first rest] eqn:Sp; [congruence|].
  assert (C : forall t ws, s = join_colon (names t :: ws) -> Forall (account_name_lang U) ws -> first = names t /\ rest = ws).
  { intros t ws -> F. rewrite split_join_colon in Sp.
    - injection Sp as -> ->. auto.
    - discriminate.
    - intros w [<-|I]; [eapply account_type_name_no_colon; eauto|].
      rewrite Forall_forall in F. eapply account_name_no_colon; eauto. }
  destruct (account_type_name_try_from U first) as [tn|e] eqn:T.
  - apply atn_ok in T as [-> T]. destruct (check_account_names U rest) eqn:R.
    + split; [discriminate|]. intros (t & ws & E & F & _). destruct (C t ws E F) as [-> ->].
      apply check_account_names_ok in F. congruence.
    + apply check_account_names_ok in R. destruct (atn_get n first) as [t|] eqn:G.
      * apply (proj2 N) in G. split.
        -- intros H; injection H as <-. exists t, rest. rewrite G. auto.
        -- intros (t' & ws & E & F & ->). destruct (C t' ws E F) as [E1 ->].
           do 2 f_equal. eapply named_inj; eauto. congruence.
      * split; [discriminate|]. intros (t & ws & E & F & _). destruct (C t ws E F) as [E1 _].
        symmetry in E1. apply (proj2 N) in E1. congruence.
  - split; [discriminate|]. intros (t & ws & E & F & _). destruct (C t ws E F) as [-> _].
    assert (account_type_name_try_from U (names t) = Ok (names t)) by (apply atn_ok; auto). congruence.
Qed.

(** Why an account is refused, for the unique splitting at colons. *)
Theorem C16_account_errors U n names ws e :
  named n names -> ws <> [] -> (forall x, In x ws -> ~ In 58%N x) ->
  account_new U (join_colon ws) n = Err e <-> account_fault U names ws e.
Proof.
  intros N NE C. unfold account_new. rewrite split_join_colon; [|exact NE|exact C].
  destruct ws as [|w ws]; [congruence|]. clear C NE.
  destruct (account_type_name_try_from U w) as [tn|e0] eqn:T.
  - apply atn_ok in T as [-> T].
    assert (NF : forall e, ~ account_type_name_fault U w e).
    { intros e1 X. apply C17_account_type_name_errors in X. rewrite (proj2 (atn_ok U w w)) in X by auto. discriminate. }
    destruct (check_account_names U ws) as [e1|] eqn:R.
    + pose proof R as R'. apply check_account_names_err in R'. split.
      * intros H; injection H as <-. constructor; assumption.
      * intros H; inversion H as [? ? ? X|? ? ? X Y|? ? X Y Z]; subst.
        -- destruct (NF _ X).
        -- apply check_account_names_err in Y. congruence.
        -- apply check_account_names_ok in Y. congruence.
    + pose proof R as R'. apply check_account_names_ok in R'. destruct (atn_get n w) as [t|] eqn:G.
      * apply (proj2 N) in G. split; [discriminate|].
        intros H; inversion H as [? ? ? X|? ? ? X Y|? ? X Y Z]; subst.
        -- destruct (NF _ X).
        -- apply check_account_names_err in Y. congruence.
        -- destruct (Z t eq_refl).
      * split.
        -- intros H; injection H as <-. constructor; auto. intros t X. apply (proj2 N) in X. congruence.
        -- intros H; inversion H as [? ? ? X|? ? ? X Y|? ? X Y Z]; subst.
           ++ destruct (NF _ X).
           ++ apply check_account_names_err in Y. congruence.
           ++ reflexivity.
  - split.
    + intros H; injection H as <-. constructor. apply C17_account_type_name_errors. exact T.
    + intros H; inversion H as [? ? ? X|? ? ? X Y|? ? X Y Z]; subst.
      * apply C17_account_type_name_errors in X. congruence.
      * rewrite (proj2 (atn_ok U w w)) in T by auto. discriminate.
      * rewrite (proj2 (atn_ok U w w)) in T by auto. discriminate.
Qed.

(** The names reachable by valid assignments are valid names. *)
Lemma default_names_valid U t : unicode_ok U -> account_type_name_lang U (default_names t).
Proof.
  intros O. apply (atn_ok U (default_names t) (default_names t)).
  assert (A : forall s, match s with c :: r => is_ascii_uppercase c = true /\ forallb (fun x => is_ascii_uppercase x || is_ascii_lowercase x) r = true | [] => False end ->
     account_type_name_try_from U s = Ok s).
  { intros [|c r]; [tauto|]. intros [A B]. apply atn_ok. split; auto. exists c, r. split; auto. split; [now apply is_upper_spec|].
    apply Forall_forall. intros x I. left. left. rewrite forallb_forall in B. specialize (B x I).
    assert (is_ascii x = true) as X.
    { unfold is_ascii, is_ascii_uppercase, is_ascii_lowercase in *. clear -B.
      apply orb_true_iff in B. rewrite !andb_true_iff, !N.leb_le in B. apply N.ltb_lt. lia. }
    destruct (O x X) as [-> _]. exact B. }
  apply A. destruct t; split; reflexivity.
Qed.

Theorem C16_reachable_names U us :
  unicode_ok U -> Forall (fun u => account_type_name_lang U (snd u)) us ->
  forall t, account_type_name_lang U (rename_all default_names us t).
Proof.
  intros O. assert (H : forall us names, (forall t, account_type_name_lang U (names t)) ->
    Forall (fun u => account_type_name_lang U (snd u)) us -> forall t, account_type_name_lang U (rename_all names us t)).
  { clear us. induction us as [|[t s] us IH]; intros names V F; simpl; auto.
    inversion F as [|? ? A B]; subst. apply IH; auto.
    destruct (in_use_by_another names t s); auto. intros t'. unfold set_name.
    destruct (account_type_eqb t' t); auto. }
  intros F. apply H; auto. intros t. now apply default_names_valid.
Qed.

Example ex_account : account_new ascii_unicode (lit "Assets:Bank:4-Current") default_atns
  = Ok (mk_account Assets (lit "Assets:Bank:4-Current")).
Proof. reflexivity. Qed.
Example ex_account_unknown : account_new ascii_unicode (lit "Foo:Bar") default_atns = Err (AccUnknownType (lit "Foo")).
Proof. reflexivity. Qed.
Example ex_account_bare : account_new ascii_unicode (lit "Assets") default_atns = Ok (mk_account Assets (lit "Assets")).
Proof. reflexivity. Qed.

(** ** C45: equality of spanned items ignores position *)

(** types.rs 652-659: [Hash for Spanned], for any hash function of the items. *)
Definition spanned_hash {A} (h : A -> N) (x : spanned A) : N := h (item x).

Theorem C45_eq_ignores_span {A} (eqb : A -> A -> bool) x y sp sq :
  spanned_eqb eqb (mk_spanned x sp) (mk_spanned y sq) = eqb x y.
Proof. reflexivity. Qed.

Theorem C45_hash_agrees {A} (eqb : A -> A -> bool) (h : A -> N) a b :
  (forall x y, eqb x y = true -> h x = h y) ->
  spanned_eqb eqb a b = true -> spanned_hash h a = spanned_hash h b.
Proof. intros H E. apply H, E. Qed.

(** In a table keyed by spanned text, text decides which entry is found. *)
Theorem C45_lookup_by_text {V} (m : list (spanned (list N) * V)) k sp sq :
  lookup spanned_str_eqb (mk_spanned k sp) m = lookup spanned_str_eqb (mk_spanned k sq) m.
Proof. apply lookup_cong; [apply spanned_eqb_equiv, str_eqb_equiv|]. apply str_eqb_refl. Qed.

(** Inserting text which is already a key keeps the old key, with its span,
    and all other entries; new text becomes a new entry. *)
Theorem C45_insert_keeps_first_span {V} (m : list (spanned (list N) * V)) k sp v :
  keys_distinct spanned_str_eqb m ->
  (exists sq w a b, m = a ++ (mk_spanned k sq, w) :: b /\
     insert spanned_str_eqb (mk_spanned k sp) v m = a ++ (mk_spanned k sq, v) :: b) \/
  ((forall sq w, ~ In (mk_spanned k sq, w) m) /\
     insert spanned_str_eqb (mk_spanned k sp) v m = m ++ [(mk_spanned k sp, v)]).
Proof.
  intros _. unfold insert. destruct (lookup _ _ m) as [w|] eqn:L.
  - left. revert L. induction m as [|[[k' sq] w'] m IH]; simpl; [discriminate|].
    change (spanned_str_eqb (mk_spanned k sp) (mk_spanned k' sq)) with (str_eqb k k').
    destruct (str_eqb k k') eqn:E.
    + apply str_eqb_eq in E as <-. intros _. exists sq, w', [], m. auto.
    + intros L. destruct (IH L) as (sq2 & w2 & a & b & -> & R).
      exists sq2, w2, ((mk_spanned k' sq, w') :: a), b. split; auto. simpl. now rewrite R.
  - right. split; auto. intros sq w I.
    rewrite (lookup_None spanned_str_eqb) in L. specialize (L _ _ I).
    unfold spanned_str_eqb, spanned_eqb in L; simpl in L. now rewrite str_eqb_refl in L.
Qed.

(** ** C48: metadata lookup *)

Theorem C48_key_value m k v :
  keys_distinct spanned_str_eqb (md_key_values m) ->
  key_value m k = Some v <-> exists sp, In (mk_spanned k sp, v) (md_key_values m).
Proof.
  intros D. unfold key_value. destruct (md_key_values m) as [|[[k0 sp0] v0] rest] eqn:M.
  - split; [discriminate|]. intros (sp & []).
  - rewrite <- M in *. split.
    + intros L. apply lookup_In in L as ([k1 sp1] & I & E). apply str_eqb_eq in E. simpl in E. subst k1. exists sp1. exact I.
    + intros (sp & I).
      rewrite (lookup_cong spanned_str_eqb (spanned_eqb_equiv _ str_eqb_equiv) _ (mk_spanned k sp)).
      * apply keys_distinct_lookup; auto. apply spanned_eqb_equiv, str_eqb_equiv.
      * apply str_eqb_refl.
Qed.

(** The answer does not depend on the table's iteration order. *)
Theorem C48_order_independent m m' k :
  keys_distinct spanned_str_eqb (md_key_values m) ->
  Permutation (md_key_values m) (md_key_values m') -> key_value m k = key_value m' k.
Proof.
  intros D P. unfold key_value.
  destruct (md_key_values m) as [|[a va] r] eqn:M, (md_key_values m') as [|[b vb] r'] eqn:M'; auto.
  - apply Permutation_nil in P; discriminate.
  - symmetry in P. apply Permutation_nil in P; discriminate.
  - rewrite (lookup_perm spanned_str_eqb (spanned_eqb_equiv _ str_eqb_equiv) _ _ _ D P).
    apply C45_lookup_by_text.
Qed.

Example ex_key_value :
  let kv (k : string) i (v : string) := (mk_spanned (lit k) (mk_span 0 i (i + 3)), mk_spanned (MV_Simple (SV_String (lit v))) (mk_span 0 (i + 5) (i + 9))) in
  let m := mk_metadata [kv "foo"%string 10 "one"%string; kv "bar"%string 30 "two"%string] [] [] in
  keys_distinct spanned_str_eqb (md_key_values m) /\
  key_value m (lit "bar") = Some (snd (kv "bar"%string 30 "two"%string)) /\ key_value m (lit "baz") = None.
Proof. split; [|split]; repeat split. Qed.

Example ex_errors_in_order : currency_try_from (lit "Ab c d") = Fine (Err (CurrencyFinal 100)) /\
  currency_try_from (lit "A/b,c,D") = Fine (Err (CurrencyIntermediate (lit "/b,c,"))).
Proof. split; reflexivity. Qed.

Print Assumptions C15_names_bijection.
Print Assumptions C16_account_new.
Print Assumptions C18_accepts.
Print Assumptions C48_key_value.
Print Assumptions C16_account_errors.
Print Assumptions C18_errors.
