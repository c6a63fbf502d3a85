(** * C56: what errors say; C57: the errors and warnings of a parse, as written *)
From Coq Require Import String Ascii.
From Coq Require Import List NArith Arith Bool Lia DecimalString DecimalN Permutation.
From Verif Require ReportFacts Peg Grammar SpecGrammar P_Grammar.
From Verif Require Import Base BaseFacts Types Text Cost Options Display Sources Report Parse Messages SpecTypes SpecOptions SpecCost SpecMessages TypesFacts P_Types P_Cost P_Options.
Import ListNotations.
Local Open Scope nat_scope.

(** ** Lists of pieces *)

Lemma format_joined {T} (f : T -> str) sep prefix x l :
  joined_by sep (map f (x :: l)) (format (x :: l) f sep None) /\
  format (x :: l) f sep (Some prefix) = prefix ++ format (x :: l) f sep None.
Proof.
  split; [|reflexivity]. unfold format. revert x. induction l as [|y l IH]; intro x; cbn [map flat_map app].
  - rewrite app_nil_r. constructor.
  - rewrite <- app_assoc. constructor. apply (IH y).
Qed.

Lemma joined_fun sep l t t' : joined_by sep l t -> joined_by sep l t' -> t = t'.
Proof.
  intros H. revert t'. induction H as [|x|x y l t H IH]; intros t' H'; inversion H'; subst; auto.
  now rewrite (IH t0).
Qed.

Lemma interspersed_joined sep l : joined_by sep l (interspersed sep l).
Proof. induction l as [|x [|y l] IH]; cbn; constructor. exact IH. Qed.

Lemma quoted_format cs t : quoted_list cs t <-> t = format cs single_quoted comma None.
Proof.
  assert (J : quoted_list cs (format cs single_quoted comma None)).
  { destruct cs as [|c cs]; [constructor|]. apply (format_joined single_quoted comma [] c cs). }
  split; [|intros ->; exact J]. intro H. exact (joined_fun _ _ _ _ H J).
Qed.

(** Each quoted character takes three characters, so the list can be told from
    the text, whatever comes after it. *)
Lemma quoted_length c cs : List.length (format (c :: cs) single_quoted comma None) = 3 + 5 * List.length cs.
Proof.
  unfold format. rewrite !app_length. cbn [List.length single_quoted Nat.add]. do 3 f_equal.
  induction cs as [|d cs IH]; [reflexivity|]. cbn [flat_map]. rewrite app_length, IH. cbn. lia.
Qed.
Lemma quoted_inj cs cs' : format cs single_quoted comma None = format cs' single_quoted comma None -> cs = cs'.
Proof.
  assert (F : forall cs cs', flat_map (fun y => comma ++ single_quoted y) cs = flat_map (fun y => comma ++ single_quoted y) cs' -> cs = cs').
  { clear. induction cs as [|c cs IH]; intros [|c' cs'] H; try reflexivity; try discriminate. cbn in H. injection H as -> H. f_equal. apply IH. exact H. }
  destruct cs as [|c cs], cs' as [|c' cs']; intro H; try reflexivity; try discriminate. cbn in H. injection H as -> H. f_equal. apply F. exact H.
Qed.

(** ** The texts for refused names *)

Lemma blames_text intro bad advice m :
  blames intro bad advice m <-> m = intro ++ format bad single_quoted comma None ++ advice.
Proof.
  unfold blames. split.
  - intros (l & Q & ->). apply quoted_format in Q. now subst.
  - intros ->. eexists. split; [apply quoted_format; reflexivity|reflexivity].
Qed.

(** Errors about some characters name one at least. *)
Definition says_which (e : name_error) : Prop := match e with NameSubsequent [] => False | _ => True end.

Lemma format_prefix {T} (f : T -> str) sep prefix l : l <> [] ->
  format l f sep (Some prefix) = prefix ++ format l f sep None.
Proof. destruct l; [congruence|]. intros _. apply format_joined. Qed.

Lemma name_text empty initial intro advice e m text : says_which e ->
  text = match e with
         | NameEmpty => empty
         | NameInitial c => lit "invalid character " ++ single_quoted c ++ initial
         | NameSubsequent bad => intro ++ format bad single_quoted comma None ++ advice
         end ->
  name_message empty initial intro advice e m <-> m = text.
Proof.
  intros W ->. split.
  - intro H. destruct H as [|c m H|bad m H]; [reflexivity| |]; apply blames_text in H; subst m; reflexivity.
  - intros ->. destruct e; constructor; apply blames_text; reflexivity.
Qed.

Lemma atn_text e m : says_which e -> account_type_name_message e m <-> m = display_atn_error e.
Proof.
  intro W. apply name_text; [exact W|]. destruct e as [|c|bad]; [reflexivity|reflexivity|].
  unfold display_atn_error. rewrite format_prefix by (intros ->; exact W). now rewrite <- app_assoc.
Qed.
Lemma an_text e m : says_which e -> account_name_message e m <-> m = display_an_error e.
Proof.
  intro W. apply name_text; [exact W|]. destruct e as [|c|bad]; [reflexivity|reflexivity|].
  unfold display_an_error. rewrite format_prefix by (intros ->; exact W). now rewrite <- app_assoc.
Qed.
Lemma key_text e m : says_which e -> key_message e m <-> m = display_key_error e.
Proof.
  intro W. apply name_text; [exact W|]. destruct e as [|c|bad]; [reflexivity|reflexivity|].
  unfold display_key_error. rewrite format_prefix by (intros ->; exact W). now rewrite <- app_assoc.
Qed.

Lemma fault_says first others s e : name_fault first others s e -> says_which e.
Proof. intros []; cbn; auto. destruct bad; auto. Qed.
Lemma first_fault_says U ws e : first_fault U ws e -> says_which e.
Proof. intros (b & w & a & _ & _ & F). eapply fault_says, F. Qed.

Lemma currency_text e m : (forall bad, e = CurrencyIntermediate bad -> bad <> []) ->
  currency_message e m <-> m = display_currency_error e.
Proof.
  intro W. split.
  - intro H. destruct H as [|c m H|bad m H|c m H|]; try reflexivity; apply blames_text in H; subst m; try reflexivity.
    unfold display_currency_error. rewrite format_prefix by (apply W; reflexivity). now rewrite <- app_assoc.
  - intros ->. destruct e as [|c|bad|c|]; constructor; apply blames_text; try reflexivity.
    unfold display_currency_error. rewrite format_prefix by (apply W; reflexivity). now rewrite <- app_assoc.
Qed.
Lemma currency_fault_says s e : currency_fault s e -> forall bad, e = CurrencyIntermediate bad -> bad <> [].
Proof. intros [] ? X; congruence. Qed.

(** *** C56: a refused text is refused with the message which says why *)

Theorem C56_account_type_name U s m :
  (exists e, account_type_name_try_from U s = Err e /\ display_atn_error e = m) <->
  exists e, account_type_name_fault U s e /\ account_type_name_message e m.
Proof.
  split; intros (e & F & T); exists e.
  - apply C17_account_type_name_errors in F. split; [exact F|]. apply atn_text; [eapply fault_says, F|auto].
  - split; [now apply C17_account_type_name_errors|]. apply atn_text in T; [auto|eapply fault_says, F].
Qed.

Theorem C56_account_name U s m :
  (exists e, account_name_try_from U s = Err e /\ display_an_error e = m) <->
  exists e, account_name_fault U s e /\ account_name_message e m.
Proof.
  split; intros (e & F & T); exists e.
  - apply C17_account_name_errors in F. split; [exact F|]. apply an_text; [eapply fault_says, F|auto].
  - split; [now apply C17_account_name_errors|]. apply an_text in T; [auto|eapply fault_says, F].
Qed.

Theorem C56_key U s m :
  (exists e, key_try_from U s = Err e /\ display_key_error e = m) <->
  exists e, key_fault U s e /\ key_message e m.
Proof.
  split; intros (e & F & T); exists e.
  - apply C17_key_errors in F. split; [exact F|]. apply key_text; [eapply fault_says, F|auto].
  - split; [now apply C17_key_errors|]. apply key_text in T; [auto|eapply fault_says, F].
Qed.

Theorem C56_tag_or_link U s m :
  (exists bad, tag_link_try_from U s = Err bad /\ display_tag_link_error bad = m) <->
  exists bad, tag_link_fault U s bad /\
    blames (lit "invalid characters ") bad (lit " for tag or link identifier - must be alphanumeric or one of '-', '_', '/', '.'") m.
Proof.
  split; intros (bad & F & T); exists bad.
  - apply C17_tag_link_errors in F. split; [exact F|]. apply blames_text. subst m.
    unfold display_tag_link_error. rewrite format_prefix by apply F. now rewrite <- app_assoc.
  - split; [now apply C17_tag_link_errors|]. apply blames_text in T. subst m.
    unfold display_tag_link_error. rewrite format_prefix by apply F. now rewrite <- app_assoc.
Qed.

Theorem C56_currency s m :
  (exists e, currency_try_from s = Fine (Err e) /\ display_currency_error e = m) <->
  exists e, currency_fault s e /\ currency_message e m.
Proof.
  split; intros (e & F & T); exists e.
  - apply C18_errors in F. split; [exact F|]. apply currency_text; [eapply currency_fault_says, F|auto].
  - split; [now apply C18_errors|]. apply currency_text in T; [auto|eapply currency_fault_says, F].
Qed.

Theorem C56_flag_letter c m :
  (exists e, flag_letter_try_from c = Err e /\ display_flag_letter_error e = m) <->
  ~ upper c /\ blames (lit "invalid character ") [c] (lit " for flag letter - must be uppercase ASCII") m.
Proof.
  split.
  - intros (e & F & T). apply C17_flag_letter_errors in F as [-> F]. split; [exact F|]. apply blames_text. now subst m.
  - intros [F T]. exists c. split; [now apply C17_flag_letter_errors|]. apply blames_text in T. now subst m.
Qed.

(** *** Accounts, with the names of account types in force *)

Lemma set_nth_length {A} i (x : A) l : List.length (Types.set_nth i x l) = List.length l.
Proof. revert i. induction l as [|y l IH]; intros [|i]; cbn; auto. Qed.

Lemma update_all_length us : forall n n', update_all n us = Fine n' -> List.length (name_by_type n') = List.length (name_by_type n).
Proof.
  induction us as [|[t s] us IH]; intros n n' H; cbn in H; [injection H as <-; reflexivity|].
  unfold atn_update in H. destruct (lookup str_eqb s (type_by_name n)) as [t0|].
  - destruct (account_type_eqb t0 t); now apply IH in H.
  - destruct (nth_error (name_by_type n) (account_type_index t)); [|discriminate].
    apply IH in H. rewrite H. cbn. apply set_nth_length.
Qed.

Lemma listed_names us n : update_all default_atns us = Fine n ->
  named n (rename_all default_names us) /\
  name_by_type n = map (rename_all default_names us) [Assets; Liabilities; Equity; Income; Expenses].
Proof.
  intro H. destruct (C15_names_bijection us) as (n' & H' & N & _). assert (n' = n) by congruence. subst n'. split; [exact N|].
  assert (L : List.length (name_by_type n) = 5) by (rewrite (update_all_length us default_atns n H); reflexivity).
  destruct N as [N _]. set (f := rename_all default_names us) in *. clearbody f.
  pose proof (N Assets) as A0. pose proof (N Liabilities) as A1. pose proof (N Equity) as A2.
  pose proof (N Income) as A3. pose proof (N Expenses) as A4. unfold atn_name in *.
  destruct (name_by_type n) as [|x0 [|x1 [|x2 [|x3 [|x4 [|]]]]]]; try discriminate L.
  cbn in *. congruence.
Qed.

Theorem C56_account U us n ws m :
  update_all default_atns us = Fine n -> ws <> [] -> (forall x, In x ws -> ~ In 58%N x) ->
  (exists e, account_new U (join_colon ws) n = Err e /\ display_account_error n e = m) <->
  exists e, account_fault U (rename_all default_names us) ws e /\
    account_message (map (rename_all default_names us) [Assets; Liabilities; Equity; Income; Expenses]) e m.
Proof.
  intros H NE C. destruct (listed_names us n H) as [N L]. rewrite <- L. clear L.
  assert (J : forall t, joined_by (lit ", ") (name_by_type n) t <-> t = display_atns n).
  { intro t. unfold display_atns. assert (J : joined_by (lit ", ") (name_by_type n) (format (name_by_type n) (fun x => x) comma None)).
    { destruct (name_by_type n) as [|x l]; [constructor|].
      pose proof (proj1 (format_joined (fun x : str => x) comma [] x l)) as J. now rewrite map_id in J. }
    split; [|intros ->; exact J]. intro X. exact (joined_fun _ _ _ _ X J). }
  split; intros (e & F & T); exists e.
  - apply (C16_account_errors U n _ ws e N NE C) in F. split; [exact F|]. subst m.
    destruct F as [w ws' e F|w ws' e F G|w ws' F G K]; constructor.
    + apply atn_text; [eapply fault_says, F|reflexivity].
    + apply an_text; [eapply first_fault_says, G|reflexivity].
    + now apply J.
  - split; [now apply (C16_account_errors U n _ ws e N NE C)|].
    destruct F as [w ws' e F|w ws' e F G|w ws' F G K]; inversion T; subst.
    + symmetry. apply atn_text; [eapply fault_says, F|assumption].
    + symmetry. apply an_text; [eapply first_fault_says, G|assumption].
    + match goal with X : joined_by _ _ _ |- _ => apply J in X; subst; reflexivity end.
Qed.

(** *** Values of options *)

Lemma bad_value_text M e m :
  (forall x, e = BadAccountTypeName x \/ e = BadAccountName x -> says_which x) ->
  (forall bad, e = BadCurrency (CurrencyIntermediate bad) -> bad <> []) ->
  bad_value_message (me_decimal M) (me_integer M) e m <-> m = display_bad_value M e.
Proof.
  intros A B. split.
  - intro H. destruct H as [e m H|e m H|e m H| | | | | | |]; try reflexivity.
    + apply atn_text in H; auto.
    + apply an_text in H; auto.
    + apply currency_text in H; auto. intros bad ->. auto.
  - intros ->. destruct e; try constructor.
    + apply atn_text; auto.
    + apply an_text; auto.
    + apply currency_text; auto. intros bad ->. auto.
Qed.

Lemma wrong_says U dp name v e : wrong U dp name v e ->
  (forall x, e = BadAccountTypeName x \/ e = BadAccountName x -> says_which x) /\
  (forall bad, e = BadCurrency (CurrencyIntermediate bad) -> bad <> []).
Proof.
  intro H.
  destruct H as [t v e F|w ws e A B F|name v e A F|a bs e A B F| | | | | | | | | ]; split; intros x X;
    try (destruct X; discriminate); try discriminate.
  - destruct X as [X|X]; [injection X as <-|discriminate]. eapply fault_says, F.
  - destruct X as [X|X]; [discriminate|injection X as <-]. eapply first_fault_says, F.
  - injection X as ->. eapply currency_fault_says; [exact F|reflexivity].
  - injection X as ->. eapply currency_fault_says; [exact F|reflexivity].
Qed.

Theorem C56_option M U dp sp name v m :
  (exists e, option_value U dp name v sp = Fine (Err e) /\ display_option_error M e = m) <->
  ~ In name option_names /\ m = lit "unknown option" \/
  exists e, wrong U dp name v e /\ bad_value_message (me_decimal M) (me_integer M) e m.
Proof.
  split.
  - intros ([|e] & F & T).
    + left. apply C49_unknown_option in F. split; [exact F|]. now subst m.
    + right. apply C49_wrong_value in F. exists e. split; [exact F|]. apply wrong_says in F. apply bad_value_text; [apply F|apply F|]. now subst m.
  - intros [[F ->]|(e & F & T)].
    + exists OptUnknown. split; [|reflexivity]. now apply C49_unknown_option.
    + exists (OptBad e). split; [now apply C49_wrong_value|]. apply wrong_says in F. apply bad_value_text in T; [|apply F|apply F]. now subst m.
Qed.

(** *** Numbers *)

Lemma value_of_uint u : decimal_value (lit (NilEmpty.string_of_uint u)) = N.of_uint u.
Proof.
  assert (A : forall u p, fold_left (fun acc c => (acc * 10 + (c - 48))%N) (lit (NilEmpty.string_of_uint u)) (N.pos p) = N.pos (Pos.of_uint_acc u p)).
  { clear. unfold lit. induction u; intro p; [reflexivity|..];
      cbn [NilEmpty.string_of_uint list_ascii_of_string map fold_left Pos.of_uint_acc];
      match goal with |- fold_left _ _ ?x = N.pos (Pos.of_uint_acc _ ?q) => replace x with (N.pos q); [apply IHu|match goal with |- context [N_of_ascii ?a] => let v := eval vm_compute in (N_of_ascii a) in change (N_of_ascii a) with v end; lia] end. }
  unfold decimal_value, N.of_uint. induction u; [reflexivity|exact IHu|..];
    change (lit (NilEmpty.string_of_uint ?x)) with (lit (NilEmpty.string_of_uint x)); unfold Pos.of_uint; rewrite <- A; reflexivity.
Qed.

Lemma unorm_form u : Decimal.unorm u = Decimal.D0 Decimal.Nil \/
  Decimal.unorm u <> Decimal.Nil /\ forall v, Decimal.unorm u <> Decimal.D0 v.
Proof.
  unfold Decimal.unorm. assert (N : forall v, Decimal.nzhead u <> Decimal.D0 v) by (induction u; cbn; auto; discriminate).
  destruct (Decimal.nzhead u); try (right; split; discriminate); [now left|now destruct (N u0)].
Qed.

Lemma digits_uint t : Forall digit t -> exists u, t = lit (NilEmpty.string_of_uint u).
Proof.
  induction 1 as [|c t D F [u ->]]; [now exists Decimal.Nil|].
  assert (C : c = 48%N \/ c = 49%N \/ c = 50%N \/ c = 51%N \/ c = 52%N \/ c = 53%N \/ c = 54%N \/ c = 55%N \/ c = 56%N \/ c = 57%N)
    by (unfold digit in D; lia).
  destruct C as [C|[C|[C|[C|[C|[C|[C|[C|[C|C]]]]]]]]]; subst c;
    [exists (Decimal.D0 u)|exists (Decimal.D1 u)|exists (Decimal.D2 u)|exists (Decimal.D3 u)|exists (Decimal.D4 u)|
     exists (Decimal.D5 u)|exists (Decimal.D6 u)|exists (Decimal.D7 u)|exists (Decimal.D8 u)|exists (Decimal.D9 u)]; reflexivity.
Qed.

Lemma show_N_numeral t n : numeral t n <-> t = show_N n.
Proof.
  assert (S : numeral (show_N n) n).
  { unfold numeral, show_N. pose proof (DecimalN.Unsigned.to_of (N.to_uint n)) as T. rewrite DecimalN.Unsigned.of_to in T.
    rewrite value_of_uint, DecimalN.Unsigned.of_to. split; [|split; [apply ReportFacts.uint_digits|split; [reflexivity|]]];
      destruct (unorm_form (N.to_uint n)) as [U|[U V]]; rewrite <- T in *; try (rewrite U; discriminate); try (rewrite U; reflexivity).
    - destruct (N.to_uint n); discriminate || congruence.
    - intro H. destruct (N.to_uint n) eqn:Z; try discriminate H. now destruct (V u). }
  split; [|intros ->; exact S]. intros (NE & D & V & Z). destruct (digits_uint t D) as [u ->]. unfold show_N.
  do 2 f_equal. rewrite <- V, value_of_uint, DecimalN.Unsigned.to_of. unfold Decimal.unorm.
  destruct u; try reflexivity; [now destruct NE|]. specialize (Z eq_refl).
  change (lit (NilEmpty.string_of_uint (Decimal.D0 u))) with (48%N :: lit (NilEmpty.string_of_uint u)) in Z. injection Z as Z.
  destruct u; try discriminate Z. reflexivity.
Qed.

(** *** Cost specifications *)

Theorem C56_cost comps m :
  (exists es, cost_of comps = Err es /\ display_cost_errors es = m) <->
  exists again, again <> [] /\ repeats [] (flat_map (fun c => fields_of (item c)) (comps_of comps)) again /\ cost_message again m.
Proof.
  assert (T : forall es m, cost_message es m <-> m = display_cost_errors es).
  { clear. intros es m.
    assert (P : forall es pieces, Forall2 (fun k piece => exists word, In (k, word) field_names /\
        piece = lit "duplicate " ++ lit word ++ lit " field in cost specification") es pieces <-> pieces = map display_cost_error es).
    { clear. intros es pieces. split.
      - induction 1 as [|k piece es pieces (w & A & ->) F IH]; [reflexivity|]. cbn [map]. rewrite <- IH. f_equal.
        cbn in A. destruct A as [A|[A|[A|[A|[A|[A|[]]]]]]]; injection A as <- <-; reflexivity.
      - intros ->. induction es as [|k es IH]; cbn [map]; constructor; [|exact IH].
        destruct k; eexists; (split; [cbn; eauto 10|reflexivity]). }
    assert (J : joined_by (lit ", ") (map display_cost_error es) (display_cost_errors es)).
    { destruct es as [|k es]; [constructor|]. apply (format_joined display_cost_error comma [] k es). }
    split.
    - intros (ps & A & B). apply P in A. subst ps. exact (joined_fun _ _ _ _ B J).
    - intros ->. exists (map display_cost_error es). split; [now apply P|exact J]. }
  split.
  - intros (es & A & B). apply C24_errors in A as [A R]. exists es. split; [exact A|]. split; [exact R|]. now apply T.
  - intros (es & A & R & B). exists es. split; [now apply C24_errors|]. symmetry. now apply T.
Qed.

(** *** What is refused can be told from the message *)

Lemma suffix_inj (a b s : str) : a ++ s = b ++ s -> a = b.
Proof. apply app_inv_tail. Qed.

Lemma list_then bad bad' (s : str) : bad <> [] -> bad' <> [] ->
  format bad single_quoted comma None ++ s = format bad' single_quoted comma None ++ s -> bad = bad'.
Proof. intros _ _ H. apply suffix_inj in H. now apply quoted_inj. Qed.

Lemma name_tells empty initial intro advice e e' m :
  (forall a b c bad, bad <> [] ->
     empty <> lit "invalid character " ++ single_quoted c ++ initial /\
     empty <> intro ++ format bad single_quoted comma None ++ advice /\
     lit "invalid character " ++ single_quoted a ++ initial <> intro ++ format (b :: bad) single_quoted comma None ++ advice /\
     lit "invalid character " ++ single_quoted a ++ initial <> intro ++ format [b] single_quoted comma None ++ advice) ->
  says_which e -> says_which e' ->
  name_message empty initial intro advice e m -> name_message empty initial intro advice e' m -> e = e'.
Proof.
  intros D W W' H H'. eapply name_text in H; [|exact W|reflexivity]. eapply name_text in H'; [|exact W'|reflexivity].
  subst m. destruct e as [|c|bad], e' as [|c'|bad']; try reflexivity.
  - destruct (proj1 (D 0%N 0%N c' [0%N] ltac:(discriminate))). auto.
  - destruct (proj1 (proj2 (D 0%N 0%N 0%N bad' ltac:(intros ->; exact W')))). auto.
  - destruct (proj1 (D 0%N 0%N c [0%N] ltac:(discriminate))). auto.
  - apply app_inv_head in H'. cbn in H'. injection H' as ->. reflexivity.
  - exfalso. destruct bad' as [|b [|b2 bad']]; [exact W'| |].
    + destruct (D c b c [0%N] ltac:(discriminate)) as (_ & _ & _ & X). auto.
    + destruct (D c b c (b2 :: bad') ltac:(discriminate)) as (_ & _ & X & _). auto.
  - destruct (proj1 (proj2 (D 0%N 0%N 0%N bad ltac:(intros ->; exact W)))). auto.
  - exfalso. destruct bad as [|b [|b2 bad]]; [exact W| |].
    + destruct (D c' b c' [0%N] ltac:(discriminate)) as (_ & _ & _ & X). auto.
    + destruct (D c' b c' (b2 :: bad) ltac:(discriminate)) as (_ & _ & X & _). auto.
  - f_equal. apply app_inv_head in H'. eapply list_then; [..|exact H']; intros ->; [exact W|exact W'].
Qed.

Theorem C56_message_tells_why U s s' m :
  (forall e e', account_type_name_fault U s e -> account_type_name_fault U s' e' ->
     account_type_name_message e m -> account_type_name_message e' m -> e = e') /\
  (forall e e', account_name_fault U s e -> account_name_fault U s' e' ->
     account_name_message e m -> account_name_message e' m -> e = e') /\
  (forall e e', key_fault U s e -> key_fault U s' e' -> key_message e m -> key_message e' m -> e = e') /\
  (forall e e', currency_fault s e -> currency_fault s' e' -> currency_message e m -> currency_message e' m -> e = e') /\
  (forall bad bad' intro advice, blames intro bad advice m -> blames intro bad' advice m -> bad = bad').
Proof.
  assert (N : forall (b : N) bad, bad <> [] -> exists x y, format (b :: bad) single_quoted comma None = 39%N :: b :: 39%N :: 44%N :: x :: y).
  { intros b [|b2 bad] NE; [congruence|]. cbn. eauto. }
  split; [|split; [|split; [|split]]].
  - intros e e' F F' A B. eapply name_tells; [|eapply fault_says, F|eapply fault_says, F'|exact A|exact B].
    intros a b c bad NE. destruct (N b bad NE) as (x & y & ->). repeat split; try discriminate; destruct bad; try congruence; discriminate.
  - intros e e' F F' A B. eapply name_tells; [|eapply fault_says, F|eapply fault_says, F'|exact A|exact B].
    intros a b c bad NE. destruct (N b bad NE) as (x & y & ->). repeat split; try discriminate; destruct bad; try congruence; discriminate.
  - intros e e' F F' A B. eapply name_tells; [|eapply fault_says, F|eapply fault_says, F'|exact A|exact B].
    intros a b c bad NE. destruct (N b bad NE) as (x & y & ->). repeat split; try discriminate; destruct bad; try congruence; discriminate.
  - intros e e' F F' A B. pose proof (currency_fault_says _ _ F) as W. pose proof (currency_fault_says _ _ F') as W'.
    apply currency_text in A; [|exact W]. apply currency_text in B; [|exact W']. rewrite A in B. clear A F F'.
    destruct e as [|c|bad|c|], e' as [|c'|bad'|c'|]; try reflexivity; try discriminate B; unfold display_currency_error in B;
      try (destruct bad as [|? ?]; [now destruct (W [])|discriminate B]); try (destruct bad' as [|? ?]; [now destruct (W' [])|discriminate B]).
    + injection B as ->. reflexivity.
    + rewrite !format_prefix in B by (eauto; discriminate). rewrite <- !app_assoc in B. apply app_inv_head in B. f_equal. eapply list_then; [..|exact B]; eauto.
    + injection B as ->. reflexivity.
  - intros bad bad' intro advice A B. apply blames_text in A, B. rewrite A in B. apply app_inv_head, suffix_inj, quoted_inj in B. exact B.
Qed.

(** *** Errors and warnings *)

Lemma relate_parts name : forall sps n, let n' := relate n name sps in
  nt_kind n' = nt_kind n /\ nt_message n' = nt_message n /\ nt_reason n' = nt_reason n /\ nt_span n' = nt_span n /\
  contexts n' = contexts n /\ related n' = related n ++ map (fun sp => (name, sp)) sps.
Proof.
  induction sps as [|sp sps IH]; intro n; cbn zeta; [cbn; rewrite app_nil_r; auto 10|].
  destruct (IH (related_to_named_span n name sp)) as (A & B & C & D & F & G). cbn zeta in *. unfold relate in *. cbn [fold_left map].
  rewrite A, B, C, D, F, G. unfold related at 1. cbn. rewrite <- app_assoc. auto 10.
Qed.
Lemma relate_reason name n sps : nt_reason (relate n name sps) = nt_reason n.
Proof. apply relate_parts. Qed.

Lemma context_fun show l t t' : context_text show l t -> context_text show l t' -> t = t'.
Proof.
  intros (tags & entries & metas & A & B & C & ->) (tags' & entries' & metas' & A' & B' & C' & ->).
  rewrite (joined_fun _ _ _ _ A A'). f_equal. f_equal.
  assert (entries = entries') as <-; [|exact (joined_fun _ _ _ _ C C')].
  clear A C A' C'. revert entries' B'. induction B as [|[k vs] e ms es (values & J & ->) B IH]; intros es' B'; inversion B' as [|? e' ? es1 X B1]; subst; [reflexivity|]. destruct X as (values' & J' & ->).
  rewrite (joined_fun _ _ _ _ J J'). f_equal. auto.
Qed.

Lemma context_shown M l : context_text (display_meta_value (me_display M)) l (fmt_include_context M l).
Proof.
  unfold fmt_include_context. do 3 eexists. split; [apply interspersed_joined|]. split; [|split; [apply interspersed_joined|reflexivity]].
  induction (ls_meta l) as [|[k vs] ms IH]; cbn [map]; constructor; [|exact IH].
  eexists. split; [apply interspersed_joined|reflexivity].
Qed.

(** The error or warning for a report says what is wrong, at its place. *)
Theorem C56_report M r :
  (forall e, rp_problem r = BadOptionValue e -> exists U dp name v, wrong U dp name v e) ->
  notice_for (display_meta_value (me_display M)) (me_decimal M) (me_integer M) (me_contexts M) (me_message M) r (notice_of M r).
Proof.
  intro W. unfold notice_of. destruct r as [p sp rel]. cbn [rp_problem rp_span rp_related] in *. 
  assert (Cu : forall text, tells (display_meta_value (me_display M)) (me_decimal M) (me_integer M) p K_Error None text None ->
    notice_for (display_meta_value (me_display M)) (me_decimal M) (me_integer M) (me_contexts M) (me_message M) (mk_report p sp rel) (custom_notice M (mk_report p sp rel) text)).
  { intros text T. split; [|reflexivity]. exists None, None. split; [exact T|]. cbn. auto. }
  assert (Pl : forall message reason, tells (display_meta_value (me_display M)) (me_decimal M) (me_integer M) p K_Error (Some message) reason None ->
    notice_for (display_meta_value (me_display M)) (me_decimal M) (me_integer M) (me_contexts M) (me_message M) (mk_report p sp rel) (notice_new K_Error message reason sp)).
  { intros message reason T. split; [|reflexivity]. exists (Some message), None. split; [exact T|]. cbn. auto. }
  assert (Re : forall k message reason name, tells (display_meta_value (me_display M)) (me_decimal M) (me_integer M) p k (Some message) reason (Some name) ->
    notice_for (display_meta_value (me_display M)) (me_decimal M) (me_integer M) (me_contexts M) (me_message M) (mk_report p sp rel) (relate (notice_new k message reason sp) name rel)).
  { intros k message reason name T. destruct (relate_parts name rel (notice_new k message reason sp)) as (A & B & C & D & F & G).
    split; [|rewrite D; reflexivity]. exists (Some message), (Some name). rewrite A, B, C, F, G. split; [exact T|]. cbn. auto. }
  destruct p as [t|t|k|c| |e|t| | | | | |e|e|here [first|]| | |d max lines]; first [apply Cu|apply Pl|apply Re]; try constructor.
  - destruct (W e eq_refl) as (U & dp & name & v & X). apply wrong_says in X. now apply bad_value_text.
  - destruct t; [apply (tells_in_use _ _ _ Assets "Assets")|apply (tells_in_use _ _ _ Liabilities "Liabilities")|apply (tells_in_use _ _ _ Equity "Equity")|
      apply (tells_in_use _ _ _ Income "Income")|apply (tells_in_use _ _ _ Expenses "Expenses")]; cbn; auto 10.
  - apply context_shown.
  - apply context_shown.
  - apply context_shown.
  - now apply show_N_numeral.
  - now apply show_N_numeral.
Qed.

(** Of such a problem nothing else can be said. *)
Theorem C56_one_message show dt it p k m r n k' m' r' n' :
  (forall e, p = BadOptionValue e -> exists U dp name v, wrong U dp name v e) ->
  tells show dt it p k m r n -> tells show dt it p k' m' r' n' -> k = k' /\ m = m' /\ r = r' /\ n = n'.
Proof.
  intros W T T'.
  assert (Bd : forall e m m', p = BadOptionValue e -> bad_value_message dt it e m -> bad_value_message dt it e m' -> m = m').
  { intros e x x' -> B B'. destruct (W e eq_refl) as (U & dp & name & v & X). apply wrong_says in X as [X Y].
    set (M := mk_message_env (mk_display_env (fun _ => []) (fun _ => []) (fun l => l) (fun l => l)) dt it (fun _ _ => ([], [], mk_span 0 0 0, [])) (fun _ => []) (fun _ _ => [])).
    apply (bad_value_text M e x X Y) in B. apply (bad_value_text M e x' X Y) in B'. congruence. }
  assert (Nu : forall a b n, numeral a n -> numeral b n -> a = b).
  { intros a b x A B. apply show_N_numeral in A, B. congruence. }
  destruct T; inversion T'; subst; try now auto.
  - match goal with A : bad_value_message _ _ _ _, B : bad_value_message _ _ _ _ |- _ => rewrite (Bd _ _ _ eq_refl A B) end. auto.
  - cbn in *. repeat match goal with H : _ \/ _ |- _ => destruct H as [H|H] end; try contradiction;
      repeat match goal with H : (_, _) = (_, _) |- _ => inversion H; clear H end; subst; try discriminate; auto.
  - match goal with A : context_text _ _ _, B : context_text _ _ _ |- _ => rewrite (context_fun _ _ _ _ A B) end. auto.
  - repeat match goal with A : context_text ?s ?l ?x, B : context_text ?s ?l ?y |- _ => tryif constr_eq x y then fail else (pose proof (context_fun _ _ _ _ A B); clear B) end. subst. auto.
  - repeat match goal with A : numeral ?x ?l, B : numeral ?y ?l |- _ => tryif constr_eq x y then fail else (pose proof (Nu _ _ _ A B); clear B) end. subst. auto.
Qed.

(** *** What is advised *)

(** The characters and words which messages say are allowed are those which
    are. *)
Theorem C56_advice U :
  (exists xs listed, quoted_list xs listed /\
     lit " for tag or link identifier - must be alphanumeric or one of '-', '_', '/', '.'" =
     lit " for tag or link identifier - must be alphanumeric or one of " ++ listed /\
     forall s, tag_link_try_from U s = Ok s <-> Forall (fun c => alnum U c \/ In c xs) s) /\
  (exists xs listed, quoted_list xs listed /\
     lit " for currency - must be upppercase ASCII alphanumeric or one of ''', '.', '_', '-'" =
     lit " for currency - must be upppercase ASCII alphanumeric or one of " ++ listed /\
     forall m, currency_try_from (65%N :: m ++ [65%N]) = Fine (Ok (65%N :: m ++ [65%N])) <-> Forall (fun c => upper c \/ digit c \/ In c xs) m) /\
  (forall dp sp, exists words listed, joined_by (lit ", ") words listed /\
     lit "Expected one of STRICT, STRICT_WITH_SIZE, NONE, AVERAGE, FIFO, LIFO, HIFO" = lit "Expected one of " ++ listed /\
     forall v, In v words <-> exists x, option_value U dp (lit "booking_method") v sp = Fine (Ok x)) /\
  (forall dp sp, exists words listed, joined_by (lit ", ") words listed /\
     lit "Expected one of DEFAULT, RAW" = lit "Expected one of " ++ listed /\
     forall v, In v words <-> exists x, option_value U dp (lit "plugin_processing_mode") v sp = Fine (Ok x)).
Proof.
  assert (Dec : forall (B : Type) (words : list str) (v : str) (o : outcome (result B option_error)) (bad : bad_value),
     (o = Fine (Err (OptBad bad)) <-> ~ In v words) -> (In v words -> exists x, o = Fine (Ok x)) -> In v words <-> exists x, o = Fine (Ok x)).
  { intros B words v o bad A C. split; [exact C|]. intros [x X]. destruct (in_dec (list_eq_dec N.eq_dec) v words) as [I|I]; [exact I|]. apply A in I. congruence. }
  split; [|split; [|split]].
  - exists [45; 95; 47; 46]%N. eexists. split; [apply quoted_format; reflexivity|]. split; [reflexivity|]. intro s.
    rewrite C17_tag_link. unfold tag_link_lang. split.
    + intros [_ F]. eapply Forall_impl; [|exact F]. cbn. intros c. intuition.
    + intro F. split; [reflexivity|]. eapply Forall_impl; [|exact F]. cbn. intros c. intuition.
  - exists [39; 46; 95; 45]%N. eexists. split; [apply quoted_format; reflexivity|]. split; [reflexivity|]. intro m.
    rewrite C18_accepts. unfold currency_lang. split.
    + intros [_ [_ [(c & Q & _)|(a & m' & z & Q & _ & F & _)]]].
      * injection Q as _ Q. destruct m; discriminate.
      * injection Q as <- Q. apply app_inj_tail in Q as [<- _]. eapply Forall_impl; [|exact F]. unfold currency_middle. cbn. intros c. intuition.
    + intro F. split; [reflexivity|]. split; [left; unfold upper; lia|]. right. exists 65%N, m, 65%N. split; [reflexivity|].
      split; [left; unfold upper; lia|]. split; [|left; unfold upper; lia]. eapply Forall_impl; [|exact F]. unfold currency_middle. cbn. intros c. intuition.
  - intros dp sp. exists (map lit ["STRICT"; "STRICT_WITH_SIZE"; "NONE"; "AVERAGE"; "FIFO"; "LIFO"; "HIFO"]%string). eexists.
    split; [apply interspersed_joined|]. split; [reflexivity|]. intro v. apply (Dec _ _ _ _ BadBooking).
    + rewrite C49_wrong_value. split; [|intro H; now constructor]. intro H. inversion H; subst; try discriminate; auto;
        try (match goal with x : account_type |- _ => destruct x; discriminate | x : subaccount_option |- _ => destruct x; discriminate end).
    + cbn [map In]. intro H. repeat (destruct H as [<-|H]; [eexists; reflexivity|]). destruct H.
  - intros dp sp. exists (map lit ["DEFAULT"; "RAW"]%string). eexists.
    split; [apply interspersed_joined|]. split; [reflexivity|]. intro v. apply (Dec _ _ _ _ BadPluginMode).
    + rewrite C49_wrong_value. split; [|intro H; now constructor]. intro H. inversion H; subst; try discriminate; auto;
        try (match goal with x : account_type |- _ => destruct x; discriminate | x : subaccount_option |- _ => destruct x; discriminate end).
    + cbn [map In]. intro H. repeat (destruct H as [<-|H]; [eexists; reflexivity|]). destruct H.
Qed.

(** Not so for the initial of an account name: the message says that it must be
    an uppercase ASCII letter or a digit, but any letter outside ASCII will
    do. *)
Theorem C56_account_name_initial_refuted U c : u_alphabetic U c = true -> ~ ascii c ->
  account_name_try_from U [c] = Ok [c] /\ ~ upper c /\ ~ digit c.
Proof.
  intros A N. assert (B : is_ascii c = false) by (apply not_true_iff_false; intro B; apply N; now apply is_ascii_spec).
  split; [|unfold upper, digit, ascii in *; lia].
  unfold account_name_try_from, name_try_from. cbn [filter]. unfold an_initial. rewrite A, B. cbn [negb andb]. now rewrite orb_true_r.
Qed.

(** Nor for render_commas: the message says that the value must be true or
    false, but 1 and 0 will do. *)
Theorem C56_render_commas_refuted M U dp sp :
  (exists e, option_value U dp (lit "render_commas") (lit "yes") sp = Fine (Err e) /\
     display_option_error M e = lit "must be true or false or case-insensitive equivalent") /\
  option_value U dp (lit "render_commas") (lit "1") sp = Fine (Ok (O_RenderCommas true)).
Proof. split; [eexists; split|]; reflexivity. Qed.

(** The number which the warning for a long string asks for is a value of the
    option with which there is no warning, and there is with any smaller one. *)
Theorem C56_hint M U dp file I po i s j ws es w :
  unicode_ok U -> (N.of_nat (List.length s) < 2 ^ 64 - 1)%N ->
  Grammar.p_string I po i = Peg.Got s j ws es -> In w ws ->
  exists before value lines,
    nt_reason (notice_of M w) = before ++ lit ") - hint: would require option ""long_string_maxlines"" """ ++ value ++ lit """" /\
    option_value U dp (lit "long_string_maxlines") value file = Fine (Ok (O_LongStringMaxlines lines)) /\
    forall po' n, po_maxlines po' = Some n -> (Grammar.p_string I po' i = Peg.Got s j [] es <-> (lines <= item (sd_spanned n))%N).
Proof.
  intros O Sz P W. apply P_Grammar.C21_string in P as ([[a b] T] & -> & -> & ->).
  destruct (P_Grammar.C21_warning I po i s a b T) as [Below Above].
  set (limit := match po_maxlines po with Some m => item (sd_spanned m) | None => 64%N end) in *.
  set (lines := N.of_nat (Datatypes.S (count_occ N.eq_dec s 10%N))) in *.
  destruct (N.le_gt_cases lines limit) as [Le|Gt]; [rewrite (Below Le) in W; destruct W|].
  destruct (Above Gt) as (w' & Q & Pr & _ & _). rewrite Q in W. destruct W as [<-|[]].
  exists (lit "exceeds long_string_maxlines(" ++ (if match po_maxlines po with Some _ => false | None => true end then lit "default " else []) ++ show_N limit), (show_N lines), lines.
  split; [|split].
  - unfold notice_of. rewrite Pr. cbv zeta. rewrite relate_reason. cbn [nt_reason notice_new]. rewrite <- !app_assoc. reflexivity.
  - apply C49_option_value; [exact O|]. constructor. destruct (proj2 (show_N_numeral _ lines) eq_refl) as (A & B & C & _).
    exists (show_N lines). repeat split; auto. unfold lines. pose proof (count_occ_bound N.eq_dec 10%N s). lia.
  - intros po' n Hn. rewrite P_Grammar.C21_string. destruct (P_Grammar.C21_warning I po' i s a b T) as [B' A']. rewrite Hn in A', B'. fold lines in A', B'. split.
    + intros (_ & _ & _ & X). destruct (N.le_gt_cases lines (item (sd_spanned n))) as [L|G]; [exact L|]. destruct (A' G) as (y & Y & _). rewrite Y in X. discriminate.
    + intro L. split; [exists (a, b); exact T|]. rewrite (B' L). auto.
Qed.

Print Assumptions C56_account_type_name.
Print Assumptions C56_account_name.
Print Assumptions C56_key.
Print Assumptions C56_tag_or_link.
Print Assumptions C56_currency.
Print Assumptions C56_flag_letter.
Print Assumptions C56_account.
Print Assumptions C56_option.
Print Assumptions C56_cost.
Print Assumptions C56_message_tells_why.
Print Assumptions C56_report.
Print Assumptions C56_one_message.
Print Assumptions C56_advice.
Print Assumptions C56_account_name_initial_refuted.
Print Assumptions C56_render_commas_refuted.
Print Assumptions C56_hint.

(** ** Cases *)
Definition ex_messages : message_env :=
  mk_message_env (mk_display_env (fun _ => lit "1") (fun _ => lit "2024-01-01") (fun l => l) (fun l => l))
    (fun _ => lit "no decimal") (fun _ => lit "no integer") (fun _ _ => ([], [], mk_span 0 0 0, [])) (fun _ => []) (fun t _ => t).

Example C56_ex_names :
  (exists e, account_type_name_try_from ascii_unicode (lit "assets") = Err e /\
     display_atn_error e = lit "invalid character 'a' for account name initial - must be uppercase ASCII letter") /\
  (exists e, account_name_try_from ascii_unicode (lit "A b*") = Err e /\
     display_an_error e = lit "invalid character ' ', '*' in account name - must be alphanumeric or '-'") /\
  (exists e, key_try_from ascii_unicode (lit "a.b") = Err e /\
     display_key_error e = lit "invalid characters '.' for key - must be alphanumeric or '-' or '_'") /\
  (exists bad, tag_link_try_from ascii_unicode (lit "a!b?") = Err bad /\
     display_tag_link_error bad = lit "invalid characters '!', '?' for tag or link identifier - must be alphanumeric or one of '-', '_', '/', '.'") /\
  (exists e, currency_try_from (lit "AbC") = Fine (Err e) /\
     display_currency_error e = lit "invalid intermediate characters 'b' for currency - must be upppercase ASCII alphanumeric or one of ''', '.', '_', '-'") /\
  (exists e, flag_letter_try_from 97%N = Err e /\ display_flag_letter_error e = lit "invalid character 'a' for flag letter - must be uppercase ASCII").
Proof. repeat split; (eexists; split; reflexivity). Qed.

Example C56_ex_account : exists n e, update_all default_atns [(Assets, lit "Actifs")] = Fine n /\
  account_new ascii_unicode (lit "Assets:Cash") n = Err e /\
  display_account_error n e = lit "unknown account type Assets, must be one of Actifs, Liabilities, Equity, Income, Expenses".
Proof. eexists. eexists. split; [vm_compute; reflexivity|]. split; vm_compute; reflexivity. Qed.

Example C56_ex_option :
  (exists e, option_value ascii_unicode (fun _ => None) (lit "booking_method") (lit "ANY") None = Fine (Err e) /\
     display_option_error ex_messages e = lit "Expected one of STRICT, STRICT_WITH_SIZE, NONE, AVERAGE, FIFO, LIFO, HIFO") /\
  (exists e, option_value ascii_unicode (fun _ => None) (lit "titel") (lit "ANY") None = Fine (Err e) /\
     display_option_error ex_messages e = lit "unknown option").
Proof. split; (eexists; split; reflexivity). Qed.

Example C56_ex_report :
  let here := mk_listing [lit "a"; lit "b"] [(lit "k", [MV_Simple (SV_Bool true); MV_Simple SV_Null])] in
  let n := notice_of ex_messages (mk_report (DuplicateInclude here (Some (mk_listing [] []))) (mk_span 0 1 2) [mk_span 1 3 4]) in
  nt_message n = lit "duplicate include" /\ nt_reason n = lit "context #a #b k: [TRUE NULL]" /\ related n = [(lit "context  ", mk_span 1 3 4)].
Proof. vm_compute. auto. Qed.

(** A string of 66 lines. *)
Example C56_ex_hint :
  let s := repeat 10%N 65 in
  let I := Grammar.mk_input 0 [(Token.T_String s, (0, 67))] 67 in
  exists w, Grammar.p_string I default_parser_options 0 = Peg.Got s 1 [w] [] /\
    nt_reason (notice_of ex_messages w) = lit "exceeds long_string_maxlines(default 64) - hint: would require option ""long_string_maxlines"" ""66""".
Proof. eexists. split; vm_compute; reflexivity. Qed.

Example C56_ex_cost :
  let c x := mk_spanned x (mk_span 0 0 1) in
  exists es, cost_of (Some (c CC_Merge, [c (CC_Label (lit "a")); c CC_Merge; c (CC_Label (lit "b"))])) = Err es /\
    display_cost_errors es = lit "duplicate merge-cost field in cost specification, duplicate label field in cost specification".
Proof. eexists. split; vm_compute; reflexivity. Qed.
