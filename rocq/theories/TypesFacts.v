(** * Facts about validators and name tables *)
From Coq Require Import String Ascii.
From Coq Require Import List NArith ZArith Arith Bool Lia ZifyBool ZifyNat ZifyN.
From Verif Require Import Base BaseFacts Path PathFacts Types SpecTypes.
Import ListNotations.
Local Open Scope nat_scope.

Lemma is_upper_spec c : is_ascii_uppercase c = true <-> upper c.
Proof. unfold is_ascii_uppercase, upper. lia. Qed.
Lemma is_lower_spec c : is_ascii_lowercase c = true <-> lower c.
Proof. unfold is_ascii_lowercase, lower. lia. Qed.
Lemma is_digit_spec c : is_ascii_digit c = true <-> digit c.
Proof. unfold is_ascii_digit, digit. lia. Qed.
Lemma is_ascii_spec c : is_ascii c = true <-> ascii c.
Proof. unfold is_ascii, ascii. lia. Qed.
Lemma is_alnum_spec U c : is_alphanumeric U c = true <-> alnum U c.
Proof. unfold is_alphanumeric, alnum. apply orb_true_iff. Qed.

Lemma filter_none {A} (p : A -> bool) l : filter (fun x => negb (p x)) l = [] <-> Forall (fun x => p x = true) l.
Proof.
  induction l as [|x l IH]; simpl.
  - split; auto.
  - destruct (p x) eqn:E; simpl.
    + rewrite IH. split; intros H; [constructor; auto|now inversion H].
    + split; [discriminate|]. intros H; inversion H; congruence.
Qed.

Lemma Forall_iff {A} (P Q : A -> Prop) l : (forall x, P x <-> Q x) -> Forall P l <-> Forall Q l.
Proof. intros H; split; apply Forall_impl; intros; now apply H. Qed.

Lemma name_try_from_ok ini sub (F O : N -> Prop) s t :
  (forall c, ini c = true <-> F c) -> (forall c, sub c = true <-> O c) ->
  name_try_from ini sub s = Ok t <-> t = s /\ identifier F O s.
Proof.
  intros HF HO. unfold name_try_from, identifier. destruct s as [|c rest].
  - split; [discriminate|]. intros [_ (c & r & E & _)]; discriminate.
  - destruct (ini c) eqn:E; simpl.
    + destruct (filter _ rest) eqn:FE.
      * apply filter_none in FE. split.
        -- intros H; injection H as <-. split; auto. exists c, rest. split; auto. split; [now apply HF|].
           revert FE; apply Forall_impl; intros; now apply HO.
        -- intros [-> _]; auto.
      * split; [discriminate|]. intros [_ (c' & r & E1 & _ & O1)]. injection E1 as <- <-.
        assert (filter (fun c => negb (sub c)) rest = []) as X.
        { apply filter_none. revert O1; apply Forall_impl; intros; now apply HO. }
        congruence.
    + split; [discriminate|]. intros [_ (c' & r & E1 & F1 & _)]. injection E1 as <- <-.
      apply HF in F1. congruence.
Qed.

(** The errors, exactly. *)
Lemma name_try_from_err ini sub s e :
  name_try_from ini sub s = Err e <->
  (s = [] /\ e = NameEmpty) \/
  (exists c rest, s = c :: rest /\ ini c = false /\ e = NameInitial c) \/
  (exists c rest, s = c :: rest /\ ini c = true /\ filter (fun c => negb (sub c)) rest <> [] /\
                  e = NameSubsequent (filter (fun c => negb (sub c)) rest)).
Proof.
  unfold name_try_from. destruct s as [|c rest].
  - split.
    + intros H; injection H as <-; auto.
    + intros [[_ ->]|[(c & r & E & _)|(c & r & E & _)]]; auto; discriminate.
  - destruct (ini c) eqn:E; simpl.
    + destruct (filter _ rest) eqn:FE.
      * split; [discriminate|]. intros [[H _]|[(c' & r & H & A & _)|(c' & r & H & A & B & _)]]; try discriminate; injection H as <- <-; congruence.
      * split.
        -- intros H; injection H as <-. right; right. exists c, rest. rewrite FE. repeat split; auto. discriminate.
        -- intros [[H _]|[(c' & r & H & A & _)|(c' & r & H & A & B & ->)]]; try discriminate; injection H as <- <-; congruence.
    + split.
      * intros H; injection H as <-. right; left; eauto.
      * intros [[H _]|[(c' & r & H & A & ->)|(c' & r & H & A & _)]]; try discriminate; injection H as <- <-; congruence.
Qed.

Lemma atn_ok U s t : account_type_name_try_from U s = Ok t <-> t = s /\ account_type_name_lang U s.
Proof.
  apply name_try_from_ok.
  - apply is_upper_spec.
  - intros c. unfold atn_subsequent, hyphen. rewrite orb_true_iff, is_alnum_spec, N.eqb_eq. tauto.
Qed.

Lemma an_ok U s t : account_name_try_from U s = Ok t <-> t = s /\ account_name_lang U s.
Proof.
  apply name_try_from_ok.
  - intros c. unfold an_initial. rewrite !orb_true_iff, is_upper_spec, is_digit_spec, andb_true_iff, negb_true_iff.
    rewrite <- is_ascii_spec. destruct (is_ascii c); intuition congruence.
  - intros c. unfold an_subsequent, hyphen. rewrite orb_true_iff, is_alnum_spec, N.eqb_eq. tauto.
Qed.

Lemma key_ok U s t : key_try_from U s = Ok t <-> t = s /\ key_lang U s.
Proof.
  apply name_try_from_ok.
  - apply is_lower_spec.
  - intros c. unfold key_subsequent, hyphen, underscore.
    rewrite !orb_true_iff, is_alnum_spec, !N.eqb_eq. tauto.
Qed.

Lemma tag_link_char_spec U c :
  tag_link_char U c = true <-> alnum U c \/ c = 45%N \/ c = 95%N \/ c = 47%N \/ c = 46%N.
Proof.
  unfold tag_link_char, mem. rewrite !orb_true_iff, is_alnum_spec, !N.eqb_eq. intuition discriminate.
Qed.

Lemma tag_link_ok U s t : tag_link_try_from U s = Ok t <-> t = s /\ tag_link_lang U s.
Proof.
  unfold tag_link_try_from, tag_link_lang.
  rewrite <- (Forall_iff _ _ s (tag_link_char_spec U)).
  destruct (filter _ s) eqn:F.
  - apply filter_none in F. split; [intros H; injection H as <-; auto|now intros [-> _]].
  - split; [discriminate|]. intros [_ H]. apply filter_none in H. congruence.
Qed.

Lemma tag_link_err U s bad :
  tag_link_try_from U s = Err bad <-> bad <> [] /\ bad = filter (fun c => negb (tag_link_char U c)) s.
Proof.
  unfold tag_link_try_from. destruct (filter _ s) eqn:F.
  - split; [discriminate|]. intros [A B]; congruence.
  - split; [intros H; injection H as <-; split; auto; discriminate|]. now intros [_ ->].
Qed.

Lemma check_account_names_ok U ws : check_account_names U ws = None <-> Forall (account_name_lang U) ws.
Proof.
  induction ws as [|w ws IH]; simpl.
  - split; auto.
  - destruct (account_name_try_from U w) eqn:E.
    + apply an_ok in E as [_ L]. rewrite IH. split; intros H; [constructor; auto|now inversion H].
    + split; [discriminate|]. intros H; inversion H as [|? ? L R]; subst.
      assert (account_name_try_from U w = Ok w) by now apply an_ok. congruence.
Qed.

(** ** Currency *)

Lemma blen_ascii s : Forall ascii s -> blen s = List.length s.
Proof.
  induction 1 as [|c s A F IH]; simpl; auto.
  apply is_ascii_spec, utf8_len_ascii in A. lia.
Qed.

Lemma blen_not_ascii s : ~ Forall ascii s -> List.length s < blen s.
Proof.
  induction s as [|c s IH]; intros H; simpl.
  - destruct H; constructor.
  - pose proof (blen_ge_length s) as G. pose proof (utf8_len_pos c) as P.
    destruct (is_ascii c) eqn:A.
    + assert (~ Forall ascii s) as B by (intros F; apply H; constructor; auto; now apply is_ascii_spec).
      apply IH in B. lia.
    + assert (utf8_len c <> 1) by (intros X; apply utf8_len_ascii in X; congruence). lia.
Qed.

Lemma currency_panic s : currency_try_from s = Panic <-> ~ Forall ascii s.
Proof.
  destruct s as [|c rest].
  - simpl. split; [discriminate|]. intros H; destruct H; constructor.
  - split.
    + intros H F. pose proof (blen_ascii _ F) as B. unfold currency_try_from in H. rewrite B in H.
      cbn [List.length] in H.
      destruct (2 <? S (List.length rest)) eqn:E2.
      * replace (1 <? S (List.length rest)) with true in H by (symmetry; apply Nat.ltb_lt; apply Nat.ltb_lt in E2; lia).
        destruct (skipn _ rest) eqn:K; [|discriminate].
        apply (f_equal (@List.length N)) in K. rewrite skipn_length in K. simpl in K. apply Nat.ltb_lt in E2. lia.
      * destruct (1 <? S (List.length rest)) eqn:E1; [|discriminate].
        destruct rest; [|discriminate]. simpl in E1. discriminate.
    + intros F. pose proof (blen_not_ascii _ F) as B. unfold currency_try_from.
      replace (1 <? blen (c :: rest)) with true by (symmetry; apply Nat.ltb_lt; simpl in *; lia).
      destruct (2 <? blen (c :: rest)) eqn:E2.
      * rewrite skipn_all2; auto. simpl List.length in B. lia.
      * apply Nat.ltb_ge in E2. destruct rest; auto. simpl List.length in B. lia.
Qed.

Lemma last_snoc {A} (l : list A) : l = [] \/ exists m z, l = m ++ [z].
Proof. induction l using rev_ind; eauto. Qed.

(** On ASCII strings: first, middle and last are what they should be. *)
Lemma currency_snoc a m z : Forall ascii (a :: m ++ [z]) ->
  currency_try_from (a :: m ++ [z]) =
  Fine (if negb (cur_initial a) then Err (CurrencyInitial a)
        else if negb (cur_final z) then Err (CurrencyFinal z)
        else match filter (fun c => negb (cur_intermediate c)) m with
             | [] => if existsb is_ascii_uppercase (a :: m ++ [z]) then Ok (a :: m ++ [z]) else Err CurrencyMissingLetter
             | bad => Err (CurrencyIntermediate bad)
             end).
Proof.
  intros F. unfold currency_try_from. rewrite (blen_ascii _ F). cbn [List.length]. rewrite app_length. cbn [List.length].
  replace (1 <? S (List.length m + 1)) with true by (symmetry; apply Nat.ltb_lt; lia).
  destruct m as [|x m].
  - reflexivity.
  - replace (2 <? S (List.length (x :: m) + 1)) with true by (symmetry; apply Nat.ltb_lt; simpl; lia).
    replace (S (List.length (x :: m) + 1) - 2) with (List.length (x :: m)) by lia.
    rewrite firstn_app, firstn_all, Nat.sub_diag, firstn_O, app_nil_r.
    rewrite skipn_app, skipn_all, Nat.sub_diag, skipn_O. reflexivity.
Qed.

Lemma existsb_upper s : existsb is_ascii_uppercase s = true <-> Exists upper s.
Proof.
  rewrite existsb_exists, Exists_exists. split; intros (x & I & H); exists x; split; auto; now apply is_upper_spec.
Qed.

Lemma cur_initial_spec c : cur_initial c = true <-> upper c \/ c = 47%N.
Proof. unfold cur_initial. rewrite orb_true_iff, is_upper_spec, N.eqb_eq. tauto. Qed.
Lemma cur_final_spec c : cur_final c = true <-> upper c \/ digit c.
Proof. unfold cur_final. now rewrite orb_true_iff, is_upper_spec, is_digit_spec. Qed.
Lemma cur_intermediate_spec c : cur_intermediate c = true <-> currency_middle c.
Proof.
  unfold cur_intermediate, currency_middle, mem.
  rewrite !orb_true_iff, is_upper_spec, is_digit_spec, !N.eqb_eq. intuition discriminate.
Qed.

Lemma currency_ok s t : currency_try_from s = Fine (Ok t) <-> t = s /\ currency_lang s.
Proof.
  destruct s as [|a rest].
  - split; [discriminate|]. intros [_ (H & _)]. inversion H.
  - assert (Forall ascii (a :: rest) \/ ~ Forall ascii (a :: rest)) as [F|F].
    { destruct (forallb is_ascii (a :: rest)) eqn:E.
      - left. apply Forall_forall. intros x I. rewrite forallb_forall in E. apply is_ascii_spec; auto.
      - right. intros F. assert (forallb is_ascii (a :: rest) = true); [|congruence].
        apply forallb_forall. intros x I. rewrite Forall_forall in F. apply is_ascii_spec; auto. }
    + destruct (last_snoc rest) as [->|(m & z & ->)].
      * unfold currency_try_from. rewrite (blen_ascii _ F). simpl.
        unfold currency_lang.
        destruct (cur_initial a) eqn:I; simpl.
        -- destruct (cur_final a) eqn:L; simpl.
           ++ rewrite orb_false_r. destruct (is_ascii_uppercase a) eqn:Q.
              ** split; [intros H; injection H as <-|now intros [-> _]].
                 apply is_upper_spec in Q. split; auto. split; [constructor; auto|]. left; eauto.
              ** split; [discriminate|]. intros [_ [H _]]. inversion H as [? ? X|? ? X]; subst.
                 --- apply is_upper_spec in X. congruence.
                 --- inversion X.
           ++ split; [discriminate|]. intros [_ [_ [(c & E & Q)|(x & m & z & E & _)]]].
              ** injection E as <-. assert (cur_final a = true) by (apply cur_final_spec; auto). congruence.
              ** injection E as _ E. destruct m; discriminate.
        -- split; [discriminate|]. intros [_ [_ [(c & E & Q)|(x & m & z & E & _)]]].
           ++ injection E as <-. assert (cur_initial a = true) by (apply cur_initial_spec; auto). congruence.
           ++ injection E as _ E. destruct m; discriminate.
      * rewrite (currency_snoc _ _ _ F).
        assert (forall a' m' z' : N * list N * N, True) as _ by auto.
        assert (UN : forall a' m' z', a :: m ++ [z] = a' :: m' ++ [z'] -> a' = a /\ m' = m /\ z' = z).
        { intros a' m' z' E. injection E as E1 E2. apply app_inj_tail in E2 as [E2 E3]. auto. }
        unfold currency_lang.
        destruct (cur_initial a) eqn:I; simpl negb; cbn iota.
        -- destruct (cur_final z) eqn:L; simpl negb; cbn iota.
           ++ destruct (filter _ m) eqn:FE.
              ** apply filter_none in FE.
                 destruct (existsb is_ascii_uppercase (a :: m ++ [z])) eqn:X.
                 --- apply existsb_upper in X. split; [intros H; injection H as <-|now intros [-> _]].
                     split; auto. split; auto. right. exists a, m, z.
                     split; auto. split; [now apply cur_initial_spec|]. split; [|now apply cur_final_spec].
                     revert FE. apply Forall_impl; intros; now apply cur_intermediate_spec.
                 --- split; [discriminate|]. intros [_ [H _]]. apply existsb_upper in H. congruence.
              ** split; [discriminate|]. intros [_ [_ [(c & E & Q)|(x & m' & z' & E & _ & M & _)]]].
                 --- injection E as _ E. destruct m; discriminate.
                 --- apply UN in E as (-> & -> & ->).
                     assert (filter (fun c => negb (cur_intermediate c)) m = []) as K; [|congruence].
                     apply filter_none. revert M. apply Forall_impl; intros; now apply cur_intermediate_spec.
           ++ split; [discriminate|]. intros [_ [_ [(c & E & Q)|(x & m' & z' & E & _ & _ & M)]]].
              ** injection E as _ E. destruct m; discriminate.
              ** apply UN in E as (-> & -> & ->). apply cur_final_spec in M. congruence.
        -- split; [discriminate|]. intros [_ [_ [(c & E & Q)|(x & m' & z' & E & M & _)]]].
           ** injection E as _ E. destruct m; discriminate.
           ** apply UN in E as (-> & -> & ->). apply cur_initial_spec in M. congruence.
    + split.
      * intros H. apply currency_panic in F. congruence.
      * intros [-> L]. exfalso. apply F. clear F.
        assert (M : forall c, upper c \/ digit c \/ c = 47%N \/ currency_middle c -> ascii c).
        { unfold upper, digit, currency_middle, ascii, upper, digit. intros c. lia. }
        destruct L as [_ [(c & -> & U)|(x & m & z & -> & A & B & C)]].
        -- constructor; auto.
        -- constructor; [apply M; tauto|]. apply Forall_app. split.
           ++ revert B. apply Forall_impl. intros; apply M; auto.
           ++ constructor; auto. apply M; tauto.
Qed.

(** ** Splitting at colons *)

Lemma join_colon_split s : join_colon (split_on colon s) = s.
Proof.
  induction s as [|c s IH]; auto.
  simpl. destruct (c =? colon)%N eqn:E.
  - apply N.eqb_eq in E as ->. simpl. pose proof (split_on_nonempty colon s).
    destruct (split_on colon s); [congruence|]. now rewrite IH.
  - destruct (split_on colon s) as [|w ws] eqn:S.
    + now apply split_on_nonempty in S.
    + simpl in *. destruct ws; simpl in *; now rewrite <- IH.
Qed.

Lemma split_join_colon ws : ws <> [] -> (forall w, In w ws -> ~ In colon w) -> split_on colon (join_colon ws) = ws.
Proof.
  induction ws as [|w ws IH]; intros N0 H; [congruence|].
  destruct ws as [|w2 ws].
  - apply split_on_piece. apply H; simpl; auto.
  - change (join_colon (w :: w2 :: ws)) with (w ++ colon :: join_colon (w2 :: ws)).
    rewrite split_on_app, IH.
    + rewrite split_on_piece; auto. apply H; simpl; auto.
    + discriminate.
    + intros x I; apply H; simpl in *; auto.
Qed.

(** No name contains a colon. *)
Lemma colon_not_alnum U : unicode_ok U -> ~ alnum U colon.
Proof.
  intros O [A|A]; destruct (O colon eq_refl) as (B & C & _).
  - rewrite B in A; discriminate.
  - rewrite C in A; discriminate.
Qed.

Lemma account_name_no_colon U w : unicode_ok U -> account_name_lang U w -> ~ In colon w.
Proof.
  intros O (c & r & -> & A & B) [->|I].
  - destruct A as [A|[A|[A _]]]; unfold upper, digit, ascii, colon in *; lia.
  - rewrite Forall_forall in B. apply B in I as [I|I]; [now apply colon_not_alnum in I|discriminate].
Qed.

Lemma account_type_name_no_colon U w : unicode_ok U -> account_type_name_lang U w -> ~ In colon w.
Proof.
  intros O (c & r & -> & A & B) [->|I].
  - unfold upper, colon in *; lia.
  - rewrite Forall_forall in B. apply B in I as [I|I]; [now apply colon_not_alnum in I|discriminate].
Qed.

(** ** Name tables *)

Lemma account_type_eqb_eq a b : account_type_eqb a b = true <-> a = b.
Proof. destruct a, b; simpl; split; congruence. Qed.

Lemma account_type_index_inj a b : account_type_index a = account_type_index b -> a = b.
Proof. destruct a, b; simpl; congruence. Qed.

Lemma set_nth_length {A} i (x : A) l : List.length (set_nth i x l) = List.length l.
Proof. revert i; induction l; intros [|i]; simpl; auto. Qed.

Lemma set_nth_nth {A} i j (x : A) l :
  nth_error (set_nth i x l) j = if (i =? j) then match nth_error l i with Some _ => Some x | None => None end else nth_error l j.
Proof.
  revert i j; induction l as [|y l IH]; intros [|i] [|j]; simpl; auto.
  all: try (destruct (i =? j); auto).
Qed.

(** The abstract view of a table is [named], in [SpecTypes]. *)

Lemma named_inj n names t t' : named n names -> names t = names t' -> t = t'.
Proof.
  intros [_ G] E. assert (A : atn_get n (names t) = Some t) by now apply G.
  assert (B : atn_get n (names t) = Some t') by now apply G. congruence.
Qed.

Lemma named_default : named default_atns default_names.
Proof.
  split; [intros []; reflexivity|].
  intros s t. unfold atn_get, default_atns, type_by_name, lookup.
  repeat match goal with |- context[str_eqb s ?x] =>
    let E := fresh in destruct (str_eqb s x) eqn:E;
    [apply str_eqb_eq in E as -> | apply str_eqb_neq in E] end;
  destruct t; split; intros; try discriminate; try reflexivity; simpl default_names in *; congruence.
Qed.

Lemma atn_update_ok n names t s :
  named n names -> (forall t', t' <> t -> names t' <> s) ->
  exists n', atn_update n t s = Fine (Ok n') /\ named n' (set_name names t s).
Proof.
  intros [A G] H. unfold atn_update. fold (atn_get n s).
  destruct (atn_get n s) as [e|] eqn:L.
  - assert (e = t) as ->.
    { destruct (account_type_eqb e t) eqn:Q; [now apply account_type_eqb_eq|].
      exfalso. apply (H e); [|now apply G]. intros ->. destruct t; discriminate. }
    replace (account_type_eqb t t) with true by (symmetry; now apply account_type_eqb_eq).
    exists n; split; auto. apply G in L. split.
    + intros t'. rewrite A. unfold set_name. destruct (account_type_eqb t' t) eqn:Q; auto.
      apply account_type_eqb_eq in Q as ->. now rewrite L.
    + intros s' t'. rewrite G. unfold set_name. destruct (account_type_eqb t' t) eqn:Q; [|tauto].
      apply account_type_eqb_eq in Q as ->. now rewrite L.
  - pose proof (A t) as At. unfold atn_name in At.
    destruct (nth_error (name_by_type n) (account_type_index t)) as [old|] eqn:O; [|discriminate].
    injection At as ->. eexists; split; [reflexivity|].
    assert (NE : names t <> s) by (intros E; apply G in E; congruence).
    split.
    + intros t'. unfold atn_name. cbn [name_by_type]. rewrite set_nth_nth, O. unfold set_name.
      destruct (account_type_index t =? account_type_index t') eqn:Q.
      * apply Nat.eqb_eq, account_type_index_inj in Q as <-.
        replace (account_type_eqb t t) with true by (symmetry; now apply account_type_eqb_eq). reflexivity.
      * destruct (account_type_eqb t' t) eqn:Q2.
        -- apply account_type_eqb_eq in Q2 as ->. rewrite Nat.eqb_refl in Q. discriminate.
        -- apply A.
    + intros s' t'. unfold atn_get. cbn [type_by_name].
      rewrite (lookup_remove str_eqb str_eqb_equiv), (lookup_insert str_eqb str_eqb_equiv).
      fold (atn_get n s'). unfold set_name.
      destruct (str_eqb s' (names t)) eqn:E1.
      * apply str_eqb_eq in E1 as ->. split; [discriminate|]. intros E.
        destruct (account_type_eqb t' t) eqn:Q; [congruence|].
        assert (t' = t) as -> by (eapply named_inj; [split|]; eauto).
        rewrite (proj2 (account_type_eqb_eq t t) eq_refl) in Q. discriminate.
      * apply str_eqb_neq in E1. destruct (str_eqb s' s) eqn:E2.
        -- apply str_eqb_eq in E2 as ->. destruct (account_type_eqb t' t) eqn:Q.
           ++ apply account_type_eqb_eq in Q as ->. tauto.
           ++ split.
              ** intros E; injection E as ->. rewrite (proj2 (account_type_eqb_eq t' t') eq_refl) in Q. discriminate.
              ** intros E. apply G in E. congruence.
        -- apply str_eqb_neq in E2. rewrite G. destruct (account_type_eqb t' t) eqn:Q; [|tauto].
           apply account_type_eqb_eq in Q as ->. split; congruence.
Qed.

Lemma atn_update_err n names t t' s :
  named n names -> t' <> t -> names t' = s -> atn_update n t s = Fine (Err t').
Proof.
  intros [A G] D E. unfold atn_update. fold (atn_get n s).
  rewrite (proj2 (G s t') E). destruct (account_type_eqb t' t) eqn:Q; auto.
  apply account_type_eqb_eq in Q. congruence.
Qed.

(** ** Why a text is refused *)

Lemma filter_offending (p : N -> bool) (ok : N -> Prop) s bad : (forall c, p c = true <-> ok c) ->
  bad = filter (fun c => negb (p c)) s <-> offending ok s bad.
Proof.
  intro P. revert bad. induction s as [|c s IH]; intro bad; simpl.
  - split; [intros ->; constructor|]. intro X; inversion X; reflexivity.
  - destruct (p c) eqn:C; simpl.
    + apply P in C. rewrite IH. split; [apply offending_ok; exact C|].
      intro X; inversion X; subst; [contradiction|assumption].
    + assert (C' : ~ ok c) by (intro X; apply P in X; congruence). split.
      * intros ->. apply offending_bad; [exact C'|]. apply IH. reflexivity.
      * intro X; inversion X; subst; [f_equal; apply IH; assumption|contradiction].
Qed.

Lemma name_fault_spec ini sub (first others : N -> Prop) s e :
  (forall c, ini c = true <-> first c) -> (forall c, sub c = true <-> others c) ->
  name_try_from ini sub s = Err e <-> name_fault first others s e.
Proof.
  intros F O. rewrite name_try_from_err. split.
  - intros [[-> ->]|[(c & r & -> & A & ->)|(c & r & -> & A & B & ->)]].
    + constructor.
    + constructor. intro X. apply F in X. congruence.
    + constructor; [apply F; exact A| |exact B]. apply (filter_offending sub); [exact O|reflexivity].
  - intros [|c r A|c r bad A B C]; [left; auto|right; left|right; right].
    + exists c, r. split; [reflexivity|]. split; [|reflexivity]. destruct (ini c) eqn:X; [|reflexivity]. apply F in X. contradiction.
    + apply (filter_offending sub) in B; [|exact O]. subst bad. exists c, r. split; [reflexivity|].
      split; [apply F; exact A|]. split; [exact C|reflexivity].
Qed.

Lemma atn_subsequent_spec U c : atn_subsequent U c = true <-> alnum U c \/ c = 45%N.
Proof. unfold atn_subsequent, hyphen. rewrite orb_true_iff, is_alnum_spec, N.eqb_eq. reflexivity. Qed.
Lemma key_subsequent_spec U c : key_subsequent U c = true <-> alnum U c \/ c = 45%N \/ c = 95%N.
Proof. unfold key_subsequent, hyphen, underscore. rewrite !orb_true_iff, is_alnum_spec, !N.eqb_eq. tauto. Qed.
Lemma an_initial_spec U c : an_initial U c = true <-> upper c \/ digit c \/ (~ ascii c /\ u_alphabetic U c = true).
Proof.
  unfold an_initial. rewrite !orb_true_iff, is_upper_spec, is_digit_spec, andb_true_iff, negb_true_iff.
  rewrite <- is_ascii_spec. destruct (is_ascii c); intuition congruence.
Qed.

Lemma check_account_names_err U ws e : check_account_names U ws = Some e <-> first_fault U ws e.
Proof.
  unfold first_fault. induction ws as [|w ws IH]; simpl.
  - split; [discriminate|]. intros ([|? ?] & ? & ? & X & _); discriminate.
  - destruct (account_name_try_from U w) as [x|e0] eqn:A.
    + apply an_ok in A. destruct A as [-> A]. rewrite IH. split.
      * intros (b & w' & a & -> & F & G). exists (w :: b), w', a. repeat split; auto.
      * intros ([|y b] & w' & a & X & F & G); cbn in X; injection X as <- ->.
        -- apply (name_fault_spec (an_initial U) (an_subsequent U)) in G; [|apply an_initial_spec|apply atn_subsequent_spec].
           assert (Y : account_name_try_from U w = Ok w) by (apply an_ok; auto). unfold account_name_try_from in Y. congruence.
        -- inversion F; subst. exists b, w', a. auto.
    + split.
      * intro X. injection X as <-. exists [], w, ws. split; [reflexivity|]. split; [constructor|].
        apply (name_fault_spec (an_initial U) (an_subsequent U)); [apply an_initial_spec|apply atn_subsequent_spec|exact A].
      * intros ([|y b] & w' & a & X & F & G); cbn in X; injection X as <- ->.
        -- apply (name_fault_spec (an_initial U) (an_subsequent U)) in G; [|apply an_initial_spec|apply atn_subsequent_spec].
           unfold account_name_try_from in A. congruence.
        -- inversion F as [|? ? Y ?]; subst. assert (Z : account_name_try_from U w = Ok w) by (apply an_ok; auto). congruence.
Qed.

Lemma currency_one c : ascii c ->
  currency_try_from [c] =
    Fine (if negb (cur_initial c) then Err (CurrencyInitial c)
          else if negb (cur_final c) then Err (CurrencyFinal c)
          else if is_ascii_uppercase c then Ok [c] else Err CurrencyMissingLetter).
Proof.
  intro A. unfold currency_try_from. rewrite blen_ascii by (constructor; auto). cbn.
  destruct (cur_initial c), (cur_final c), (is_ascii_uppercase c); reflexivity.
Qed.

Lemma currency_fault_ascii s e : currency_fault s e -> Forall ascii s.
Proof. intros []; auto. Qed.

Lemma N_lt_ascii c : {ascii c} + {~ ascii c}.
Proof. unfold ascii. destruct (N.ltb c 128) eqn:L; [left; now apply N.ltb_lt|right; apply N.ltb_ge in L; lia]. Qed.

Lemma currency_err s e : currency_try_from s = Fine (Err e) <-> currency_fault s e.
Proof.
  assert (B : forall b, b = true \/ b = false) by (intros []; auto).
  split.
  - intro H. destruct s as [|a s]; [injection H as <-; constructor|].
    assert (F : Forall ascii (a :: s)).
    { destruct (Forall_dec ascii (fun c => N_lt_ascii c) (a :: s)) as [X|X]; [exact X|].
      apply currency_panic in X. congruence. }
    destruct (last_snoc s) as [->|(m & z & ->)].
    + inversion F; subst. rewrite currency_one in H by assumption. injection H as H.
      destruct (cur_initial a) eqn:I; cbn in H.
      * destruct (cur_final a) eqn:L; cbn in H.
        -- apply cur_initial_spec in I. apply cur_final_spec in L.
           destruct (is_ascii_uppercase a) eqn:X; [discriminate|].
           exfalso. assert (~ upper a) by (rewrite <- is_upper_spec; congruence).
           destruct I as [I| ->]; [contradiction|]. destruct L as [L|L]; [contradiction|]. unfold digit in L. lia.
        -- injection H as <-. apply (currency_fault_final a [] a); auto; [apply cur_initial_spec; exact I|].
           rewrite <- cur_final_spec. congruence.
      * injection H as <-. constructor; auto. rewrite <- cur_initial_spec. congruence.
    + rewrite currency_snoc in H by exact F. injection H as H.
      destruct (cur_initial a) eqn:I; cbn in H.
      * apply cur_initial_spec in I. destruct (cur_final z) eqn:L; cbn in H.
        -- apply cur_final_spec in L. destruct (filter (fun c => negb (cur_intermediate c)) m) as [|x l] eqn:X.
           ++ destruct (is_ascii_uppercase a || existsb is_ascii_uppercase (m ++ [z])) eqn:Y; [discriminate|]. injection H as <-.
              constructor; auto.
              ** apply filter_none in X. rewrite Forall_forall in *. intros c Ic. apply cur_intermediate_spec. auto.
              ** rewrite <- existsb_upper. cbn. congruence.
           ++ injection H as <-. constructor; auto; [|discriminate]. apply (filter_offending cur_intermediate); [apply cur_intermediate_spec|congruence].
        -- injection H as <-. apply (currency_fault_final a (a :: m) z); auto.
           rewrite <- cur_final_spec. congruence.
      * injection H as <-. constructor; auto. rewrite <- cur_initial_spec. congruence.
  - intro H. pose proof (currency_fault_ascii _ _ H) as F.
    destruct H as [|a rest _ I|a before z _ Hd I L|a m z bad _ I L O NE|a m z _ I L O NE].
    + reflexivity.
    + assert (X : cur_initial a = false) by (destruct (cur_initial a) eqn:X; [apply cur_initial_spec in X; contradiction|reflexivity]).
      destruct (last_snoc rest) as [->|(m & z & ->)].
      * rewrite currency_one by (inversion F; assumption). rewrite X. reflexivity.
      * rewrite currency_snoc by exact F. rewrite X. reflexivity.
    + assert (X : cur_final z = false) by (destruct (cur_final z) eqn:X; [apply cur_final_spec in X; contradiction|reflexivity]).
      destruct before as [|a' m]; cbn in Hd; injection Hd as ->; apply cur_initial_spec in I.
      * cbn [app] in F |- *. rewrite currency_one by (inversion F; assumption). rewrite X, I. reflexivity.
      * cbn [app]. rewrite currency_snoc by exact F. rewrite X, I. reflexivity.
    + rewrite currency_snoc by exact F. apply cur_initial_spec in I. apply cur_final_spec in L. rewrite I, L. cbn.
      apply (filter_offending cur_intermediate) in O; [|apply cur_intermediate_spec]. rewrite <- O. destruct bad; [congruence|reflexivity].
    + rewrite currency_snoc by exact F. apply cur_initial_spec in I. apply cur_final_spec in L. rewrite I, L. cbn [negb].
      assert (X : filter (fun c => negb (cur_intermediate c)) m = []).
      { apply filter_none. rewrite Forall_forall in *. intros c Ic. apply cur_intermediate_spec. auto. }
      rewrite X. destruct (existsb is_ascii_uppercase (a :: m ++ [z])) eqn:Y; [apply existsb_upper in Y; contradiction|reflexivity].
Qed.
