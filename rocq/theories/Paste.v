(** * What is pasted is read as what was included *)
From Coq Require Import String Ascii.
From Coq Require Import List NArith ZArith Arith Bool Lia Permutation.
From Verif Require Import Base BaseFacts Path Sources Types SpecTypes Options SpecOptions Pragma SpecPragma Read Token Peg Grammar SpecGrammar SpecDirective SpecDisplay SpecLedger
  Parse SpecParse SpecWhole ParseFacts ParseOnce ParseFile P_File P_Display PragmaRun ExprFacts P_Order IncludeTokens AlikeWalk AlikeRead AlikeFile SimCopy SpecPaste.
Import SpecPragma Read.
Import ListNotations.
Local Open Scope nat_scope.

Scheme pasted_mind := Minimality for pasted Sort Prop with pasted_files_mind := Minimality for pasted_files Sort Prop.

(** ** Lists of tokens *)
Definition rest_at (I : input) (i : nat) (l : list token) : Prop := i <= List.length (in_tokens I) /\ map fst (skipn i (in_tokens I)) = l.
Lemma rest_tok I i l : rest_at I i l -> forall k, option_map fst (nth_error (in_tokens I) (i + k)) = nth_error l k.
Proof. intros [_ <-] k. rewrite nth_error_map. f_equal. revert i. induction (in_tokens I) as [|x ts IH]; intros [|i]; try reflexivity; cbn; [destruct k; reflexivity|apply IH]. Qed.
Lemma tok_rest I i l k t : rest_at I i l -> (tok I (i + k) t <-> nth_error l k = Some t).
Proof.
  intro R. rewrite <- (rest_tok _ _ _ R k). unfold tok. destruct (nth_error (in_tokens I) (i + k)) as [[t' r]|]; cbn; split.
  - intros [r' H]. congruence.
  - intro H. injection H as ->. eauto.
  - intros [r' H]. discriminate.
  - discriminate.
Qed.
Lemma skipn_more {A} (l : list A) i n : skipn n (skipn i l) = skipn (i + n) l.
Proof. revert i. induction l as [|x l IH]; intros [|i]; cbn; try reflexivity; [destruct n; reflexivity|apply IH]. Qed.
Lemma rest_advance I i a l : rest_at I i (a ++ l) -> rest_at I (i + List.length a) l.
Proof.
  intros [B Q]. assert (Ln : List.length a <= List.length (in_tokens I) - i).
  { apply (f_equal (@List.length _)) in Q. rewrite map_length, skipn_length, app_length in Q. lia. }
  split; [lia|]. rewrite <- skipn_more, <- skipn_map, Q, skipn_app, skipn_all, Nat.sub_diag. reflexivity.
Qed.
Lemma rest_finished I i : rest_at I i [] <-> i = List.length (in_tokens I).
Proof.
  split.
  - intros [B Q]. apply map_eq_nil in Q. apply (f_equal (@List.length _)) in Q. rewrite skipn_length in Q. cbn in Q. lia.
  - intros ->. split; [lia|]. rewrite skipn_all. reflexivity.
Qed.
Lemma rest_split I i j : i <= j <= List.length (in_tokens I) -> exists a, List.length a = j - i /\ forall l, rest_at I j l -> rest_at I i (a ++ l).
Proof.
  intros B. exists (map fst (firstn (j - i) (skipn i (in_tokens I)))). split.
  - rewrite map_length, firstn_length, skipn_length. lia.
  - intros l [_ <-]. split; [lia|]. rewrite <- map_app. f_equal. rewrite <- (firstn_skipn (j - i) (skipn i (in_tokens I))) at 1. f_equal.
    rewrite skipn_more. f_equal. lia.
Qed.
Lemma rest_self I i : i <= List.length (in_tokens I) -> rest_at I i (map fst (skipn i (in_tokens I))).
Proof. intro B. split; [exact B|reflexivity]. Qed.

(** What is left of [post] when the last line of [us] is ended. *)
Inductive closes : list token -> list token -> list token -> Prop :=
| closes_none post : closes [] post post
| closes_ended us post : closes (us ++ [T_Eol]) post post
| closes_last us t : t <> T_Eol -> closes (us ++ [t]) [] []
| closes_line us t post : t <> T_Eol -> closes (us ++ [t]) (T_Eol :: post) post.
Definition calm (l : list token) : Prop := hd_error l <> Some T_Indent.
Lemma calm_app a b : calm a -> calm b -> calm (a ++ b).
Proof. destruct a; auto. Qed.
Lemma closes_calm us post rest : closes us post rest -> calm us -> calm rest -> calm (us ++ post).
Proof. intros [p|u p|u t N|u t p N] A B; auto; destruct u; try exact A; cbn in *; unfold calm in *; cbn in *; congruence. Qed.
Lemma last_cases {A} (l : list A) : l = [] \/ exists u t, l = u ++ [t].
Proof. destruct (rev l) as [|t u] eqn:R; [left|right]; apply (f_equal (@rev _)) in R; rewrite rev_involutive in R; cbn in R; eauto. Qed.
Lemma closes_tail a us post rest : us <> [] -> closes (a ++ us) post rest -> closes us post rest.
Proof.
  intros Ne H. destruct (last_cases us) as [->|(u & t & ->)]; [contradiction|]. rewrite app_assoc in H. remember ((a ++ u) ++ [t]) as l eqn:Q. destruct H as [p|v p|v x N|v x p N].
  - symmetry in Q. apply app_eq_nil in Q. destruct Q. discriminate.
  - apply app_inj_tail in Q. destruct Q as [_ <-]. constructor.
  - apply app_inj_tail in Q. destruct Q as [_ <-]. constructor. exact N.
  - apply app_inj_tail in Q. destruct Q as [_ <-]. constructor. exact N.
Qed.
Definition lined (us : list token) : Prop := us = [] \/ exists u, us = u ++ [T_Eol].
Lemma closes_lined us post rest : lined us -> closes us post rest -> rest = post.
Proof.
  intros H Cl. destruct Cl as [p|v p|v x N|v x p N]; auto. exfalso. destruct H as [H|(u & H)].
  - apply app_eq_nil in H. destruct H. discriminate.
  - apply app_inj_tail in H. destruct H. contradiction.
Qed.
Lemma lined_closes us post : lined us -> closes us post post.
Proof. intros [->|(u & ->)]; constructor. Qed.
Lemma closes_after a us post rest : lined a -> closes (a ++ us) post rest -> closes us post rest.
Proof.
  intros H Cl. destruct us as [|x us]; [|eapply closes_tail; [discriminate|exact Cl]]. rewrite app_nil_r in Cl. rewrite (closes_lined _ _ _ H Cl). constructor.
Qed.
Lemma lined_app a b : lined a -> lined b -> lined (a ++ b).
Proof. intros A [->|(u & ->)]; [rewrite app_nil_r; exact A|]. right. exists (a ++ u). apply app_assoc. Qed.
Lemma full_lined us vs : full_lines us vs -> lined vs.
Proof. intros []; [left; reflexivity|right; eauto|right]. exists (ts ++ [t]). rewrite <- app_assoc. reflexivity. Qed.
Lemma full_closes us vs post : full_lines us vs -> exists more, vs ++ post = us ++ more /\ closes us more post.
Proof.
  intros [|ts|ts t N].
  - exists post. split; [reflexivity|constructor].
  - exists post. split; [reflexivity|constructor].
  - exists (T_Eol :: post). split; [rewrite <- !app_assoc; reflexivity|constructor; exact N].
Qed.
Lemma full_calm us vs : full_lines us vs -> calm us -> calm vs.
Proof. intros [|ts|ts t N] H; auto. destruct ts; exact H. Qed.

(** Before an include all is copied. *)
Lemma pasted_copy glob_with t f a : forall ts us t', ~ In (T_Keyword K_Include) a -> pasted glob_with t f (a ++ ts) us t' -> exists us', us = a ++ us' /\ pasted glob_with t f ts us' t'.
Proof.
  induction a as [|x a IH]; intros ts us t' N H; [exists us; auto|]. cbn in H. remember (x :: a ++ ts) as l eqn:Q. destruct H as [t f|t f y l us t' Nx H|t f text eol l items fs t1 us1 t2 us2 t3].
  - discriminate.
  - injection Q as -> ->. destruct (IH ts us t') as (us' & -> & Hp); [intro; apply N; right; assumption|exact H|]. exists us'. auto.
  - injection Q as Qx _. exfalso. apply N. left. symmetry. exact Qx.
Qed.

(** ** Several declarations, one after the other *)
Section Runs.
  Context (E : grammar_env) (J : input) (f : option path).
  Inductive runs : rules -> nat -> list (spanned declaration) -> list report -> nat -> rules -> Prop :=
  | runs_none r i : runs r i [] [] i r
  | runs_next r i j d r1 ds ws k r' : declares E J f r i j d [] r1 -> runs r1 j ds ws k r' ->
      runs r i (d :: ds) (long_strings (rl_limit r) J i j ++ ws) k r'.
  Lemma runs_app r i ds ws j r1 ds' ws' k r' : runs r i ds ws j r1 -> runs r1 j ds' ws' k r' -> runs r i (ds ++ ds') (ws ++ ws') k r'.
  Proof. intros A B. induction A; [exact B|]. cbn. rewrite <- app_assoc. econstructor; eauto. Qed.
  Lemma runs_tiles r i ds ws k r' : runs r i ds ws k r' -> finished J k -> tiles E J f r i ds [] ws r'.
  Proof. intros A F. induction A; [constructor; exact F|]. change (@nil report) with (@nil report ++ []). econstructor; eauto. Qed.
End Runs.

(** The declarations which are no includes. *)
Definition plain (es : list event) : list (spanned declaration) :=
  flat_map (fun e => match e with Declared _ d => if is_include (item d) then [] else [d] | Offered _ _ _ => [] end) es.
Lemma plain_app a b : plain (a ++ b) = plain a ++ plain b.
Proof. apply flat_map_app. Qed.
Lemma plain_offers sp t ps es fs t' : offers sp t ps es fs t' -> plain es = [].
Proof. intro H. induction H; auto. Qed.

(** ** Single declarations *)
Lemma line_strings limit I i j : (forall k s, i <= k < j -> ~ tok I k (T_String s)) -> long_strings limit I i j = [].
Proof.
  intro H. unfold long_strings. assert (X : forall k, In k (List.seq i (j - i)) -> i <= k < j) by (intros k Hk; apply in_seq in Hk; lia).
  revert X. generalize (List.seq i (j - i)) as ks. induction ks as [|k ks IH]; intro X; [reflexivity|]. cbn [flat_map].
  rewrite IH; [|intros; apply X; right; assumption]. destruct (nth_error (in_tokens I) k) as [[t [a b]]|] eqn:Q; [|reflexivity].
  destruct t; try reflexivity. exfalso. eapply H; [apply X; left; reflexivity|]. exists (a, b). exact Q.
Qed.
Lemma long_strings_app limit I i j k : i <= j <= k -> long_strings limit I i k = long_strings limit I i j ++ long_strings limit I j k.
Proof. intro B. unfold long_strings. rewrite <- flat_map_app. f_equal. replace (k - i) with ((j - i) + (k - j)) by lia. rewrite seq_app. do 2 f_equal. lia. Qed.
Lemma copied_strings l l' I J i j i' : option_map fst l = option_map fst l' -> i <= j <= List.length (in_tokens I) ->
  (forall k t, k < j - i -> tok I (i + k) t -> tok J (i' + k) t) ->
  map rp_problem (long_strings l I i j) = map rp_problem (long_strings l' J i' (i' + (j - i))).
Proof.
  intros Q B. replace (i' + (j - i) - i') with (j - i) by lia. unfold long_strings. replace (i' + (j - i) - i') with (j - i) by lia.
  assert (B' : i + (j - i) <= List.length (in_tokens I)) by lia. revert B'. generalize (j - i) as n. clear B. intro n. revert i i'.
  induction n as [|n IH]; intros i i' B T; [reflexivity|]. cbn [List.seq flat_map]. rewrite !map_app. f_equal.
  - destruct (nth_error (in_tokens I) i) as [[t [a b]]|] eqn:X; [|apply nth_error_None in X; lia].
    destruct (T 0 t ltac:(lia)) as [[a' b'] Y]; [exists (a, b); rewrite Nat.add_0_r; exact X|]. rewrite Nat.add_0_r in Y. rewrite Y.
    destruct t; try reflexivity. unfold allowed, too_long. destruct l as [[m p]|], l' as [[m' p']|]; cbn in Q; try discriminate; try (injection Q as <-);
    cbn [allowed]; destruct (_ <=? _)%N; reflexivity.
  - apply IH; [lia|]. intros k t Hk Tk. replace (S i' + k) with (i' + S k) by lia. apply T; [lia|]. replace (i + S k) with (S i + k) by lia. exact Tk.
Qed.
Lemma kin_limit E r r' : kin E r r' -> option_map fst (rl_limit r) = option_map fst (rl_limit r').
Proof.
  intros (po & po' & [_ _ L] & [_ _ L'] & [_ M]). rewrite <- L, <- L'. unfold line_limit.
  destruct (po_maxlines po), (po_maxlines po'); cbn in *; try discriminate; [injection M as ->|]; reflexivity.
Qed.

Lemma documents_set E I f r i j d es r1 : declares E I f r i j d es r1 -> for_documents (item d) -> sets_documents I.
Proof.
  intros D (o & p & Q & V). destruct D as [x e W|k q H L|k o' e r2 [a b name value o2 e' r3 T [W _] [W' _] Ef] L]; cbn in Q; try discriminate.
  - injection Q as ->. inversion H.
  - injection Q as ->. exists i. split; [exact T|]. inversion W as [x T' Y]; subst. inversion Ef as [| | |v R Hv Ev| |]; subst; cbn in V; try discriminate.
    subst v. replace (lit "documents") with (item name) by (inversion R; reflexivity). exact T'.
Qed.
Lemma tiles_settled E (En : environment_ok E) I f r i ds es ws r' : computable E I -> fine_options I -> (exists po, obeys E po r) ->
  (forall b, i <= b -> ~ sets_rule_at I b) -> tiles E I f r i ds es ws r' -> r' = r.
Proof.
  intros Ci Fi Ob N T. induction T as [r i F|r i j d es r1 ds es' ws r' D T IH]; [reflexivity|].
  pose proof (declares_positions E I f En Ci Fi _ _ _ _ _ _ D Ob) as B.
  assert (r1 = r) as ->.
  { destruct D as [x e W|k q H L|k o' e r2 [a b name value o2 e' r3 Tk [W _] [W' _] Ef] L]; try reflexivity.
    inversion W as [x T1 Y]; subst. inversion W' as [x' T2 Y']; subst.
    destruct Ef as [t s R _|t t' s R _ _|m R|v R _|_|_ _]; try reflexivity; exfalso; apply (N i); auto; exists (item name), (item value).
    - split; [exact Tk|]. split; [exact T1|]. split; [exact T2|]. inversion R; subst. destruct t; cbn; tauto.
    - split; [exact Tk|]. split; [exact T1|]. split; [exact T2|]. inversion R; subst. cbn; tauto. }
  apply IH; [exact Ob|]. intros b Hb. apply N. lia.
Qed.

Lemma token_eol_dec (t : token) : t = T_Eol \/ t <> T_Eol.
Proof. destruct t; first [left; reflexivity|right; discriminate]. Qed.

(** ** The files and their texts *)
Record file_read := mk_file { sf_name : option path; sf_input : input; sf_decls : list (spanned declaration); sf_warnings : list report }.
Definition decls_of (x : file_read) : option path * list (spanned declaration) := (sf_name x, sf_decls x).
Definition toks_of (x : file_read) : option path * list token := (sf_name x, map fst (in_tokens (sf_input x))).
Definition apart (fl : list file_read) : Prop := names_distinct (map decls_of fl).
Lemma apart_perm fl fl' : Permutation fl fl' -> apart fl -> apart fl'.
Proof. intros P. apply names_distinct_perm. apply Permutation_map. exact P. Qed.
Lemma apart_app_r a b : apart (a ++ b) -> apart b.
Proof. unfold apart. rewrite map_app. apply names_distinct_app_r. Qed.

Lemma same_split a x b a' x' b' : apart (a ++ x :: b) -> a ++ x :: b = a' ++ x' :: b' -> same_file (sf_name x) (sf_name x') -> a = a' /\ x = x' /\ b = b'.
Proof.
  revert a'. induction a as [|y a IH]; intros a' D Q S; destruct a' as [|y' a']; cbn in Q.
  - injection Q as -> ->. auto.
  - exfalso. injection Q as -> ->. unfold apart in D. cbn in D. inversion D as [|? ? F _]; subst. rewrite Forall_forall in F.
    apply (F (decls_of x')); [apply in_map; apply in_app_iff; right; left; reflexivity|exact S].
  - exfalso. injection Q as -> <-. unfold apart in D. cbn in D. inversion D as [|? ? F _]; subst. rewrite Forall_forall in F.
    apply (F (decls_of x)); [apply in_map; apply in_app_iff; right; left; reflexivity|]. cbn. destruct (sf_name x), (sf_name x'); cbn in *; auto. symmetry. exact S.
  - injection Q as -> Q. destruct (IH a') as (-> & -> & ->); auto. unfold apart in *. cbn in D. inversion D; assumption.
Qed.
Lemma map_split {A B} (f : A -> B) l a x b : map f l = a ++ x :: b -> exists la y lb, l = la ++ y :: lb /\ map f la = a /\ f y = x /\ map f lb = b.
Proof.
  intro H. apply map_eq_app in H. destruct H as (la & l2 & -> & <- & H). destruct l2 as [|y lb]; [discriminate|]. injection H as <- <-. exists la, y, lb. auto.
Qed.

Lemma offers_found sp ps ps' : Forall2 same_path ps ps' -> forall fl off fs t1 ft tt1, apart fl -> offers sp (map decls_of fl) ps off fs t1 -> found (map toks_of fl) ps' ft tt1 ->
  exists fx fl1, fs = map decls_of fx /\ ft = map toks_of fx /\ t1 = map decls_of fl1 /\ tt1 = map toks_of fl1 /\ Permutation fl (fx ++ fl1).
Proof.
  intro Sm. induction Sm as [|p p' ps ps' Sp Sm IH]; intros fl off fs t1 ft tt1 D O F.
  - inversion O; subst. inversion F; subst. exists [], fl. auto.
  - remember (map toks_of fl) as tt eqn:Qt. remember (map decls_of fl) as t eqn:Qd. remember (p :: ps) as pps eqn:Qp.
    destruct O as [t|t p0 ps0 k ds t0 es fs t2 (a & b & -> & -> & S) O|t p0 ps0 es fs t2 A O]; [discriminate| |]; injection Qp as -> ->;
    (remember (p' :: ps') as pps eqn:Qp; destruct F as [tt|a' p1 k' ts b' ps1 ft tt2 S' F|tt p1 ps1 ft tt2 A' F]; [discriminate| |]; injection Qp as -> ->).
    + symmetry in Qt, Qd. apply map_split in Qd. destruct Qd as (la & x & lb & -> & <- & Qx & <-). apply map_split in Qt. destruct Qt as (la' & x' & lb' & Qf & <- & Qx' & <-).
      assert (Z : same_file (sf_name x) (sf_name x')).
      { injection Qx as -> _. injection Qx' as -> _. cbn. unfold same_path in *. congruence. }
      destruct (same_split _ _ _ _ _ _ D Qf Z) as (<- & <- & <-). rewrite <- map_app in O, F.
      destruct (IH (la ++ lb) es fs t2 ft tt2) as (fx & fl1 & -> & -> & -> & -> & P); [apply (apart_app_r [x] (la ++ lb)); eapply apart_perm; [symmetry; apply (Permutation_middle la lb x)|exact D]|exact O|exact F|].
      exists (x :: fx), fl1. rewrite <- Qx, <- Qx'. repeat split. cbn. rewrite <- P. symmetry. apply Permutation_middle.
    + exfalso. symmetry in Qd. apply map_split in Qd. destruct Qd as (la & x & lb & -> & <- & Qx & <-). injection Qx as Qx _.
      apply (A' k (snd (toks_of x))); [|unfold same_path in *; congruence]. subst tt. rewrite <- Qx. apply (in_map toks_of (la ++ x :: lb) x). apply in_app_iff. right. left. reflexivity.
    + exfalso. symmetry in Qt. apply map_split in Qt. destruct Qt as (la & x & lb & -> & <- & Qx & <-). injection Qx as Qx _.
      apply (A k' (snd (decls_of x))); [|unfold same_path in *; congruence]. subst t. rewrite <- Qx. apply (in_map decls_of (la ++ x :: lb) x). apply in_app_iff. right. left. reflexivity.
    + subst t tt. eapply IH; eassumption.
Qed.

Section Core.
  Context (E : grammar_env) (En : environment_ok E) (root : option path) (globs : list (path * included_glob)) (rE : rules) (ObE : exists po, obeys E po rE).
  Context (glob_with : path -> result (list glob_item) str).
  Context (Globs : forall f text g items, glob_of globs f text = Some g -> glob_with (resolve_included_path f text) = Ok items -> Forall2 same_path (expansion g) (map item_path items)).
  Context (J : input) (Cj : computable E J) (Fj : fine_options J) (Inc : str -> Prop).

  Definition includes_in (I : input) : Prop := forall k s, tok I k (T_Keyword K_Include) -> tok I (S k) (T_String s) -> Inc s.
  Record well (x : file_read) : Prop := {
    wl_tiles : tiles E (sf_input x) (sf_name x) rE 0 (sf_decls x) [] (sf_warnings x) rE;
    wl_computable : computable E (sf_input x);
    wl_options : fine_options (sf_input x);
    wl_rules : ~ sets_rules (sf_input x);
    wl_documents : ~ sets_documents (sf_input x);
    wl_includes : includes_in (sf_input x)
  }.
  Definition long_include (p : problem) : Prop := exists b n s, Inc s /\ p = StringTooLong b n (lines_of s).
  Definition problems (l : list report) : list problem := map rp_problem l.

  (** What the tokens from [i'] on are read as. *)
  Definition reads_on (before after : list report) (es : list event) (r' : rules) (i' : nat) (rest : list token) : Prop :=
    exists ds' ws' k' r'' more, runs E J root r' i' ds' ws' k' r'' /\ rest_at J k' rest /\ kin E rE r'' /\ Forall2 (alike_declaration any) (plain es) ds' /\
      Forall long_include more /\ Permutation (problems before) (problems (ws' ++ after) ++ more).

  Lemma core :
    (forall t f ds es t1, walk globs t f ds es t1 -> forall I r i ws fl us tt1,
      t = map decls_of fl -> Forall well fl -> apart fl ->
      tiles E I f r i ds [] ws rE -> (exists po, obeys E po r) -> computable E I -> fine_options I ->
      (forall a b, i <= a -> tok I a (T_Keyword K_Include) -> a < b -> ~ sets_rule_at I b) -> (f = root \/ ~ sets_documents I) -> includes_in I ->
      pasted glob_with (map toks_of fl) f (map fst (skipn i (in_tokens I))) us tt1 ->
      exists fl1, t1 = map decls_of fl1 /\ tt1 = map toks_of fl1 /\ Forall well fl1 /\ apart fl1 /\ calm us /\
        forall r' i' post rest, kin E r r' -> rest_at J i' (us ++ post) -> closes us post rest -> calm rest ->
          reads_on (ws ++ flat_map sf_warnings fl) (flat_map sf_warnings fl1) es r' i' rest) /\
    (forall t fs es t1, walks globs t fs es t1 -> forall fl fx us tt1,
      t = map decls_of fl -> Forall well fl -> apart fl -> fs = map decls_of fx -> Forall well fx ->
      pasted_files glob_with (map toks_of fl) (map toks_of fx) us tt1 ->
      exists fl1, t1 = map decls_of fl1 /\ tt1 = map toks_of fl1 /\ Forall well fl1 /\ apart fl1 /\ calm us /\ lined us /\
        forall r' i' post, kin E rE r' -> rest_at J i' (us ++ post) -> calm post ->
          reads_on (flat_map sf_warnings fx ++ flat_map sf_warnings fl) (flat_map sf_warnings fl1) es r' i' post).
  Proof.
    apply walk_walks_ind.
    - (* nothing left *)
      intros t f I r i ws fl us tt1 -> Wl Ap T Ob Ci Fi Ru Do In_ Pa. inversion T as [? ? F|]; subst.
      unfold finished in F. apply nth_error_None in F. rewrite skipn_all2 in Pa by exact F. cbn in Pa. inversion Pa; subst.
      exists fl. repeat (split; [first [reflexivity|assumption|discriminate]|]). intros r' i' post rest Ki R Cl Ca. inversion Cl; subst; try (destruct us; discriminate).
      exists [], [], i', r', []. repeat (split; [first [assumption|constructor]|]). rewrite app_nil_r. reflexivity.
    - (* a declaration which is no include *)
      intros t f d ds es t1 Ni W IH I r i ws fl us tt1 -> Wl Ap T Ob Ci Fi Ru Do In_ Pa.
      inversion T as [|? ? j ? e r1 ? es' ws0 ? D T']; subst. match goal with H : _ ++ _ = [] |- _ => apply app_eq_nil in H; destruct H as [-> ->] end.
      pose proof (declares_positions E I f En Ci Fi _ _ _ _ _ _ D Ob) as B. pose proof (declares_obeys E I f En Ci Fi _ _ _ _ _ _ Ob D) as Ob1.
      destruct (rest_split I i j ltac:(lia)) as (a & La & Sp). pose proof (Sp _ (rest_self I j ltac:(lia))) as Ra. pose proof Ra as [_ Qa]. rewrite Qa in Pa.
      assert (Ta : forall k t, k < j - i -> (tok I (i + k) t <-> nth_error a k = Some t)).
      { intros k t Hk. rewrite (tok_rest _ _ _ k t Ra). rewrite nth_error_app1 by lia. tauto. }
      assert (Fr : ~ In (T_Keyword K_Include) a).
      { intro Hin. apply In_nth_error in Hin. destruct Hin as [k Hk]. assert (k < j - i) by (rewrite <- La; apply nth_error_Some; congruence).
        apply Ta in Hk; [|assumption]. assert (Z : free I i j); [|exact (Z (i + k) ltac:(lia) Hk)].
        destruct D as [x e [Wx _]|m q H0 L|m o e r2 [x b name value o' e' r3 Tk Wn Wv Ef] L].
        - eapply free_directive. exact Wx.
        - eapply free_app; [eapply free_pragma; [exact H0|]|eapply free_line_end; exact L]. intros s ->. discriminate Ni.
        - apply (free_written _ _ (free_string I)) in Wn. apply (free_written _ _ (free_string I)) in Wv. apply free_line_end in L.
          eapply free_app; [eapply free_tok; [exact Tk|discriminate]|]. eapply free_app; [exact Wn|]. eapply free_app; [exact Wv|exact L]. }
      destruct (pasted_copy _ _ _ _ _ _ _ Fr Pa) as (us' & -> & Pa').
      destruct (IH I r1 j ws0 fl us' tt1) as (fl1 & -> & -> & Wl1 & Ap1 & Cu & Rd); auto.
      { intros x y Hx. apply Ru. lia. }
      exists fl1. repeat (split; [first [reflexivity|assumption]|]).
      assert (Ca : calm (a ++ us')).
      { destruct (declares_first E I f _ _ _ _ _ _ D) as (t0 & T0 & X0). assert (Z : nth_error a 0 = Some t0) by (apply Ta; [lia|rewrite Nat.add_0_r; exact T0]).
        destruct a; [discriminate|]. injection Z as ->. unfold calm. cbn. intro Q. injection Q as ->. destruct X0 as [X|[k X]]; discriminate. }
      split; [exact Ca|]. intros r' i' post rest Ki R Cl Cr.
      rewrite <- app_assoc in R.
      assert (Tk : forall k t, k < j - i -> tok I (i + k) t -> tok J (i' + k) t).
      { intros k t Hk Hi. apply (tok_rest _ _ _ k t R). rewrite nth_error_app1 by lia. apply Ta; assumption. }
      pose proof (rest_advance _ _ _ _ R) as R'. rewrite La in R'.
      assert (Nj : ~ tok I j T_Indent).
      { apply (not_indented E I f r1). inversion T' as [|? ? j2 d2 e2 ? ? ? ? ? D2 T2]; subst; [right; assumption|left; eauto]. }
      assert (Cp : exists j' post', copied I J i j i' j' /\ rest_at J j' (us' ++ post') /\ closes us' post' rest /\
        map rp_problem (long_strings (rl_limit r) I i j) = map rp_problem (long_strings (rl_limit r') J i' j')).
      { pose proof (copied_strings (rl_limit r) (rl_limit r') I J i j i' (kin_limit _ _ _ Ki) ltac:(lia) Tk) as Sg.
        destruct (last_cases a) as [->|(a0 & t0 & Qa0)]; [cbn in La; lia|]. assert (Ht0 : tok I (i + (j - i - 1)) t0).
        { apply Ta; [lia|]. rewrite Qa0, app_length in *. cbn in La. rewrite nth_error_app2 by lia. replace (j - i - 1 - List.length a0) with 0 by lia. reflexivity. }
        assert (Je : forall k, j = S k -> k = i + (j - i - 1)) by (intros; lia).
        destruct (token_eol_dec t0) as [->|Ne].
        - exists (i' + (j - i)), post. split; [apply copied_line; [exact Tk|exists (i + (j - i - 1)); split; [lia|exact Ht0]]|]. split; [exact R'|].
          split; [|exact Sg]. eapply closes_after; [|exact Cl]. right. eauto.
        - assert (No : forall k, j = S k -> ~ tok I k T_Eol) by (intros k Hk Te; apply Ne; rewrite (Je k Hk) in Te; eapply ExprFacts.tok_fun; eassumption).
          destruct (ended_declares E I f _ _ _ _ _ _ D) as [(k & Hk & Te)|Fin]; [destruct (No k Hk Te)|].
          assert (us' = []) as ->.
          { unfold finished in Fin. apply nth_error_None in Fin. rewrite skipn_all2 in Pa' by exact Fin. cbn in Pa'. inversion Pa'. reflexivity. }
          rewrite app_nil_r in Cl. subst a. cbn [app] in R'. remember (a0 ++ [t0]) as a eqn:Qa0. destruct Cl as [p|u p|u x Nx|u x p Nx].
          + destruct a0; discriminate.
          + apply app_inj_tail in Qa0. destruct Qa0 as [_ <-]. contradiction.
          + exists (i' + (j - i)), []. split; [apply copied_end; auto|]. { apply rest_finished in R'. unfold finished. rewrite R'. apply nth_error_None. lia. }
            split; [exact R'|]. split; [constructor|exact Sg].
          + assert (Te : tok J (i' + (j - i)) T_Eol) by (rewrite <- (Nat.add_0_r (i' + (j - i))); apply (tok_rest _ _ _ 0 T_Eol R'); reflexivity).
            exists (S (i' + (j - i))), p. split; [apply copied_ended; auto|]. split.
            * replace (S (i' + (j - i))) with (i' + (j - i) + List.length [T_Eol]) by (cbn; lia). apply rest_advance. exact R'.
            * split; [constructor|]. rewrite (long_strings_app _ J i' (i' + (j - i)) (S (i' + (j - i)))) by lia. rewrite map_app, Sg.
              rewrite (line_strings _ J (i' + (j - i)) (S (i' + (j - i)))), app_nil_r; [reflexivity|]. intros k s Hk Ts. replace k with (i' + (j - i)) in Ts by lia.
              pose proof (ExprFacts.tok_fun _ _ _ _ Te Ts). discriminate. }
      destruct Cp as (j' & post' & Cp & Rj & Clj & Sg).
      assert (Nj' : ~ tok J j' T_Indent).
      { intro Ti. rewrite <- (Nat.add_0_r j') in Ti. apply (tok_rest _ _ _ 0 _ Rj) in Ti. pose proof (closes_calm _ _ _ Clj Cu Cr) as X. unfold calm in X. destruct (us' ++ post'); [discriminate|]. injection Ti as ->. apply X. reflexivity. }
      assert (Dr : declares E I root r i j d [] r1).
      { eapply declares_file; [exact D|]. destruct Do as [<-|Do]; [left; reflexivity|right]. intro X. apply Do. eapply documents_set; eassumption. }
      destruct (declares_copied E En I J root r r' i j i' j' d r1 Ci Fi Cj Fj Ki Dr Cp Nj Nj') as (d' & r1' & D' & Al & Ki1).
      destruct (Rd r1' j' post' rest Ki1 Rj Clj Cr) as (ds' & ws' & k' & r'' & more & Ru' & Rk & Ki2 & Als & Lo & Pe).
      exists (d' :: ds'), (long_strings (rl_limit r') J i' j' ++ ws'), k', r'', more. split; [econstructor; eassumption|]. split; [exact Rk|]. split; [exact Ki2|].
      split; [cbn [plain flat_map]; rewrite Ni; cbn; constructor; assumption|]. split; [exact Lo|].
      unfold problems in *. rewrite <- !app_assoc, !(map_app _ (long_strings _ _ _ _)), Sg, <- app_assoc. apply Permutation_app_head. exact Pe.
    - (* an include *)
      intros t f d text ds g offered fs t1 es1 t2 es2 t3 It G O Ws IHs W IH I r i ws fl us tt1 -> Wl Ap T Ob Ci Fi Ru Do In_ Pa.
      inversion T as [|? ? j ? e r1 ? es' ws0 ? D T']; subst. match goal with H : _ ++ _ = [] |- _ => apply app_eq_nil in H; destruct H as [-> ->] end.
      pose proof (declares_positions E I f En Ci Fi _ _ _ _ _ _ D Ob) as B.
      assert (X : r1 = r /\ tok I i (T_Keyword K_Include) /\ tok I (S i) (T_String (item text)) /\ line_end I (S (S i)) j).
      { destruct D as [x e [Wx _]|m q H0 L|m o e r2 O' L]; cbn in It; try discriminate. injection It as ->. inversion H0 as [| | | |j0 s0 T0 [W0 _]|]; subst.
        inversion W0 as [x T1 Y]; subst. auto. }
      destruct X as (-> & T0 & T1 & L).
      assert (r = rE) as ->.
      { symmetry. eapply (tiles_settled E En I f r j); [exact Ci|exact Fi|exact Ob| |exact T']. intros b Hb. apply (Ru i b); auto. lia. }
      pose proof (rest_self I i ltac:(lia)) as Ri. remember (map fst (skipn i (in_tokens I))) as l eqn:Ql. remember (map toks_of fl) as tt eqn:Qt.
      destruct Pa as [tt f|tt f x l us tt1 Nx Pa|tt f text' eol l items ft tt1 us1 tt2 us2 tt3 He G' Fo Pf Pa].
      { rewrite <- (Nat.add_0_r i) in T0. apply (tok_rest _ _ _ 0 _ Ri) in T0. discriminate. }
      { rewrite <- (Nat.add_0_r i) in T0. apply (tok_rest _ _ _ 0 _ Ri) in T0. injection T0 as ->. contradiction. }
      assert (text' = item text) as ->.
      { replace (S i) with (i + 1) in T1 by lia. apply (tok_rest _ _ _ 1 _ Ri) in T1. injection T1 as ->. reflexivity. }
      subst tt.
      assert (Rl : l = map fst (skipn j (in_tokens I))).
      { remember (S (S i)) as m eqn:Qm. destruct L as [m Te|m Fin].
        - replace m with (i + 2) in Te by lia. apply (tok_rest _ _ _ 2 _ Ri) in Te. destruct He as [->|[-> ->]]; [|discriminate].
          pose proof (rest_advance I i [T_Keyword K_Include; T_String (item text); T_Eol] l Ri) as [_ <-]. cbn [List.length]. replace (i + 3) with (S m) by lia. reflexivity.
        - assert (Hl : List.length (in_tokens I) <= m) by (unfold finished in Fin; apply nth_error_None in Fin; exact Fin). rewrite skipn_all2 by exact Hl. cbn.
          destruct He as [->|[-> ->]]; [|reflexivity]. exfalso. assert (Te : tok I (i + 2) T_Eol) by (apply (tok_rest _ _ _ 2 _ Ri); reflexivity).
          destruct Te as [q Te]. unfold finished in Fin. replace (i + 2) with m in Te by lia. congruence. }
      destruct (offers_found _ _ _ (Globs _ _ _ _ G G') fl _ _ _ _ _ Ap O Fo) as (fx & fl1 & -> & -> & -> & -> & Pm).
      assert (Wx : Forall well (fx ++ fl1)) by (rewrite <- Pm; exact Wl). apply Forall_app in Wx. destruct Wx as [Wx Wl1].
      assert (Ap1 : apart fl1) by (apply (apart_app_r fx); eapply apart_perm; eassumption).
      rewrite <- map_rev in Pf.
      destruct (IHs fl1 (rev fx) us1 tt2 eq_refl Wl1 Ap1 (eq_sym (map_rev _ _)) (Forall_rev Wx) Pf) as (fl2 & -> & -> & Wl2 & Ap2 & Ca1 & Li & Rd1).
      rewrite Rl in Pa.
      destruct (IH I rE j ws0 fl2 us2 tt3 eq_refl Wl2 Ap2 T' Ob Ci Fi ltac:(intros x y Hx; apply Ru; lia) Do In_ Pa) as (fl3 & -> & -> & Wl3 & Ap3 & Ca2 & Rd2).
      exists fl3. repeat (split; [first [reflexivity|assumption]|]). split; [apply calm_app; assumption|].
      intros r' i' post rest Ki R Cl Cr. pose proof (closes_after _ _ _ _ Li Cl) as Cl2. rewrite <- app_assoc in R.
      destruct (Rd1 r' i' (us2 ++ post) Ki R (closes_calm _ _ _ Cl2 Ca2 Cr)) as (ds1 & ws1 & k1 & r1 & m1 & Ru1 & R1 & Ki1 & Al1 & Lo1 & P1).
      destruct (Rd2 r1 k1 post rest Ki1 R1 Cl2 Cr) as (ds2 & ws2 & k2 & r2 & m2 & Ru2 & R2 & Ki2 & Al2 & Lo2 & P2).
      exists (ds1 ++ ds2), (ws1 ++ ws2), k2, r2, (problems (long_strings (rl_limit rE) I i j) ++ m1 ++ m2).
      split; [eapply runs_app; eassumption|]. split; [exact R2|]. split; [exact Ki2|]. split; [|split].
      + change (Declared f d :: offered ++ es1 ++ es2) with ([Declared f d] ++ offered ++ es1 ++ es2). rewrite !plain_app, (plain_offers _ _ _ _ _ _ O).
        cbn [plain flat_map]. rewrite It. cbn. apply Forall2_app; assumption.
      + apply Forall_app. split; [|apply Forall_app; split; assumption]. apply Forall_forall. intros p Hp. unfold problems in Hp. apply in_map_iff in Hp. destruct Hp as (w & <- & Hw).
        unfold long_strings in Hw. apply in_flat_map in Hw. destruct Hw as (k & Hk & Hw). apply in_seq in Hk.
        destruct (nth_error (in_tokens I) k) as [[t [x y]]|] eqn:Qk; [|destruct Hw]. destruct t; try (destruct Hw; fail). destruct (_ <=? _)%N; [destruct Hw|]. destruct Hw as [<-|[]].
        assert (k = S i) as ->.
        { assert (Hk' : k = i \/ k = S i \/ k = S (S i) /\ tok I (S (S i)) T_Eol) by (inversion L; subst; [assert (k = i \/ k = S i \/ k = S (S i)) by lia; tauto|lia]).
          destruct Hk' as [->|[->|[-> [q Te]]]]; [destruct T0 as [q T0]; congruence|reflexivity|congruence]. }
        destruct T1 as [q T1']. rewrite Qk in T1'. injection T1' as -> _. eexists _, _, (item text). split; [|reflexivity]. eapply In_; [exact T0|]. eexists. exact Qk.
      + unfold problems in *. rewrite !map_app in *. 
        assert (PW : Permutation (map rp_problem (flat_map sf_warnings fl)) (map rp_problem (flat_map sf_warnings (rev fx)) ++ map rp_problem (flat_map sf_warnings fl1))).
        { rewrite <- map_app, <- flat_map_app. apply Permutation_map. apply Permutation_flat_map. rewrite Pm. apply Permutation_app_tail. apply Permutation_rev. }
        rewrite PW, P1. set (A := map rp_problem (long_strings (rl_limit rE) I i j)) in *. set (B0 := map rp_problem ws0) in *. set (C1 := map rp_problem ws1) in *.
        set (X2 := map rp_problem (flat_map sf_warnings fl2)) in *. set (C2 := map rp_problem ws2) in *. set (X3 := map rp_problem (flat_map sf_warnings fl3)) in *. clearbody A B0 C1 X2 C2 X3.
        clear - P2. transitivity (A ++ m1 ++ C1 ++ (B0 ++ X2)).
        { rewrite <- !app_assoc. apply Permutation_app_head. transitivity (B0 ++ m1 ++ C1 ++ X2).
          - apply Permutation_app_head. rewrite app_assoc. apply Permutation_app_comm.
          - rewrite !app_assoc. apply Permutation_app_tail. rewrite <- app_assoc. apply Permutation_app_comm. }
        rewrite P2. transitivity ((A ++ m1) ++ ((C1 ++ C2) ++ X3) ++ m2); [rewrite <- !app_assoc; reflexivity|].
        rewrite <- !app_assoc. transitivity (((C1 ++ C2 ++ X3) ++ A ++ m1) ++ m2); [|rewrite <- !app_assoc; reflexivity].
        transitivity (((A ++ m1) ++ (C1 ++ C2 ++ X3)) ++ m2); [rewrite <- !app_assoc; reflexivity|]. apply Permutation_app_tail. apply Permutation_app_comm.
    - intros t fl fx us tt1 -> Wl Ap Q Wx Pa. symmetry in Q. apply map_eq_nil in Q. subst fx. inversion Pa; subst. exists fl.
      repeat (split; [first [reflexivity|assumption|discriminate|left; reflexivity]|]).
      intros r' i' post Ki R Cp. exists [], [], i', r', []. repeat (split; [first [assumption|constructor]|]). rewrite app_nil_r. reflexivity.
    - intros t f ds fs es1 t1 es2 t2 W IH Ws IHs fl fx us tt1 -> Wl Ap Q Wx Pa. destruct fx as [|x fx]; [discriminate|]. injection Q as Qn Qd Qf. subst f ds fs.
      inversion Wx as [|? ? Wx1 Wx2]; subst. cbn [map] in Pa. inversion Pa as [|? ? ? ? us0 vs tt0 us1 ? Pa0 Fu Pf]; subst.
      destruct Wx1 as [Tx Cx Ox Rx Dx Ix].
      destruct (IH (sf_input x) rE 0 (sf_warnings x) fl us0 tt0 eq_refl Wl Ap Tx ObE Cx Ox) as (fl1 & -> & -> & Wl1 & Ap1 & Ca1 & Rd1); auto.
      { intros a b _ _ _ (n & v & Sr). apply Rx. exists b, n, v. exact Sr. }
      destruct (IHs fl1 fx us1 tt1 eq_refl Wl1 Ap1 eq_refl Wx2 Pf) as (fl2 & -> & -> & Wl2 & Ap2 & Ca2 & Li & Rd2).
      exists fl2. repeat (split; [first [reflexivity|assumption]|]). split; [apply calm_app; [eapply full_calm; eassumption|exact Ca2]|].
      split; [apply lined_app; [eapply full_lined; exact Fu|exact Li]|]. intros r' i' post Ki R Cp.
      rewrite <- app_assoc in R. destruct (full_closes _ _ (us1 ++ post) Fu) as (more & Qm & Cl). rewrite Qm in R.
      destruct (Rd1 r' i' more (us1 ++ post) Ki R Cl (calm_app _ _ Ca2 Cp)) as (ds1 & ws1 & k1 & r1 & m1 & Ru1 & R1 & Ki1 & Al1 & Lo1 & P1).
      destruct (Rd2 r1 k1 post Ki1 R1 Cp) as (ds2 & ws2 & k2 & r2 & m2 & Ru2 & R2 & Ki2 & Al2 & Lo2 & P2).
      exists (ds1 ++ ds2), (ws1 ++ ws2), k2, r2, (m1 ++ m2). split; [eapply runs_app; eassumption|]. split; [exact R2|]. split; [exact Ki2|].
      split; [rewrite plain_app; apply Forall2_app; assumption|]. split; [apply Forall_app; split; assumption|].
      cbn [flat_map]. unfold problems in *. rewrite !map_app in *.
      set (A := map rp_problem (sf_warnings x)) in *. set (B := map rp_problem (flat_map sf_warnings fx)) in *. set (X := map rp_problem (flat_map sf_warnings fl)) in *.
      set (C1 := map rp_problem ws1) in *. set (X1 := map rp_problem (flat_map sf_warnings fl1)) in *. set (C2 := map rp_problem ws2) in *. set (X2 := map rp_problem (flat_map sf_warnings fl2)) in *.
      clearbody A B X C1 X1 C2 X2. clear - P1 P2. transitivity (B ++ (A ++ X)).
      { rewrite app_assoc. apply Permutation_app_tail. apply Permutation_app_comm. }
      rewrite P1. transitivity ((B ++ X1) ++ (C1 ++ m1)).
      { rewrite <- !app_assoc. apply Permutation_app_head. rewrite !app_assoc. apply Permutation_app_tail. apply Permutation_app_comm. }
      rewrite P2. rewrite <- !app_assoc. transitivity ((C2 ++ X2 ++ m2) ++ (C1 ++ m1)); [rewrite <- !app_assoc; reflexivity|].
      rewrite (Permutation_app_comm (C2 ++ X2 ++ m2)). rewrite <- !app_assoc. apply Permutation_app_head. transitivity ((m1 ++ (C2 ++ X2)) ++ m2); [rewrite <- !app_assoc; reflexivity|].
      rewrite (Permutation_app_comm m1). rewrite <- !app_assoc. reflexivity.
  Qed.
End Core.

(** ** There is something to paste *)
Lemma pasted_prepend glob_with t f a ts us t' : ~ In (T_Keyword K_Include) a -> pasted glob_with t f ts us t' -> pasted glob_with t f (a ++ ts) (a ++ us) t'.
Proof. intros N H. induction a as [|x a IH]; [exact H|]. cbn. constructor; [intros ->; apply N; left; reflexivity|]. apply IH. intro X. apply N. right. exact X. Qed.
Lemma full_exists us : exists vs, full_lines us vs.
Proof. destruct (last_cases us) as [->|(u & t & ->)]; [eexists; constructor|]. destruct (token_eol_dec t) as [->|Ne]; eexists; constructor. exact Ne. Qed.
Lemma offers_find sp ps ps' : Forall2 same_path ps ps' -> forall fl off fs t1, offers sp (map decls_of fl) ps off fs t1 ->
  exists fx fl1, fs = map decls_of fx /\ t1 = map decls_of fl1 /\ Permutation fl (fx ++ fl1) /\ found (map toks_of fl) ps' (map toks_of fx) (map toks_of fl1).
Proof.
  intro Sm. induction Sm as [|p p' ps ps' Sp Sm IH]; intros fl off fs t1 O.
  - inversion O; subst. exists [], fl. repeat split; auto. constructor.
  - remember (map decls_of fl) as t eqn:Qd. remember (p :: ps) as pps eqn:Qp.
    destruct O as [t|t p0 ps0 k ds t0 es fs t2 (a & b & -> & -> & S) O|t p0 ps0 es fs t2 A O]; [discriminate| |]; injection Qp as -> ->.
    + symmetry in Qd. apply map_split in Qd. destruct Qd as (la & x & lb & -> & <- & Qx & <-). rewrite <- map_app in O.
      destruct (IH _ _ _ _ O) as (fx & fl1 & -> & -> & P & F). exists (x :: fx), fl1. rewrite <- Qx. repeat split.
      * cbn. rewrite <- P. symmetry. apply Permutation_middle.
      * injection Qx as Qx _. rewrite map_app in *. cbn [map]. unfold toks_of at 2 4. rewrite Qx. constructor; [unfold same_path in *; congruence|exact F].
    + subst t. destruct (IH _ _ _ _ O) as (fx & fl1 & -> & -> & P & F). exists fx, fl1. repeat split; auto. constructor; [|exact F].
      intros k ts Hin X. apply in_map_iff in Hin. destruct Hin as (x & Qx & Hx). injection Qx as Qx _. apply (A k (sf_decls x)); [rewrite <- Qx; exact (in_map decls_of _ _ Hx)|unfold same_path in *; congruence].
Qed.
Lemma declares_free E I f r i j d es r1 : declares E I f r i j d es r1 -> is_include (item d) = false -> free I i j.
Proof.
  intros D Ni. destruct D as [x e [Wx _]|m q H0 L|m o e r2 [x b name value o' e' r3 Tk Wn Wv Ef] L].
  - eapply free_directive. exact Wx.
  - eapply free_app; [eapply free_pragma; [exact H0|]|eapply free_line_end; exact L]. intros s ->. discriminate Ni.
  - apply (free_written _ _ (free_string I)) in Wn. apply (free_written _ _ (free_string I)) in Wv. apply free_line_end in L.
    eapply free_app; [eapply free_tok; [exact Tk|discriminate]|]. eapply free_app; [exact Wn|]. eapply free_app; [exact Wv|exact L].
Qed.

Section Pastes.
  Context (E : grammar_env) (En : environment_ok E) (globs : list (path * included_glob)) (rE : rules) (ObE : exists po, obeys E po rE).
  Context (glob_with : path -> result (list glob_item) str).
  Context (Globs : forall f text g items, glob_of globs f text = Some g -> glob_with (resolve_included_path f text) = Ok items -> Forall2 same_path (expansion g) (map item_path items)).
  Context (Inc : str -> Prop).
  Definition globbed (es : list event) : Prop := forall f d text, In (Declared f d) es -> item d = D_Pragma (P_Include text) ->
    exists items, glob_with (resolve_included_path f (item text)) = Ok items.
  Lemma globbed_app a b : globbed (a ++ b) -> globbed a /\ globbed b.
  Proof. intro H. split; intros f d text Hin; apply H; apply in_app_iff; auto. Qed.
  Lemma pastes :
    (forall t f ds es t1, walk globs t f ds es t1 -> forall I r i ws fl,
      t = map decls_of fl -> Forall (well E rE Inc) fl ->
      tiles E I f r i ds [] ws rE -> (exists po, obeys E po r) -> computable E I -> fine_options I -> globbed es ->
      exists fl1 us, t1 = map decls_of fl1 /\ Forall (well E rE Inc) fl1 /\ pasted glob_with (map toks_of fl) f (map fst (skipn i (in_tokens I))) us (map toks_of fl1)) /\
    (forall t fs es t1, walks globs t fs es t1 -> forall fl fx,
      t = map decls_of fl -> Forall (well E rE Inc) fl -> fs = map decls_of fx -> Forall (well E rE Inc) fx -> globbed es ->
      exists fl1 us, t1 = map decls_of fl1 /\ Forall (well E rE Inc) fl1 /\ pasted_files glob_with (map toks_of fl) (map toks_of fx) us (map toks_of fl1)).
  Proof.
    apply walk_walks_ind.
    - intros t f I r i ws fl -> Wl T Ob Ci Fi Gb. inversion T as [? ? F|]; subst. unfold finished in F. apply nth_error_None in F. rewrite skipn_all2 by exact F.
      exists fl, []. repeat split; auto. constructor.
    - intros t f d ds es t1 Ni W IH I r i ws fl -> Wl T Ob Ci Fi Gb.
      inversion T as [|? ? j ? e r1 ? es' ws0 ? D T']; subst. match goal with H : _ ++ _ = [] |- _ => apply app_eq_nil in H; destruct H as [-> ->] end.
      pose proof (declares_positions E I f En Ci Fi _ _ _ _ _ _ D Ob) as B. pose proof (declares_obeys E I f En Ci Fi _ _ _ _ _ _ Ob D) as Ob1.
      destruct (rest_split I i j ltac:(lia)) as (a & La & Sp). pose proof (Sp _ (rest_self I j ltac:(lia))) as Ra. pose proof Ra as [_ ->].
      destruct (IH I r1 j ws0 fl eq_refl Wl T' Ob1 Ci Fi) as (fl1 & us & -> & Wl1 & Pa); [apply (globbed_app [Declared f d]); exact Gb|].
      exists fl1, (a ++ us). repeat split; auto. apply pasted_prepend; [|exact Pa]. intro Hin. apply In_nth_error in Hin. destruct Hin as [k Hk].
      assert (k < j - i) by (rewrite <- La; apply nth_error_Some; congruence). apply (declares_free _ _ _ _ _ _ _ _ _ D Ni (i + k)); [lia|].
      apply (tok_rest _ _ _ k _ Ra). rewrite nth_error_app1 by lia. exact Hk.
    - intros t f d text ds g offered fs t1 es1 t2 es2 t3 It G O Ws IHs W IH I r i ws fl -> Wl T Ob Ci Fi Gb.
      inversion T as [|? ? j ? e r1 ? es' ws0 ? D T']; subst. match goal with H : _ ++ _ = [] |- _ => apply app_eq_nil in H; destruct H as [-> ->] end.
      pose proof (declares_positions E I f En Ci Fi _ _ _ _ _ _ D Ob) as B. pose proof (declares_obeys E I f En Ci Fi _ _ _ _ _ _ Ob D) as Ob1.
      assert (X : tok I i (T_Keyword K_Include) /\ tok I (S i) (T_String (item text)) /\ line_end I (S (S i)) j).
      { destruct D as [x e [Wx _]|m q H0 L|m o e r2 O' L]; cbn in It; try discriminate. injection It as ->. inversion H0 as [| | | |j0 s0 T0 [W0 _]|]; subst.
        inversion W0 as [x T1 Y]; subst. auto. }
      destruct X as (T0 & T1 & L).
      change (Declared f d :: offered ++ es1 ++ es2) with ([Declared f d] ++ offered ++ es1 ++ es2) in Gb. apply globbed_app in Gb. destruct Gb as [Gd Gb].
      apply globbed_app in Gb. destruct Gb as [_ Gb]. apply globbed_app in Gb. destruct Gb as [G1 G2].
      destruct (Gd f d text (or_introl eq_refl) It) as (items & Gi).
      destruct (offers_find _ _ _ (Globs _ _ _ _ G Gi) fl _ _ _ O) as (fx & fl1 & -> & -> & Pm & Fo).
      assert (Wx : Forall (well E rE Inc) (fx ++ fl1)) by (rewrite <- Pm; exact Wl). apply Forall_app in Wx. destruct Wx as [Wx Wl1].
      destruct (IHs fl1 (rev fx) eq_refl Wl1 (eq_sym (map_rev _ _)) (Forall_rev Wx) G1) as (fl2 & us1 & -> & Wl2 & Pf).
      destruct (IH I r1 j ws0 fl2 eq_refl Wl2 T' Ob1 Ci Fi G2) as (fl3 & us2 & -> & Wl3 & Pa).
      exists fl3, (us1 ++ us2). repeat split; auto. rewrite map_rev in Pf.
      assert (Ri : exists eol, (eol = [T_Eol] \/ eol = [] /\ map fst (skipn j (in_tokens I)) = []) /\
        map fst (skipn i (in_tokens I)) = T_Keyword K_Include :: T_String (item text) :: eol ++ map fst (skipn j (in_tokens I))).
      { destruct (rest_split I i j ltac:(lia)) as (a & La & Sp). pose proof (Sp _ (rest_self I j ltac:(lia))) as Ra. pose proof Ra as [_ ->].
        rewrite <- (Nat.add_0_r i) in T0. apply (tok_rest _ _ _ 0 _ Ra) in T0. replace (S i) with (i + 1) in T1 by lia. apply (tok_rest _ _ _ 1 _ Ra) in T1.
        remember (S (S i)) as m eqn:Qm. destruct L as [m Te|m Fin].
        - replace m with (i + 2) in Te by lia. apply (tok_rest _ _ _ 2 _ Ra) in Te.
          assert (La' : List.length a = 3) by lia. destruct a as [|x [|y [|z [|]]]]; cbn in La'; try discriminate La'. cbn in T0, T1, Te.
          injection T0 as ->. injection T1 as ->. injection Te as ->. exists [T_Eol]. auto.
        - assert (La' : List.length a = 2) by lia. destruct a as [|x [|y [|]]]; cbn in La'; try discriminate La'. cbn in T0, T1. injection T0 as ->. injection T1 as ->. exists []. split; [right|]; auto. split; [reflexivity|].
          unfold finished in Fin. apply nth_error_None in Fin. rewrite skipn_all2 by exact Fin. reflexivity. }
      destruct Ri as (eol & He & ->). econstructor; eassumption.
    - intros t fl fx -> Wl Q Wx Gb. symmetry in Q. apply map_eq_nil in Q. subst fx. exists fl, []. repeat split; auto. constructor.
    - intros t f ds fs es1 t1 es2 t2 W IH Ws IHs fl fx -> Wl Q Wx Gb. destruct fx as [|x fx]; [discriminate|]. injection Q as Qn Qd Qf. subst f ds fs.
      inversion Wx as [|? ? Wx1 Wx2]; subst. apply globbed_app in Gb. destruct Gb as [G1 G2].
      destruct Wx1 as [Tx Cx Ox Rx Dx Ix].
      destruct (IH (sf_input x) rE 0 (sf_warnings x) fl eq_refl Wl Tx ObE Cx Ox G1) as (fl1 & us & -> & Wl1 & Pa).
      destruct (IHs fl1 fx eq_refl Wl1 eq_refl Wx2 G2) as (fl2 & vs & -> & Wl2 & Pf).
      destruct (full_exists us) as (us' & Fu). exists fl2, (us' ++ vs). repeat split; auto. cbn [map]. econstructor; eassumption.
  Qed.
End Pastes.
