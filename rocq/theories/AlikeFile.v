(** * The same tokens in other places: the same declarations *)
From Coq Require Import String Ascii.
From Coq Require Import List NArith ZArith Arith Bool Lia Permutation.
From Verif Require Import Base BaseFacts Text Path Types SpecTypes Options SpecOptions Decimal SpecDecimal Token Lexer SpecLexer LexerFacts LexerUnique LexerOrder P_Lexer Grammar SpecGrammar SpecDirective
  SpecDisplay SpecLedger Parse SpecParse SpecAlike AlikeRead.
Import ListNotations.
Local Open Scope nat_scope.

Section Declarations.
  (** Where the keys of pushed metadata are. *)
  Context (R : span -> span -> Prop).

  Inductive alike_pragma : pragma -> pragma -> Prop :=
  | ap_pushtag t t' : same_item t t' -> alike_pragma (P_Pushtag t) (P_Pushtag t')
  | ap_poptag t t' : same_item t t' -> alike_pragma (P_Poptag t) (P_Poptag t')
  | ap_pushmeta x x' : alike_key_value x x' -> R (span_of (mkv_key x)) (span_of (mkv_key x')) -> alike_pragma (P_Pushmeta x) (P_Pushmeta x')
  | ap_popmeta t t' : same_item t t' -> alike_pragma (P_Popmeta t) (P_Popmeta t')
  | ap_include t t' : same_item t t' -> alike_pragma (P_Include t) (P_Include t')
  | ap_plugin p p' : alike_plugin p p' -> alike_pragma (P_Plugin p) (P_Plugin p')
  | ap_option o o' : opt_variant o = opt_variant o' -> alike_pragma (P_Option o) (P_Option o').
  Inductive alike_declaration (a b : spanned declaration) : Prop :=
  | ad_directive d d' : item a = D_Directive d -> item b = D_Directive d' -> alike d d' -> distinct_metadata (item (dir_metadata d)) -> alike_declaration a b
  | ad_pragma p p' : item a = D_Pragma p -> item b = D_Pragma p' -> alike_pragma p p' -> alike_declaration a b.
End Declarations.

Definition alike_rules (r r' : rules) : Prop := rl_names r = rl_names r' /\ option_map fst (rl_limit r) = option_map fst (rl_limit r').

Section Same.
  Context (E : grammar_env) (I J : input) (file : option path) (R : span -> span -> Prop).
  Context (Same : map fst (in_tokens I) = map fst (in_tokens J)) (Go : forall l, Permutation l (g_order E l)).
  Context (Places : forall k t, tok I k (T_Key t) -> R (text I k (S k)) (text J k (S k))).

  Lemma same_effect r r' name value name' value' o r1 : alike_rules r r' -> same_item name name' -> same_item value value' ->
    option_effect E file r name value o [] r1 ->
    exists o' r1', option_effect E file r' name' value' o' [] r1' /\ opt_variant o = opt_variant o' /\ alike_rules r1 r1'.
  Proof.
    intros [Rn Rl] Sn Sv Ef. unfold same_item in Sn, Sv. inversion Ef as [t s Re Fr| |m Re|v Re Hv| |]; subst; rewrite ?Sn, ?Sv in Re.
    - do 2 eexists. split; [eapply effect_name; [exact Re|]; rewrite <- Rn; exact Fr|]. split; [reflexivity|]. split; cbn; [now rewrite Rn|exact Rl].
    - do 2 eexists. split; [eapply effect_limit; exact Re|]. split; [reflexivity|]. split; cbn; [exact Rn|reflexivity].
    - do 2 eexists. split; [eapply effect_none; [exact Re|exact Hv]|]. split; [reflexivity|]. split; cbn; [exact Rn|exact Rl].
  Qed.
  Lemma same_option_at r r' i k o r1 : alike_rules r r' -> option_at E I file r i k o [] r1 ->
    exists o' r1', option_at E J file r' i k o' [] r1' /\ opt_variant o = opt_variant o' /\ alike_rules r1 r1'.
  Proof.
    intros Ar O. inversion O as [a b name value o0 es r0 T Wn Wv Ef]; subst.
    destruct (same_effect r r' name value (moved_to J (S i) a name) (moved_to J a k value) _ _ Ar eq_refl eq_refl Ef) as (o' & r1' & Ef' & Q & Ar').
    exists o', r1'. split; [|auto]. econstructor; [eapply same_tok; eassumption| | |exact Ef']; (eapply same_written; [|eassumption]; apply same_string; exact Same).
  Qed.
  Lemma same_pragma_at names i k p : pragma_at E I names i k p -> exists p', pragma_at E J names i k p' /\ alike_pragma R p p'.
  Proof.
    intro P. inversion P as [j t T W|j t T W|j kv T W|j t T W T2|j s T W|j k0 m c T W Mc]; subst.
    - eexists. split; [apply pragma_pushtag; [eapply same_tok; eassumption|eapply same_tag; eassumption]|constructor; reflexivity].
    - eexists. split; [apply pragma_poptag; [eapply same_tok; eassumption|eapply same_tag; eassumption]|constructor; reflexivity].
    - destruct (same_key_value_at E names I J Same _ _ _ W) as (kv' & W' & Al & Q1 & Q2 & Tk). exists (P_Pushmeta kv'). split.
      + apply pragma_pushmeta; [eapply same_tok; eassumption|exact W'].
      + constructor; [exact Al|]. rewrite Q1, Q2. eapply Places. exact Tk.
    - eexists. split; [apply pragma_popmeta; [eapply same_tok; eassumption|eapply same_key; eassumption|eapply same_tok; eassumption]|constructor; reflexivity].
    - exists (P_Include (moved_to J (S i) k s)). split; [apply pragma_include; [eapply same_tok; eassumption|eapply same_written; [|exact W]; apply same_string; exact Same]|constructor; reflexivity].
    - destruct (same_maybe_written I J (string_at I) (string_at J) j k c (same_string I J Same) Mc) as (c' & Mc' & Sc).
      exists (P_Plugin (mk_plugin (moved_to J (S i) j m) c')). split; [eapply pragma_plugin; [eapply same_tok; eassumption|eapply same_written; [|exact W]; apply same_string; exact Same|exact Mc']|].
      constructor. split; [reflexivity|exact Sc].
  Qed.
  Lemma same_declares r r' i j d r1 : alike_rules r r' -> declares E I file r i j d [] r1 ->
    exists d' r1', declares E J file r' i j d' [] r1' /\ alike_declaration R d d' /\ alike_rules r1 r1'.
  Proof.
    intros Ar D. inversion D as [d0 es W|k p P Le|k o es r0 O Le]; subst.
    - destruct (same_whole E (rl_names r1) I J Same Go _ _ _ W) as (d' & W' & Al & Di). rewrite (proj1 Ar) in W'.
      do 2 eexists. split; [apply declares_directive; exact W'|]. split; [|exact Ar]. eapply ad_directive; [reflexivity|reflexivity|exact Al|exact Di].
    - destruct (same_pragma_at _ _ _ _ P) as (p' & P' & Al). rewrite (proj1 Ar) in P'.
      do 2 eexists. split; [eapply declares_pragma; [exact P'|eapply same_line_end; eassumption]|]. split; [|exact Ar]. eapply ad_pragma; [reflexivity|reflexivity|exact Al].
    - destruct (same_option_at _ _ _ _ _ _ Ar O) as (o' & r1' & O' & Q & Ar').
      do 2 eexists. split; [eapply declares_option; [exact O'|eapply same_line_end; eassumption]|]. split; [|exact Ar']. eapply ad_pragma; [reflexivity|reflexivity|constructor; exact Q].
  Qed.
  Lemma same_long_strings l l' i j : option_map fst l = option_map fst l' ->
    map rp_problem (long_strings l I i j) = map rp_problem (long_strings l' J i j).
  Proof.
    intro Q. assert (Ql : allowed l = allowed l') by (destruct l as [[n p]|], l' as [[n' p']|]; cbn in *; congruence).
    unfold long_strings. generalize (seq i (j - i)) as ks. induction ks as [|k ks IH]; [reflexivity|]. cbn [flat_map]. rewrite !map_app, IH. f_equal.
    pose proof (f_equal (fun l => nth_error l k) Same) as S. cbn beta in S. rewrite !nth_error_map in S.
    destruct (nth_error (in_tokens I) k) as [[t [a b]]|], (nth_error (in_tokens J) k) as [[t' [a' b']]|]; try discriminate; [|reflexivity].
    cbn in S. injection S as <-. destruct t; try reflexivity. rewrite <- Ql. destruct (_ <=? _)%N; [reflexivity|]. cbn. unfold too_long. cbn. rewrite Ql.
    destruct l as [[n p]|], l' as [[n' p']|]; try discriminate; reflexivity.
  Qed.
  Lemma same_tiles r i ds ws r1 : tiles E I file r i ds [] ws r1 -> forall r', alike_rules r r' ->
    exists ds' ws' r1', tiles E J file r' i ds' [] ws' r1' /\ Forall2 (alike_declaration R) ds ds' /\ map rp_problem ws = map rp_problem ws' /\ alike_rules r1 r1'.
  Proof.
    intro T. remember (@nil report) as es0 eqn:Q in T. revert Q. induction T as [r i F|r i j d es r1 ds es' ws r2 D T IH]; intros Q r' Ar.
    - exists [], [], r'. split; [constructor; eapply same_finished; eassumption|]. auto.
    - apply app_eq_nil in Q. destruct Q as [-> ->]. destruct (same_declares _ _ _ _ _ _ Ar D) as (d' & r1' & D' & Al & Ar1).
      destruct (IH eq_refl _ Ar1) as (ds' & ws' & r2' & T' & F & W & Ar2). exists (d' :: ds'), (long_strings (rl_limit r') J i j ++ ws'), r2'.
      split; [change (@nil report) with (@nil report ++ []); econstructor; eassumption|]. split; [auto|]. split; [|exact Ar2].
      rewrite !map_app, W. f_equal. apply same_long_strings. apply Ar.
  Qed.
  Lemma same_may_start i : may_start J i -> may_start I i.
  Proof.
    intros M k t Q T. destruct (M k t Q) as [A B]; [eapply same_tok; [|exact T]; exact Same|]. split; [exact A|]. intro Et. destruct (B Et) as [X Y].
    split; intro Z; [apply X|apply Y]; (eapply same_tok; [|exact Z]; exact Same).
  Qed.
End Same.

Lemma same_computable E I J : map fst (in_tokens I) = map fst (in_tokens J) -> computable E I -> computable E J.
Proof.
  intros Same [A B]. split.
  - intros i s T. apply (A i s). apply (same_tok J I (eq_sym Same) _ _ T).
  - intros i j e M [S L]. apply (B i j e).
    + eapply same_may_start; eassumption.
    + split; [apply (same_exprs J I (eq_sym Same)); exact S|]. intros k b Sb. apply (L k b). apply (same_exprs I J Same). exact Sb.
Qed.
Lemma same_fine_options I J : map fst (in_tokens I) = map fst (in_tokens J) -> fine_options I -> fine_options J.
Proof.
  intros Same F i n v c T1 T2 T3 H. apply (F i n v c); try assumption; (eapply same_tok; [symmetry; exact Same|assumption]).
Qed.

(** ** Several files *)
Definition alike_file (R : span -> span -> Prop) (a b : option path * list (spanned declaration)) : Prop :=
  fst a = fst b /\ Forall2 (alike_declaration R) (snd a) (snd b).

(** A key in the one file, and the same one in the other. *)
Definition token_place (L : lexer_env) (x y : nat * option path * str) (sp sp' : span) : Prop :=
  exists ts ts' k t, lex L (snd x) = Fine (Some ts) /\ lex L (snd y) = Fine (Some ts') /\
    tok (input_of (fst (fst x)) (snd x) ts) k (T_Key t) /\
    sp = text (input_of (fst (fst x)) (snd x) ts) k (S k) /\ sp' = text (input_of (fst (fst y)) (snd y) ts') k (S k).

Lemma same_files_tiled L E (Go : forall l, Permutation l (g_order E l)) (R : span -> span -> Prop) : forall cs cs',
  Forall2 (fun x y => fst x = fst y /\ same_tokens L (snd x) (snd y)) cs cs' ->
  Forall2 (fun x y => forall sp sp', token_place L x y sp sp' -> R sp sp') cs cs' ->
  forall r r' fs ws r1, alike_rules r r' -> files_tiled L E r cs fs [] ws r1 ->
  exists fs' ws' r1', files_tiled L E r' cs' fs' [] ws' r1' /\ Forall2 (alike_file R) fs fs' /\ map rp_problem ws = map rp_problem ws' /\ alike_rules r1 r1'.
Proof.
  intros cs cs' F. induction F as [|[[id file] c] [[id' file'] c'] cs cs' [Q T] F IH]; intros P r r' fs ws r1 Ar Ti.
  - inversion Ti; subst. exists [], [], r'. repeat (split; [try constructor; try reflexivity|]); exact Ar || apply Ar.
  - remember (@nil report) as es0 eqn:Qe in Ti. inversion Ti as [|r0 i0 f0 c0 toks cs0 ds es ws1 r2 fs1 es' ws2 r3 Lx Tl Tr]; subst.
    match goal with H : _ ++ _ = [] |- _ => apply app_eq_nil in H; destruct H as [-> ->] end. cbn in Q. injection Q as <- <-.
    inversion P as [|? ? ? ? Px Pr]; subst. destruct T as (ts & ts' & L1 & L2 & Tq). cbn [snd] in L1, L2. rewrite Lx in L1. injection L1 as <-.
    destruct (same_tiles E (input_of id c toks) (input_of id c' ts') file R Tq Go) with (2 := Tl) (r' := r') as (ds' & ws1' & r2' & Tl' & Fd & W1 & Ar2); [|exact Ar|].
    { intros k t Tk. apply Px. exists toks, ts', k, t. auto. }
    destruct (IH Pr _ _ _ _ _ Ar2 Tr) as (fs' & ws2' & r3' & Tr' & Ff & W2 & Ar3).
    exists ((file, ds') :: fs'), (ws1' ++ ws2'), r3'. split; [change (@nil report) with (@nil report ++ []); econstructor; eassumption|].
    split; [constructor; [split; [reflexivity|exact Fd]|exact Ff]|]. split; [rewrite !map_app, W1, W2; reflexivity|exact Ar3].
Qed.

(** A place is that of one key only. *)
Definition separate (ts : list (token * (nat * nat))) : Prop :=
  forall i j t u a b c d, i < j -> nth_error ts i = Some (T_Key t, (a, b)) -> nth_error ts j = Some (T_Key u, (c, d)) -> (a, b) <> (c, d).
Lemma token_place_functional L x y x' y' a b a' b' : (forall c ts, lex L c = Fine (Some ts) -> separate ts) ->
  fst (fst x) = fst (fst y) -> (fst (fst x) = fst (fst x') -> x = x' /\ y = y') ->
  token_place L x y a a' -> token_place L x' y' b b' -> a = b -> a' = b'.
Proof.
  intros Se Qi Un (ts & ts' & k & t & L1 & L2 & T & -> & ->) (us & us' & m & u & M1 & M2 & T' & -> & ->) Q.
  assert (Hs : fst (fst x) = fst (fst x')) by exact (f_equal sp_source Q). destruct (Un Hs) as [<- <-]. clear Un Hs.
  rewrite L1 in M1. injection M1 as <-. rewrite L2 in M2. injection M2 as <-.
  destruct T as [[p q] T], T' as [[p' q'] T']. unfold text, text_from, text_upto in Q. cbn [input_of in_tokens in_source] in *. rewrite T, T' in Q. injection Q as Qa Qb. subst p' q'.
  destruct (Nat.lt_trichotomy k m) as [H|[H|H]]; [|subst; reflexivity|].
  - exfalso. exact (Se _ _ L1 _ _ _ _ _ _ _ _ H T T' eq_refl).
  - exfalso. exact (Se _ _ L1 _ _ _ _ _ _ _ _ H T' T eq_refl).
Qed.

Lemma lexed_separate L (U : unicode_ok (le_unicode L)) c ts : lex L c = Fine (Some ts) -> separate ts.
Proof.
  intros Lx i j t u a b c0 d Lt X Y Q. injection Q as -> ->.
  pose proof (nth_error_In _ _ X) as Hx. destruct (P_Lexer.C30_token_text L U _ _ _ _ _ Lx Hx) as (m & G & [T|[T|T]]); try discriminate.
  assert (Nm : m <> []).
  { destruct T as [T|[(k & -> & _)|(e & T & _)]]; [|destruct k; discriminate|discriminate].
    remember (SpecLexer.tok (T_Key t)) as o eqn:O. destruct T; try discriminate O; try discriminate;
      try (exfalso; eapply read_as_not; [|exact O]; discriminate).
    - injection O as ->. exfalso. simpl in H. repeat (destruct H as [H|H]; [discriminate H|]). destruct H.
    - intros ->. destruct H as [(x & r & Q & _) _]. discriminate Q. }
  assert (Lab : c0 < d).
  { apply str_get_spec in G. destruct G as (p & q & _ & Ha & Hb). destruct m as [|x m]; [contradiction|]. cbn in Hb. pose proof (utf8_len_pos x). lia. }
  destruct (nth_error_split _ _ X) as (l1 & l2 & Q1 & Ln).
  assert (Y2 : nth_error l2 (j - S i) = Some (T_Key u, (c0, d))).
  { rewrite Q1, nth_error_app2 in Y by lia. replace (j - List.length l1) with (S (j - S i)) in Y by lia. exact Y. }
  destruct (nth_error_split _ _ Y2) as (l3 & l4 & Q2 & _). subst l2.
  destruct (proj2 (P_Lexer.C29_spans L U _ _ Lx) _ _ _ _ _ _ _ _ _ Q1) as [Le|(_ & Z & _)]; [lia|discriminate].
Qed.
