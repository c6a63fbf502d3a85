(** * C81, C82, C83: currencies, tags, links and keys under other names, other dates
    and other strings *)
From Coq Require Import String Ascii.
From Coq Require Import List NArith ZArith Arith Bool Lia Permutation.
From Verif Require Import Base BaseFacts Text Path PathFacts Sources Types SpecTypes TypesFacts P_Types SortM SpecSort P_Sort Options SpecOptions OptionsFacts P_Options
  Pragma SpecPragma PragmaRun P_Pragma Read SpecRead ReadFacts P_Read
  Token Lexer SpecLexer P_Lexer Peg PegFacts Grammar SpecExpr SpecGrammar SpecDirective SpecDisplay SpecLedger SpecAlike ExprFacts P_Grammar
  Parse SpecParse SpecWhole ParseFacts ParseOnce ParseFile P_File P_Includes P_Parse IncludeTokens P_Order P_Complete AlikeEquiv AlikeRead AlikeFile AlikeWalk AlikeOptions SortFacts SimCopy SpecPaste Paste P_Paste SpecLayout P_Words P_Newline SpecAppend Append AppendText P_Append
  SpecRename SpecNames Names NamesRun.
From Verif Require DisplayLaid.
Import SpecPragma Read.
Import ListNotations.
Local Open Scope nat_scope.
Local Notation ended := SpecAppend.ended.

Lemma pragma_trans p q r : alike_pragma any p q -> alike_pragma any q r -> alike_pragma any p r.
Proof.
  intros A B. destruct A as [t t' S|t t' S|x x' S _|t t' S|t t' S|x x' S|o o' S]; inversion B; subst; constructor; try exact Logic.I; unfold same_item in *; try congruence.
  - match goal with H : alike_key_value _ _ |- _ => destruct H as [S1 S2]; match goal with G : alike_key_value _ _ |- _ => destruct G as [S3 S4] end end. split; [eapply item_trans; eassumption|eapply meta_value_trans; eassumption].
  - eapply plugin_trans; eassumption.
Qed.
Lemma declaration_trans a b c : alike_declaration any a b -> alike_declaration any b c -> alike_declaration any a c.
Proof.
  intros [d d' Q Q' A Di|p p' Q Q' A] [e e' R R' B Di'|q q' R R' B]; rewrite Q' in R; try discriminate; injection R as <-.
  - eapply ad_directive; [exact Q|exact R'|eapply alike_trans; eassumption|exact Di].
  - eapply ad_pragma; [exact Q|exact R'|eapply pragma_trans; eassumption].
Qed.

Section Names.
  Context (L : lexer_env) (E : grammar_env) (En : environment_ok E) (U : unicode_ok (le_unicode L)).
  Context (canonicalize : path -> option path) (root : option path).
  Context (Cano : forall p q c d, same_path p q -> canonicalize p = Some c -> canonicalize q = Some d -> same_path c d).
  Context (Root : forall p, root = Some p -> canonicalize p <> None).

  (** When a text is a ledger without includes, parsed successfully, then so is a text
      with the same tokens, but with the currencies, tags, links and keys called
      otherwise, if no two of them are called the same where they were not before,
      with other dates in the same order, and with other strings of as many lines
      where they do not belong to options.  What comes out is the same with these
      names, dates and strings. *)
  Theorem C83_all : forall n a c ta tc ds opts ps ws,
    lex L a = Fine (Some ta) -> lex L c = Fine (Some tc) ->
    map fst tc = map (name_token n) (map fst ta) -> faithful (g_unicode E) n -> keeps_order (on_date n) (dates_in (map fst ta)) -> keeps_options (on_string n) (map fst ta) ->
    fine_content L E 0 a -> without K_Include (map fst ta) ->
    ledger_is L E canonicalize root a (Success ds opts ps ws) ->
    exists ds' opts' ps' ws', ledger_is L E canonicalize root c (Success ds' opts' ps' ws') /\
      Forall2 (fun d d' => alike (name_directive n (item d)) (item d')) ds ds' /\
      alike_options opts opts' /\ Forall2 (fun p p' => alike_plugin (name_plugin n p) p') ps ps' /\ Permutation (map rp_problem ws) (map rp_problem ws').
  Proof.
    intros n a c ta tc dsA optsA psA wsA Lxa Lxc Tc Fa Kp Ko Fc Na Ha.
    destruct Fc as (t & X & Ca & Oa). rewrite Lxa in X. injection X as <-.
    destruct (alone_success L E En U canonicalize root Cano Root a ta Lxa Ca Oa Na _ _ _ _ Ha) as (da & rA & poA & yA & TA & NpA & DuA & LeA & YA & SoA & ObA & -> & ->).
    assert (Ki : keeps_includes (on_string n) (map fst ta)).
    { intros u s v Q. exfalso. apply Na. rewrite Q. apply in_or_app. right. left. reflexivity. }
    set (tj := map (fun x => (name_token n (fst x), snd x)) ta).
    set (I := input_of 0 a ta) in *. set (J0 := input_of 0 a tj).
    assert (Tk : in_tokens J0 = map (fun x => (name_token n (fst x), snd x)) (in_tokens I)) by reflexivity.
    assert (Qj : map fst tj = map (name_token n) (map fst ta)) by (unfold tj; rewrite !map_map; reflexivity).
    pose proof (computable_J E n I J0 Fa Tk Ca) as Cj0. pose proof (fine_options_J n I J0 Tk Ko Oa) as Oj0.
    destruct (tiles_J E n I J0 Fa (env_order _ En) eq_refl eq_refl Tk (fun i j e S => proj1 (proj1 (bounds I) i j e S)) root Ko Ki any (fun _ => Logic.I)
      (fun r0 i H => ParseOnce.not_indented E I root r0 i H) initial_rules 0 da wsA rA TA) as (db & TJ & AlN).
    set (dn := map (in_place (name_declaration n)) da) in *.
    assert (Nb : without K_Include (map fst tj)).
    { unfold without in *. rewrite Qj. intro H. apply in_map_iff in H. destruct H as (x & Q & H). apply Na. destruct x; try discriminate; cbn in Q; congruence. }
    pose proof (named_plain n da NpA) as NpN. fold dn in NpN.
    assert (Pl : forall l l', Forall2 (alike_declaration any) l l' -> Forall (fun d => is_include (item d) = false) l -> Forall (fun d => is_include (item d) = false) l').
    { intros l l' Al. induction Al as [|d d' l l' Ad Al IH]; intro Np; constructor; inversion Np; subst; auto. rewrite <- (alike_include _ _ _ Ad). assumption. }
    pose proof (Pl _ _ AlN NpN) as NpB.
    assert (Tc' : map fst tc = map fst tj ++ []) by (rewrite Qj, app_nil_r; exact Tc).
    pose proof (same_computable E J0 (input_of 0 c tc) ltac:(cbn; rewrite Tc', app_nil_r; reflexivity) Cj0) as Cc.
    pose proof (same_fine_options J0 (input_of 0 c tc) ltac:(cbn; rewrite Tc', app_nil_r; reflexivity) Oj0) as Oc.
    set (J := input_of 0 c tc) in *.
    destruct (copied_on E En root c tc a tj db wsA initial_rules rA Cc Oc Cj0 Oj0 Nb (obeyed E En) (ex_intro _ _ ObA) TJ NpB) as [_ RdB]. fold J in RdB.
    assert (K0 : kin E initial_rules initial_rules).
    { destruct (obeyed E En) as [p0 X]. exists p0, p0. repeat split; apply X. }
    assert (R0 : rest_at J 0 (map fst tj ++ [])) by (split; [apply Nat.le_0_l|cbn; exact Tc']).
    assert (Cl : closes (map fst tj) [] []).
    { destruct (last_cases (map fst tj)) as [->|(u & t & ->)]; [constructor|]. destruct (token_eol_dec t) as [->|Ne]; constructor; exact Ne. }
    destruct (RdB initial_rules 0 [] [] K0 R0 Cl ltac:(discriminate)) as (db' & wsB' & k2 & r2 & RuB & Rk2 & K2 & AlB & PeB).
    assert (Fk : finished J k2) by (apply rest_finished in Rk2; unfold finished; apply nth_error_None; lia).
    pose proof (runs_tiles _ _ _ _ _ _ _ _ _ RuB Fk) as T2.
    assert (Nc : without K_Include (map fst tc)) by (unfold without; rewrite Tc', app_nil_r; exact Nb).
    assert (Al : Forall2 (alike_declaration any) dn db').
    { clear - AlN AlB. revert db' AlB. induction AlN as [|x y l l' A F IH]; intros db' B; inversion B; subst; constructor; eauto. eapply declaration_trans; eassumption. }
    pose proof (Pl _ _ Al NpN) as Np2.
    set (eN := map (here root) dn) in *.
    assert (QeN : map (name_event n) (map (here root) da) = eN) by (unfold eN, dn; rewrite !map_map; reflexivity).
    pose proof (named_dues _ n Fa canonicalize [] [] [] _ DuA) as DuN. rewrite QeN in DuN. cbn [map] in DuN.
    pose proof (named_leftover _ n Fa _ LeA) as LeN. rewrite QeN in LeN.
    pose proof (named_yields _ n Fa _ _ _ YA) as YN. rewrite QeN in YN. cbn [map] in YN.
    assert (KpY : keeps_order (on_date n) (dates_of yA)).
    { eapply keeps_fewer; [|exact Kp]. eapply yields_among; [|exact YA]. apply Forall_map. exact (tiles_among _ _ _ _ _ _ _ _ _ TA). }
    pose proof (alike_here root _ _ Al) as Ae.
    assert (St : plain eN = dn).
    { unfold eN. clear - NpN. induction NpN as [|d ds Nd Np IH]; [reflexivity|]. cbn [map]. unfold here at 1. unfold plain in *. cbn [flat_map]. rewrite Nd, IH. reflexivity. }
    assert (Du' : dues canonicalize [] [] [] (map (here root) db') []).
    { eapply (strip_dues root canonicalize [] [] [] [] [] _ DuN [] db' (Forall2_nil _)). rewrite St. exact Al. }
    pose proof (alike_leftover any _ _ Ae LeN) as Le'.
    destruct (alone_parses L E En U canonicalize root Cano Root c tc Lxc Cc Oc Nc _ _ _ T2 Np2 Du' Le') as (po2 & y2 & sorted & Y2 & So2 & Ob2 & Lg).
    pose proof (alike_options_of any _ _ Ae) as Qo.
    exists sorted, (fst (assimilate_all (options_new po2) (options_of (map (here root) db')))), (plugins_of (map (here root) db')), wsB'.
    split; [exact Lg|]. split; [|split; [|split; [|exact PeB]]].
    - assert (X : Forall2 (fun d d' => alike (item d) (item d')) (map (in_place (name_directive n)) dsA) sorted).
      { eapply alike_sorted; [|exact (named_sorted n _ _ KpY SoA)|exact So2]. eapply alike_yields; [exact YN|apply Forall2_nil|exact Ae|exact Y2]. }
      clear - X. remember (map (in_place (name_directive n)) dsA) as l eqn:Q. revert dsA Q.
      induction X as [|x y l l' A Al IH]; intros [|d ds] Q; try discriminate; constructor; cbn in Q; injection Q as -> Q; auto.
    - pose proof (alike_opts E poA po2 rA r2 eN (map (here root) db') ObA Ob2 K2 Qo) as X. rewrite <- QeN, (named_options n) in X. exact X.
    - pose proof (alike_plugins_of any _ _ Ae) as X. fold eN in X. rewrite <- QeN, (named_plugins n) in X. clear - X. remember (map (name_plugin n) _) as l eqn:Q in X. revert Q. generalize (plugins_of (map (here root) da)) as l0.
      induction X as [|x y l l' A Al IH]; intros [|d l0] Q; try discriminate; constructor; cbn in Q; injection Q as -> Q; auto.
  Qed.

  (** So currencies, tags, links and keys are just names. *)
  Theorem C81_names : forall n a c ta tc ds opts ps ws,
    (forall d, on_date n d = d) -> (forall s, on_string n s = s) ->
    lex L a = Fine (Some ta) -> lex L c = Fine (Some tc) ->
    map fst tc = map (name_token n) (map fst ta) -> faithful (g_unicode E) n ->
    fine_content L E 0 a -> without K_Include (map fst ta) ->
    ledger_is L E canonicalize root a (Success ds opts ps ws) ->
    exists ds' opts' ps' ws', ledger_is L E canonicalize root c (Success ds' opts' ps' ws') /\
      Forall2 (fun d d' => alike (name_directive n (item d)) (item d')) ds ds' /\
      alike_options opts opts' /\ Forall2 alike_plugin ps ps' /\ Permutation (map rp_problem ws) (map rp_problem ws').
  Proof.
    intros n a c ta tc ds opts ps ws Dd Ss Lxa Lxc Tc Fa Fc Na Ha.
    destruct (C83_all n a c ta tc ds opts ps ws Lxa Lxc Tc Fa) as (ds' & opts' & ps' & ws' & H & F & O & P & W); auto.
    { intros x y _ _ B. rewrite !Dd. exact B. }
    { intros ? ? ? ? _. auto. }
    exists ds', opts', ps', ws'. repeat (split; [assumption|]). split; [|exact W].
    assert (Q : forall p, name_plugin n p = p).
    { assert (Q : forall x, in_place (on_string n) x = x) by (intros [x sp]; unfold in_place; cbn; rewrite Ss; reflexivity).
      intros [m [g|]]; unfold name_plugin; cbn; rewrite ?Q; reflexivity. }
    clear - P Q. induction P as [|x y l l' A P IH]; constructor; [rewrite Q in A; exact A|exact IH].
  Qed.
End Names.

(** ** Two names exchanged *)
Definition exchanged (x y s : str) : str := if str_eqb s x then y else if str_eqb s y then x else s.
Lemma exchanged_twice x y s : exchanged x y (exchanged x y s) = s.
Proof.
  assert (R : forall t, str_eqb t t = true) by (intro; apply str_eqb_eq; reflexivity).
  unfold exchanged. destruct (str_eqb s x) eqn:A; [|destruct (str_eqb s y) eqn:B; [|rewrite A, B; reflexivity]].
  - apply str_eqb_eq in A. subst s. rewrite R. destruct (str_eqb y x) eqn:B; [apply str_eqb_eq in B; exact B|reflexivity].
  - apply str_eqb_eq in B. subst s. rewrite R. reflexivity.
Qed.
Lemma exchanged_injective x y : injective (exchanged x y).
Proof. intros s t H. rewrite <- (exchanged_twice x y s), H. apply exchanged_twice. Qed.
Lemma exchanged_keeps (P : str -> Prop) x y : P x -> P y -> forall s, P s <-> P (exchanged x y s).
Proof.
  intros Px Py s. unfold exchanged. destruct (str_eqb s x) eqn:A; [apply str_eqb_eq in A; subst; tauto|]. destruct (str_eqb s y) eqn:B; [apply str_eqb_eq in B; subst; tauto|]. tauto.
Qed.
Definition pair_of (P : str -> Prop) (p : str * str) : Prop := P (fst p) /\ P (snd p).
(** Two currencies, two tags, two links and two keys take each other's place. *)
Definition exchange (c t l k : str * str) : naming :=
  mk_naming (exchanged (fst c) (snd c)) (exchanged (fst t) (snd t)) (exchanged (fst l) (snd l)) (exchanged (fst k) (snd k)) (fun d => d) (fun s => s).
Lemma exchange_faithful U c t l k : pair_of currency_lang c -> pair_of (tag_link_lang U) t -> pair_of (tag_link_lang U) l -> pair_of (key_lang U) k -> faithful U (exchange c t l k).
Proof.
  intros [C C'] [T T'] [Li L'] [Ke K']. constructor; cbn; try (split; [apply exchanged_injective|]); try (apply exchanged_keeps; assumption); try reflexivity; [|intro; split; [tauto|reflexivity]].
  split; [apply exchanged_keeps; assumption|]. intros s A. apply (exchanged_keeps (Forall ascii)); auto using DisplayLaid.currency_lang_ascii.
Qed.
Lemma exchange_twice c t l k x : name_token (exchange c t l k) (name_token (exchange c t l k) x) = x.
Proof. destruct x; cbn; rewrite ?exchanged_twice; reflexivity. Qed.

Section Exchange.
  Context (L : lexer_env) (E : grammar_env) (En : environment_ok E) (U : unicode_ok (le_unicode L)).
  Context (canonicalize : path -> option path) (root : option path).
  Context (Cano : forall p q c d, same_path p q -> canonicalize p = Some c -> canonicalize q = Some d -> same_path c d).
  Context (Root : forall p, root = Some p -> canonicalize p <> None).

  (** So a currency, a tag, a link and a key can each be renamed into one which is
      not there, or exchanged with one which is: the one text is parsed
      successfully if and only if the other one is. *)
  Theorem C81_exchange : forall cu tg li ke a c ta tc,
    lex L a = Fine (Some ta) -> lex L c = Fine (Some tc) ->
    map fst tc = map (name_token (exchange cu tg li ke)) (map fst ta) ->
    pair_of currency_lang cu -> pair_of (tag_link_lang (g_unicode E)) tg ->
    pair_of (tag_link_lang (g_unicode E)) li -> pair_of (key_lang (g_unicode E)) ke ->
    fine_content L E 0 a -> fine_content L E 0 c -> without K_Include (map fst ta) ->
    (exists ds opts ps ws, ledger_is L E canonicalize root a (Success ds opts ps ws)) <->
    (exists ds opts ps ws, ledger_is L E canonicalize root c (Success ds opts ps ws)).
  Proof.
    intros cu tg li ke a c ta tc Lxa Lxc Q C T Li Ke Fa Fc Na. pose proof (exchange_faithful _ _ _ _ _ C T Li Ke) as Fn. split.
    - intros (ds & opts & ps & ws & H). destruct (C81_names L E En U canonicalize root Cano Root (exchange cu tg li ke) a c ta tc ds opts ps ws (fun _ => eq_refl) (fun _ => eq_refl) Lxa Lxc Q Fn Fa Na H) as (ds' & opts' & ps' & ws' & H' & _). eauto 6.
    - intros (ds & opts & ps & ws & H).
      assert (Q' : map fst ta = map (name_token (exchange cu tg li ke)) (map fst tc)).
      { rewrite Q, map_map. rewrite (map_ext _ (fun x => x)), map_id; [reflexivity|]. intro. apply exchange_twice. }
      assert (Nc : without K_Include (map fst tc)).
      { unfold without in *. rewrite Q. intro X. apply in_map_iff in X. destruct X as (x & Qx & X). apply Na. destruct x; try discriminate; cbn in Qx; congruence. }
      destruct (C81_names L E En U canonicalize root Cano Root (exchange cu tg li ke) c a tc ta ds opts ps ws (fun _ => eq_refl) (fun _ => eq_refl) Lxc Lxa Q' Fn Fc Nc H) as (ds' & opts' & ps' & ws' & H' & _). eauto 6.
  Qed.
End Exchange.

(** ** A case: all four called otherwise *)
Definition ex_naming : naming := exchange (lit "USD", lit "EUR") (lit "trip", lit "y2024/03") (lit "inv-1", lit "b.7") (lit "note", lit "opmerking").
Definition ex_dollars : str :=
  lit "option ""operating_currency"" ""USD""" ++ [10%N] ++ lit "pushtag #trip" ++ [10%N] ++ lit "pushmeta note: #trip" ++ [10%N] ++
  lit "2024-01-01 open Assets:Cash USD, CHF" ++ [10%N] ++ lit "2024-01-02 * ""b"" #food ^inv-1" ++ [10%N] ++ lit "  note: 3 USD" ++ [10%N] ++ lit "  #bar" ++ [10%N] ++
  lit "  Assets:Cash  1 + 2 CHF {4 USD} @ 5 USD" ++ [10%N] ++ lit "  Income:Gift" ++ [10%N] ++ lit "poptag #trip" ++ [10%N] ++ lit "popmeta note:" ++ [10%N].
Definition ex_euros : str :=
  lit "option ""operating_currency"" ""USD""" ++ [10%N] ++ lit "pushtag #y2024/03" ++ [10%N] ++ lit "pushmeta opmerking: #y2024/03" ++ [10%N] ++
  lit "2024-01-01 open Assets:Cash EUR, CHF" ++ [10%N] ++ lit "2024-01-02 * ""b"" #food ^b.7" ++ [10%N] ++ lit "  opmerking: 3 EUR" ++ [10%N] ++ lit "  #bar" ++ [10%N] ++
  lit "  Assets:Cash  1 + 2 CHF {4 EUR} @ 5 EUR" ++ [10%N] ++ lit "  Income:Gift" ++ [10%N] ++ lit "poptag #y2024/03" ++ [10%N] ++ lit "popmeta opmerking:" ++ [10%N].

Lemma ex_faithful : faithful (g_unicode P_Grammar.ex_env) ex_naming.
Proof.
  apply exchange_faithful; split; cbn.
  - apply (TypesFacts.currency_ok (lit "USD") (lit "USD")). vm_compute. reflexivity.
  - apply (TypesFacts.currency_ok (lit "EUR") (lit "EUR")). vm_compute. reflexivity.
  - apply (C17_tag_link _ (lit "trip") (lit "trip")). vm_compute. reflexivity.
  - apply (C17_tag_link _ (lit "y2024/03") (lit "y2024/03")). vm_compute. reflexivity.
  - apply (C17_tag_link _ (lit "inv-1") (lit "inv-1")). vm_compute. reflexivity.
  - apply (C17_tag_link _ (lit "b.7") (lit "b.7")). vm_compute. reflexivity.
  - apply (C17_key _ (lit "note") (lit "note")). vm_compute. reflexivity.
  - apply (C17_key _ (lit "opmerking") (lit "opmerking")). vm_compute. reflexivity.
Qed.
Example C81_names_ex : exists ta tc ds opts ps ws,
  (forall d, on_date ex_naming d = d) /\ (forall s, on_string ex_naming s = s) /\
  lex P_Lexer.ex_env ex_dollars = Fine (Some ta) /\ lex P_Lexer.ex_env ex_euros = Fine (Some tc) /\
  map fst tc = map (name_token ex_naming) (map fst ta) /\ faithful (g_unicode P_Grammar.ex_env) ex_naming /\
  fine_content P_Lexer.ex_env P_Grammar.ex_env 0 ex_dollars /\ without K_Include (map fst ta) /\
  ledger_is P_Lexer.ex_env P_Grammar.ex_env (fun p => Some p) None ex_dollars (Success ds opts ps ws) /\ List.length ds = 2.
Proof.
  assert (Ca : check_content P_Lexer.ex_env P_Grammar.ex_env 0 ex_dollars = true) by (vm_compute; reflexivity).
  assert (Cc : check_content P_Lexer.ex_env P_Grammar.ex_env 0 ex_euros = true) by (vm_compute; reflexivity).
  destruct (ex_ledger_success ex_dollars ltac:(vm_compute; exact Logic.I)) as (ds & opts & ps & ws & H & Q).
  exists (ex_lexed ex_dollars), (ex_lexed ex_euros), ds, opts, ps, ws. split; [reflexivity|]. split; [reflexivity|].
  split; [apply ex_lexes; exact Ca|]. split; [apply ex_lexes; exact Cc|]. split; [vm_compute; reflexivity|]. split; [exact ex_faithful|].
  split; [apply check_content_ok; exact Ca|]. split; [apply check_without_include; vm_compute; reflexivity|].
  split; [exact H|]. clear - Q. vm_compute in Q. injection Q as <- _ _ _. reflexivity.
Qed.

(** ** What is necessary *)

(** If two currencies become one, and so with tags, links and keys, the text may
    be refused. *)
Theorem C81_merged_refuted : exists L E (n : naming) a c ta tc dsA optsA psA wsA es ws,
  unicode_ok (le_unicode L) /\ environment_ok E /\
  lex L a = Fine (Some ta) /\ lex L c = Fine (Some tc) /\ map fst tc = map (name_token n) (map fst ta) /\
  (forall s, currency_lang s -> currency_lang (on_currency n s)) /\ on_tag n = (fun s => s) /\ on_link n = (fun s => s) /\ on_key n = (fun s => s) /\ on_date n = (fun d => d) /\ on_string n = (fun s => s) /\
  ledger_is L E (fun p => Some p) None a (Success dsA optsA psA wsA) /\ ledger_is L E (fun p => Some p) None c (Failure es ws).
Proof.
  pose (n := mk_naming (fun s => if str_eqb s (lit "EUR") then lit "USD" else s) (fun s => s) (fun s => s) (fun s => s) (fun d => d) (fun s => s)).
  pose (a := lit "2024-01-02 open Assets:Cash EUR, USD" ++ [10%N]). pose (c := lit "2024-01-02 open Assets:Cash USD, USD" ++ [10%N]).
  assert (Ca : check_content P_Lexer.ex_env P_Grammar.ex_env 0 a = true) by (vm_compute; reflexivity).
  assert (Cc : check_content P_Lexer.ex_env P_Grammar.ex_env 0 c = true) by (vm_compute; reflexivity).
  destruct (ex_ledger_success a ltac:(vm_compute; exact Logic.I)) as (dsA & optsA & psA & wsA & HA & _).
  assert (HC : exists es ws, ledger_is P_Lexer.ex_env P_Grammar.ex_env (fun p => Some p) None c (Failure es ws)).
  { destruct (ex_ledger c) as [[[|es ws]|]|] eqn:X; try (vm_compute in X; discriminate X). exists es, ws. apply ex_ledger_is. exact X. }
  destruct HC as (es & ws & HC).
  exists P_Lexer.ex_env, P_Grammar.ex_env, n, a, c, (ex_lexed a), (ex_lexed c), dsA, optsA, psA, wsA, es, ws.
  split; [exact P_Lexer.arabic_ok|]. split; [exact P_File.ex_environment|].
  split; [apply ex_lexes; exact Ca|]. split; [apply ex_lexes; exact Cc|]. split; [vm_compute; reflexivity|]. split; [|auto 10].
  intros s Hs. unfold n. cbn [on_currency]. destruct (str_eqb s (lit "EUR")); [|exact Hs]. apply (TypesFacts.currency_ok (lit "USD") (lit "USD")). vm_compute. reflexivity.
Qed.

(** ** Other dates *)

(** The names stay, the dates are others. *)
Definition redated (f : date -> date) : naming := mk_naming (fun s => s) (fun s => s) (fun s => s) (fun s => s) f (fun s => s).
Lemma redated_faithful U f : faithful U (redated f).
Proof. constructor; cbn; try reflexivity; try (split; [intros x y H; exact H|tauto]). intro. split; [tauto|reflexivity]. Qed.

Section Dates.
  Context (L : lexer_env) (E : grammar_env) (En : environment_ok E) (U : unicode_ok (le_unicode L)).
  Context (canonicalize : path -> option path) (root : option path).
  Context (Cano : forall p q c d, same_path p q -> canonicalize p = Some c -> canonicalize q = Some d -> same_path c d).
  Context (Root : forall p, root = Some p -> canonicalize p <> None).

  (** Of the dates in a ledger only their order matters: with other dates in the
      same order it is parsed successfully too, and the same comes out in the same
      order, with these dates in the directives, the costs and the values. *)
  Theorem C82_dates : forall f a c ta tc ds opts ps ws,
    lex L a = Fine (Some ta) -> lex L c = Fine (Some tc) ->
    map fst tc = map (name_token (redated f)) (map fst ta) -> keeps_order f (dates_in (map fst ta)) ->
    fine_content L E 0 a -> without K_Include (map fst ta) ->
    ledger_is L E canonicalize root a (Success ds opts ps ws) ->
    exists ds' opts' ps' ws', ledger_is L E canonicalize root c (Success ds' opts' ps' ws') /\
      Forall2 (fun d d' => alike (name_directive (redated f) (item d)) (item d')) ds ds' /\
      map (fun d => item (dir_date (item d))) ds' = map f (map (fun d => item (dir_date (item d))) ds) /\
      alike_options opts opts' /\ Forall2 alike_plugin ps ps' /\ Permutation (map rp_problem ws) (map rp_problem ws').
  Proof.
    intros f a c ta tc ds opts ps ws La Lc Q Kp Fa Na H.
    destruct (C83_all L E En U canonicalize root Cano Root (redated f) a c ta tc ds opts ps ws La Lc Q (redated_faithful _ f) Kp (fun _ _ _ _ _ => conj eq_refl eq_refl) Fa Na H) as (ds' & opts' & ps' & ws' & H' & F & O & P & W).
    exists ds', opts', ps', ws'. repeat (split; [assumption|]). split; [|split; [assumption|split; [|assumption]]].
    2: { clear - P. induction P as [|x y l l' A P IH]; constructor; [destruct x as [[? ?] [[? ?]|]]; exact A|exact IH]. }
    clear - F. induction F as [|d d' l l' A F IH]; [reflexivity|]. cbn [map]. rewrite IH. f_equal. destruct A as [A _ _]. unfold same_item in A. cbn in A. symmetry. exact A.
  Qed.
End Dates.

(** ** A case: everything happens one year later, and what was on the 2nd of a month
    happens on the 20th *)
Definition ex_later (d : date) : date := mk_date (d_year d + 1) (d_month d) (if (d_day d =? 2)%N then 20 else d_day d).
Definition ex_now : str :=
  lit "2024-01-02 * ""b"" #food" ++ [10%N] ++ lit "  since: 2023-12-31" ++ [10%N] ++
  lit "  Assets:Cash  2 CHF {4 USD, 2024-01-01}" ++ [10%N] ++ lit "  Income:Gift" ++ [10%N] ++ lit "2024-01-01 open Assets:Cash USD, CHF" ++ [10%N].
Definition ex_then : str :=
  lit "2025-01-20 * ""b"" #food" ++ [10%N] ++ lit "  since: 2024-12-31" ++ [10%N] ++
  lit "  Assets:Cash  2 CHF {4 USD, 2025-01-01}" ++ [10%N] ++ lit "  Income:Gift" ++ [10%N] ++ lit "2025-01-01 open Assets:Cash USD, CHF" ++ [10%N].
Example C82_dates_ex : exists ta tc ds opts ps ws,
  lex P_Lexer.ex_env ex_now = Fine (Some ta) /\ lex P_Lexer.ex_env ex_then = Fine (Some tc) /\
  map fst tc = map (name_token (redated ex_later)) (map fst ta) /\ keeps_order ex_later (dates_in (map fst ta)) /\
  fine_content P_Lexer.ex_env P_Grammar.ex_env 0 ex_now /\ without K_Include (map fst ta) /\
  ledger_is P_Lexer.ex_env P_Grammar.ex_env (fun p => Some p) None ex_now (Success ds opts ps ws) /\ List.length ds = 2.
Proof.
  assert (Ca : check_content P_Lexer.ex_env P_Grammar.ex_env 0 ex_now = true) by (vm_compute; reflexivity).
  assert (Cc : check_content P_Lexer.ex_env P_Grammar.ex_env 0 ex_then = true) by (vm_compute; reflexivity).
  destruct (ex_ledger_success ex_now ltac:(vm_compute; exact Logic.I)) as (ds & opts & ps & ws & H & Q).
  exists (ex_lexed ex_now), (ex_lexed ex_then), ds, opts, ps, ws.
  split; [apply ex_lexes; exact Ca|]. split; [apply ex_lexes; exact Cc|]. split; [vm_compute; reflexivity|]. split.
  { assert (D : dates_in (map fst (ex_lexed ex_now)) = [mk_date 2024 1 2; mk_date 2023 12 31; mk_date 2024 1 1; mk_date 2024 1 1]) by (vm_compute; reflexivity).
    rewrite D. unfold keeps_order, before, ex_later. cbn [In]. intros x y X Y.
    repeat match goal with H0 : _ \/ _ |- _ => destruct H0 as [H0|H0] | H0 : False |- _ => destruct H0 end; subst x y; cbn; lia. }
  split; [apply check_content_ok; exact Ca|]. split; [apply check_without_include; vm_compute; reflexivity|].
  split; [exact H|]. clear - Q. vm_compute in Q. injection Q as <- _ _ _. reflexivity.
Qed.

(** If the order of the dates changes, what comes out is in another order. *)
Theorem C82_order_refuted : exists L E f a c ta tc dsA optsA psA wsA dsC optsC psC wsC,
  unicode_ok (le_unicode L) /\ environment_ok E /\
  lex L a = Fine (Some ta) /\ lex L c = Fine (Some tc) /\ map fst tc = map (name_token (redated f)) (map fst ta) /\
  ledger_is L E (fun p => Some p) None a (Success dsA optsA psA wsA) /\ ledger_is L E (fun p => Some p) None c (Success dsC optsC psC wsC) /\
  ~ Forall2 (fun d d' => alike (name_directive (redated f) (item d)) (item d')) dsA dsC.
Proof.
  pose (f := fun d : date => mk_date (d_year d) (d_month d) (4 - d_day d)).
  pose (a := lit "2024-01-01 open Assets:Cash" ++ [10%N] ++ lit "2024-01-03 close Assets:Cash" ++ [10%N]). pose (c := lit "2024-01-03 open Assets:Cash" ++ [10%N] ++ lit "2024-01-01 close Assets:Cash" ++ [10%N]).
  assert (Ca : check_content P_Lexer.ex_env P_Grammar.ex_env 0 a = true) by (vm_compute; reflexivity).
  assert (Cc : check_content P_Lexer.ex_env P_Grammar.ex_env 0 c = true) by (vm_compute; reflexivity).
  destruct (ex_ledger_success a ltac:(vm_compute; exact Logic.I)) as (dsA & optsA & psA & wsA & HA & QA).
  destruct (ex_ledger_success c ltac:(vm_compute; exact Logic.I)) as (dsC & optsC & psC & wsC & HC & QC).
  exists P_Lexer.ex_env, P_Grammar.ex_env, f, a, c, (ex_lexed a), (ex_lexed c), dsA, optsA, psA, wsA, dsC, optsC, psC, wsC.
  split; [exact P_Lexer.arabic_ok|]. split; [exact P_File.ex_environment|].
  split; [apply ex_lexes; exact Ca|]. split; [apply ex_lexes; exact Cc|]. split; [vm_compute; reflexivity|]. split; [exact HA|]. split; [exact HC|].
  clear - QA QC. vm_compute in QA, QC. injection QA as <- _ _ _. injection QC as <- _ _ _. intro F.
  inversion F as [|? ? ? ? [A _ _] F']; subst. cbv in A. discriminate.
Qed.

(** ** Other strings *)

(** The names and the dates stay, the strings are others. *)
Definition restrung (f : str -> str) : naming := mk_naming (fun s => s) (fun s => s) (fun s => s) (fun s => s) (fun d => d) f.
(** An empty string stays empty and another one does not become empty, the number
    of lines is kept, and the names of the booking methods are. *)
Definition harmless (f : str -> str) : Prop :=
  (forall s, (f s = [] <-> s = []) /\ lines_of (f s) = lines_of s) /\ forall b, f (booking_name b) = booking_name b.
Lemma restrung_faithful U f : harmless f -> faithful U (restrung f).
Proof. intros [A B]. constructor; cbn; auto; split; try (intros x y H; exact H); tauto. Qed.

Section Strings.
  Context (L : lexer_env) (E : grammar_env) (En : environment_ok E) (U : unicode_ok (le_unicode L)).
  Context (canonicalize : path -> option path) (root : option path).
  Context (Cano : forall p q c d, same_path p q -> canonicalize p = Some c -> canonicalize q = Some d -> same_path c d).
  Context (Root : forall p, root = Some p -> canonicalize p <> None).

  (** What a string says makes no difference, unless it belongs to an option: with
      other strings the ledger is parsed successfully too, and the same comes out,
      with these strings in the directives and plugins. *)
  Theorem C83_strings : forall f a c ta tc ds opts ps ws,
    lex L a = Fine (Some ta) -> lex L c = Fine (Some tc) ->
    map fst tc = map (name_token (restrung f)) (map fst ta) -> harmless f -> keeps_options f (map fst ta) ->
    fine_content L E 0 a -> without K_Include (map fst ta) ->
    ledger_is L E canonicalize root a (Success ds opts ps ws) ->
    exists ds' opts' ps' ws', ledger_is L E canonicalize root c (Success ds' opts' ps' ws') /\
      Forall2 (fun d d' => alike (name_directive (restrung f) (item d)) (item d')) ds ds' /\
      alike_options opts opts' /\ Forall2 (fun p p' => alike_plugin (name_plugin (restrung f) p) p') ps ps' /\ Permutation (map rp_problem ws) (map rp_problem ws').
  Proof.
    intros f a c ta tc ds opts ps ws La Lc Q Hf Ko Fa Na H.
    exact (C83_all L E En U canonicalize root Cano Root (restrung f) a c ta tc ds opts ps ws La Lc Q (restrung_faithful _ f Hf) (fun x y _ _ B => B) Ko Fa Na H).
  Qed.
End Strings.

(** ** A case: strings in a transaction, its metadata, its cost, a note and a plugin *)
Fixpoint looked_up (l : list (str * str)) (s : str) : str :=
  match l with [] => s | (x, y) :: l => if str_eqb s x then y else looked_up l s end.
Definition harmless_pair (p : str * str) : bool :=
  negb (str_eqb (fst p) []) && negb (str_eqb (snd p) []) && (lines_of (fst p) =? lines_of (snd p))%N &&
  forallb (fun b => negb (str_eqb (fst p) (booking_name b))) [Strict; StrictWithSize; NoBooking; Average; Fifo; Lifo; Hifo].
Lemma looked_up_harmless l : forallb harmless_pair l = true -> harmless (looked_up l).
Proof.
  intro H. induction l as [|[x y] l IH]; [split; [intro; split; [tauto|reflexivity]|reflexivity]|].
  cbn [forallb] in H. apply andb_prop in H. destruct H as [P H]. destruct (IH H) as [A B]. unfold harmless_pair in P. cbn [fst snd] in P.
  apply andb_prop in P. destruct P as [P Bk]. apply andb_prop in P. destruct P as [P Ln]. apply andb_prop in P. destruct P as [X Y].
  assert (Ne : forall s, negb (str_eqb s []) = true -> s <> []) by (intros [|] Z; [discriminate|congruence]). apply Ne in X, Y. apply N.eqb_eq in Ln.
  split; cbn [looked_up].
  - intro s. destruct (str_eqb s x) eqn:Q; [|apply A]. apply str_eqb_eq in Q. subst s. split; [tauto|congruence].
  - intro b. destruct (str_eqb (booking_name b) x) eqn:Q; [|apply B]. apply str_eqb_eq in Q. subst x. exfalso.
    rewrite forallb_forall in Bk. specialize (Bk b). rewrite (proj2 (str_eqb_eq _ _) eq_refl) in Bk. cbn in Bk. assert (F : false = true) by (apply Bk; destruct b; cbn; tauto). discriminate.
Qed.
Definition ex_other : str -> str := looked_up [(lit "b", lit "coffee"); (lit "shop", lit "the shop"); (lit "lot", lit "2"); (lit "p.q", lit "r"); (lit "n", lit "no")].
Definition ex_said : str :=
  lit "option ""title"" ""A b""" ++ [10%N] ++ lit "plugin ""p.q"" ""n""" ++ [10%N] ++ lit "2024-01-01 open Assets:Cash USD, CHF ""STRICT""" ++ [10%N] ++ lit "2024-01-02 * ""shop"" ""b"" #food" ++ [10%N] ++ lit "  at: ""b""" ++ [10%N] ++
  lit "  Assets:Cash  2 CHF {4 USD, ""lot""}" ++ [10%N] ++ lit "  Income:Gift" ++ [10%N] ++ lit "2024-01-03 note Assets:Cash ""n""" ++ [10%N].
Definition ex_unsaid : str :=
  lit "option ""title"" ""A b""" ++ [10%N] ++ lit "plugin ""r"" ""no""" ++ [10%N] ++ lit "2024-01-01 open Assets:Cash USD, CHF ""STRICT""" ++ [10%N] ++ lit "2024-01-02 * ""the shop"" ""coffee"" #food" ++ [10%N] ++ lit "  at: ""coffee""" ++ [10%N] ++
  lit "  Assets:Cash  2 CHF {4 USD, ""2""}" ++ [10%N] ++ lit "  Income:Gift" ++ [10%N] ++ lit "2024-01-03 note Assets:Cash ""no""" ++ [10%N].
Fixpoint check_options (f : str -> str) (ts : list token) : bool :=
  match ts with
  | T_Keyword K_Option :: ((T_String s :: T_String t :: _) as rest) => str_eqb (f s) s && str_eqb (f t) t && check_options f rest
  | _ :: rest => check_options f rest
  | [] => true
  end.
Lemma check_options_ok f ts : check_options f ts = true -> keeps_options f ts.
Proof.
  intros H a. revert ts H. induction a as [|x a IH]; intros ts H s t b ->.
  - cbn in H. apply andb_prop in H. destruct H as [H _]. apply andb_prop in H. rewrite !str_eqb_eq in H. exact H.
  - apply (IH (a ++ T_Keyword K_Option :: T_String s :: T_String t :: b)) with (b := b); [|reflexivity].
    cbn [app] in H. remember (a ++ _) as rest. clear - H.
    destruct x; try exact H.
    all: try (match goal with k : keyword |- _ => destruct k end; try exact H; destruct rest as [|y rest]; [exact H|]; destruct y; try exact H; destruct rest as [|z rest]; [exact H|]; destruct z; try exact H; cbn in H |- *; apply andb_prop in H; tauto).
Qed.
Example C83_strings_ex : exists ta tc ds opts ps ws,
  lex P_Lexer.ex_env ex_said = Fine (Some ta) /\ lex P_Lexer.ex_env ex_unsaid = Fine (Some tc) /\
  map fst tc = map (name_token (restrung ex_other)) (map fst ta) /\ harmless ex_other /\ keeps_options ex_other (map fst ta) /\
  fine_content P_Lexer.ex_env P_Grammar.ex_env 0 ex_said /\ without K_Include (map fst ta) /\
  ledger_is P_Lexer.ex_env P_Grammar.ex_env (fun p => Some p) None ex_said (Success ds opts ps ws) /\ List.length ds = 3.
Proof.
  assert (Ca : check_content P_Lexer.ex_env P_Grammar.ex_env 0 ex_said = true) by (vm_compute; reflexivity).
  assert (Cc : check_content P_Lexer.ex_env P_Grammar.ex_env 0 ex_unsaid = true) by (vm_compute; reflexivity).
  destruct (ex_ledger_success ex_said ltac:(vm_compute; exact Logic.I)) as (ds & opts & ps & ws & H & Q).
  exists (ex_lexed ex_said), (ex_lexed ex_unsaid), ds, opts, ps, ws.
  split; [apply ex_lexes; exact Ca|]. split; [apply ex_lexes; exact Cc|]. split; [vm_compute; reflexivity|]. split; [apply looked_up_harmless; vm_compute; reflexivity|].
  split; [apply check_options_ok; vm_compute; reflexivity|]. split; [apply check_content_ok; exact Ca|]. split; [apply check_without_include; vm_compute; reflexivity|].
  split; [exact H|]. clear - Q. vm_compute in Q. injection Q as <- _ _ _. reflexivity.
Qed.

(** If what an option says changes, the text may be refused. *)
Theorem C83_options_refuted : exists L E f a c ta tc dsA optsA psA wsA es ws,
  unicode_ok (le_unicode L) /\ environment_ok E /\
  lex L a = Fine (Some ta) /\ lex L c = Fine (Some tc) /\ map fst tc = map (name_token (restrung f)) (map fst ta) /\ harmless f /\
  ledger_is L E (fun p => Some p) None a (Success dsA optsA psA wsA) /\ ledger_is L E (fun p => Some p) None c (Failure es ws).
Proof.
  pose (f := looked_up [(lit "title", lit "titel")]).
  pose (a := lit "option ""title"" ""A""" ++ [10%N]). pose (c := lit "option ""titel"" ""A""" ++ [10%N]).
  assert (Ca : check_content P_Lexer.ex_env P_Grammar.ex_env 0 a = true) by (vm_compute; reflexivity).
  assert (Cc : check_content P_Lexer.ex_env P_Grammar.ex_env 0 c = true) by (vm_compute; reflexivity).
  destruct (ex_ledger_success a ltac:(vm_compute; exact Logic.I)) as (dsA & optsA & psA & wsA & HA & _).
  assert (HC : exists es ws, ledger_is P_Lexer.ex_env P_Grammar.ex_env (fun p => Some p) None c (Failure es ws)).
  { destruct (ex_ledger c) as [[[|es ws]|]|] eqn:X; try (vm_compute in X; discriminate X). exists es, ws. apply ex_ledger_is. exact X. }
  destruct HC as (es & ws & HC).
  exists P_Lexer.ex_env, P_Grammar.ex_env, f, a, c, (ex_lexed a), (ex_lexed c), dsA, optsA, psA, wsA, es, ws.
  split; [exact P_Lexer.arabic_ok|]. split; [exact P_File.ex_environment|].
  split; [apply ex_lexes; exact Ca|]. split; [apply ex_lexes; exact Cc|]. split; [vm_compute; reflexivity|].
  split; [apply looked_up_harmless; vm_compute; reflexivity|]. auto.
Qed.
(** If an empty payee is no longer empty, there is a payee where there was none. *)
Theorem C83_empty_refuted : exists L E f a c ta tc dsA optsA psA wsA dsC optsC psC wsC,
  unicode_ok (le_unicode L) /\ environment_ok E /\
  lex L a = Fine (Some ta) /\ lex L c = Fine (Some tc) /\ map fst tc = map (name_token (restrung f)) (map fst ta) /\
  (forall s, lines_of (f s) = lines_of s) /\ (forall b, f (booking_name b) = booking_name b) /\
  ledger_is L E (fun p => Some p) None a (Success dsA optsA psA wsA) /\ ledger_is L E (fun p => Some p) None c (Success dsC optsC psC wsC) /\
  ~ Forall2 (fun d d' => alike (name_directive (restrung f) (item d)) (item d')) dsA dsC.
Proof.
  pose (f := looked_up [([], lit "x")]).
  pose (a := lit "2024-01-01 * """" ""A""" ++ [10%N]). pose (c := lit "2024-01-01 * ""x"" ""A""" ++ [10%N]).
  assert (Ca : check_content P_Lexer.ex_env P_Grammar.ex_env 0 a = true) by (vm_compute; reflexivity).
  assert (Cc : check_content P_Lexer.ex_env P_Grammar.ex_env 0 c = true) by (vm_compute; reflexivity).
  destruct (ex_ledger_success a ltac:(vm_compute; exact Logic.I)) as (dsA & optsA & psA & wsA & HA & QA).
  destruct (ex_ledger_success c ltac:(vm_compute; exact Logic.I)) as (dsC & optsC & psC & wsC & HC & QC).
  exists P_Lexer.ex_env, P_Grammar.ex_env, f, a, c, (ex_lexed a), (ex_lexed c), dsA, optsA, psA, wsA, dsC, optsC, psC, wsC.
  split; [exact P_Lexer.arabic_ok|]. split; [exact P_File.ex_environment|].
  split; [apply ex_lexes; exact Ca|]. split; [apply ex_lexes; exact Cc|]. split; [vm_compute; reflexivity|].
  split; [intro s; unfold f; cbn [looked_up]; destruct (str_eqb s []) eqn:Q; [apply str_eqb_eq in Q; subst s; vm_compute|]; reflexivity|]. split; [intros []; vm_compute; reflexivity|].
  split; [exact HA|]. split; [exact HC|].
  clear - QA QC. vm_compute in QA, QC. injection QA as <- _ _ _. injection QC as <- _ _ _. intro F.
  inversion F as [|? ? ? ? [_ _ A] F']; subst. cbn in A. inversion A; subst. contradiction.
Qed.

Print Assumptions C81_names.
Print Assumptions C81_exchange.
Print Assumptions C81_merged_refuted.
Print Assumptions C82_dates.
Print Assumptions C82_order_refuted.
Print Assumptions C83_all.
Print Assumptions C83_strings.
Print Assumptions C83_options_refuted.
Print Assumptions C83_empty_refuted.
