(** * C65: parsing comes to an end, and why it panics *)
From Coq Require Import String Ascii.
From Coq Require Import List NArith ZArith Arith Bool Lia Permutation.
From Verif Require Import Base BaseFacts Text Path SpecPath PathFacts Sources Types SpecTypes TypesFacts P_Types SortM SpecSort P_Sort Options SpecOptions OptionsFacts P_Options
  Pragma SpecPragma PragmaRun P_Pragma Read SpecRead ReadFacts P_Read
  Decimal Token Lexer SpecLexer P_Lexer Peg PegFacts Grammar SpecExpr ExprFacts SpecGrammar SpecDirective GrammarSafe GrammarSound P_Arith GrammarComplete P_Grammar
  Parse SpecParse SpecWhole ParseFacts ParseOnce ParseFile P_File P_Includes P_Parse SpecTotal.
Import SpecPragma Read.
Import ListNotations.
Local Open Scope nat_scope.

(** ** Files *)
Section File.
  Context (E : grammar_env) (I : input) (source_path : option path).
  Let n := List.length (in_tokens I).

  Definition ssafe {A} (p : sparser A) : Prop := forall st i, i <= n -> match p st i with SGot _ j _ _ => i <= j <= n | SLoop => False | _ => True end.
  Definition ssteps {A} (p : sparser A) : Prop := forall st i, i <= n -> match p st i with SGot _ j _ _ => i < j <= n | SLoop => False | _ => True end.

  Lemma ssteps_lift {A} (p : parser_options -> parser A) : (forall po, steps (in_tokens I) 0 (p po)) -> ssteps (lift p).
  Proof. intros H st i Hi. unfold lift. specialize (H (ps_options st) i (Nat.le_0_l i) Hi). destruct (p (ps_options st) i); auto. Qed.
  Lemma ssafe_lift {A} (p : parser_options -> parser A) : (forall po, safe (in_tokens I) 0 (p po)) -> ssafe (lift p).
  Proof. intros H st i Hi. unfold lift. specialize (H (ps_options st) i (Nat.le_0_l i) Hi). destruct (p (ps_options st) i); auto. Qed.
  Lemma ssteps_bind {A B} (p : sparser A) (f : A -> sparser B) : ssteps p -> (forall a, ssafe (f a)) -> ssteps (sbind p f).
  Proof.
    intros P F st i Hi. unfold sbind. specialize (P st i Hi). destruct (p st i) as [a j es st1|st1| |]; auto.
    assert (J : j <= n) by lia. specialize (F a st1 j J). destruct (f a st1 j); auto; lia.
  Qed.
  Lemma ssafe_bind {A B} (p : sparser A) (f : A -> sparser B) : ssafe p -> (forall a, ssafe (f a)) -> ssafe (sbind p f).
  Proof.
    intros P F st i Hi. unfold sbind. specialize (P st i Hi). destruct (p st i) as [a j es st1|st1| |]; auto.
    assert (J : j <= n) by lia. specialize (F a st1 j J). destruct (f a st1 j); auto; lia.
  Qed.
  Lemma ssafe_ret {A} (a : A) : ssafe (sret a).
  Proof. intros st i Hi. cbn. lia. Qed.
  Lemma ssteps_map {A B} (f : A -> B) p : ssteps p -> ssteps (smap f p).
  Proof. intro H. apply ssteps_bind; [exact H|]. intro a. apply ssafe_ret. Qed.
  Lemma ssteps_choice {A} (ps : list (sparser A)) : Forall ssteps ps -> ssteps (schoice ps).
  Proof.
    induction 1 as [|p ps P F IH]; [intros st i Hi; exact Logic.I|]. destruct ps as [|q ps]; [exact P|]. cbn [schoice].
    intros st i Hi. unfold salt. specialize (P st i Hi). destruct (p st i) as [a j es st1|st1| |]; auto. apply (IH st1 i Hi).
  Qed.
  Lemma ssteps_spn {A} (p : sparser A) : ssteps p -> ssteps (sspn I p).
  Proof. intros P st i Hi. unfold sspn. specialize (P st i Hi). destruct (p st i); auto. Qed.

  Lemma p_option_ssteps : ssteps (p_option E I source_path).
  Proof.
    intros st i Hi. unfold p_option. pose proof (ssteps_lift (p_option_tokens I) (fun po => p_option_tokens_steps I po 0) st i Hi) as H.
    destruct (lift (p_option_tokens I) st i) as [[name value] j es st1|st1| |]; auto. destruct (option_read E source_path (ps_options st1) name value) as [[[o po] es']|]; auto.
  Qed.
  Lemma p_once_ssteps : ssteps (p_once E I source_path).
  Proof.
    unfold p_once. apply ssteps_spn, ssteps_choice. constructor.
    { apply ssteps_map, ssteps_lift. intro po. apply p_directive_steps. }
    constructor; [|constructor]. apply ssteps_map. unfold p_pragma. apply ssteps_bind.
    - apply ssteps_choice. repeat (apply Forall_cons; [|]); [..|constructor];
        first [apply ssteps_map, p_option_ssteps | apply ssteps_lift; intro po; auto using p_pushtag_steps, p_poptag_steps, p_pushmeta_steps, p_popmeta_steps, p_include_steps, p_plugin_steps].
    - intro a. apply ssafe_bind; [apply ssafe_lift; intro; apply eol_safe|]. intro. apply ssafe_ret.
  Qed.

  Lemma retry_stops : forall f st i, i <= n -> n - i < f -> match retry E I source_path f st i with SGot _ j _ _ => i < j <= n | SLoop => False | _ => True end.
  Proof.
    induction f as [|f IH]; intros st i Hi Hf; [lia|]. cbn [retry]. destruct (nth_error (in_tokens I) i) as [x|] eqn:T; [|exact Logic.I].
    assert (Lt : i < n) by (apply nth_error_Some; congruence).
    pose proof (p_once_ssteps st (S i) Lt) as P. destruct (p_once E I source_path st (S i)) as [d j [|e es] st'|st'| |]; auto; [lia| |].
    - specialize (IH st' (S i) Lt ltac:(lia)). destruct (retry E I source_path f st' (S i)); auto; lia.
    - specialize (IH st' (S i) Lt ltac:(lia)). destruct (retry E I source_path f st' (S i)); auto; lia.
  Qed.
  Lemma p_declaration_ssteps : ssteps (p_declaration E I source_path).
  Proof.
    intros st i Hi. unfold p_declaration. pose proof (p_once_ssteps st i Hi) as P. destruct (p_once E I source_path st i) as [d j es st1|st1| |]; auto.
    pose proof (retry_stops (S (List.length (in_tokens I) - i)) st1 i Hi ltac:(lia)) as R. destruct (retry E I source_path _ st1 i); auto.
  Qed.
  Lemma p_declarations_stop : forall f st i, i <= n -> n - i < f -> match p_declarations E I source_path f st i with SGot _ j _ _ => i <= j <= n | SNot _ | SLoop => False | SCrash => True end.
  Proof.
    induction f as [|f IH]; intros st i Hi Hf; [lia|]. cbn [p_declarations].
    pose proof (p_declaration_ssteps st i Hi) as P. destruct (p_declaration E I source_path st i) as [d j es st1|st1| |]; auto; try lia.
    specialize (IH st1 j ltac:(lia) ltac:(lia)). destruct (p_declarations E I source_path f st1 j); auto; lia.
  Qed.

  (** Whatever the tokens of a file are, whatever the options in force. *)
  Theorem C65_file : forall st, parse_file E I source_path st <> Fine None.
  Proof.
    intros st H. unfold parse_file in H. pose proof (p_declarations_stop (S (List.length (in_tokens I))) st 0 (Nat.le_0_l _) ltac:(lia)) as P.
    destruct (p_declarations E I source_path _ st 0) as [ds j es st'|st'| |]; try contradiction; [|discriminate].
    destruct (nth_error (in_tokens I) j); discriminate.
  Qed.
End File.

(** ** The whole *)

Lemma parse_all_stops E toks : forall cs outputs errors st, parse_all E toks cs outputs errors st <> Fine None.
Proof.
  induction cs as [|[[id f] c] cs IH]; intros outputs errors st; cbn [parse_all]; [discriminate|].
  destruct (nth_error toks id) as [ts|]; [|discriminate]. pose proof (C65_file E (input_of id c ts) f st) as F.
  destruct (parse_file E (input_of id c ts) f st) as [[[[out es] st']|]|]; [apply IH|congruence|discriminate].
Qed.

Lemma pass_stops canonicalize globs errs root parsed os : pragma_pass canonicalize globs errs root parsed os <> Fine None.
Proof.
  unfold pragma_pass. destruct (pp_new root parsed os) as [q|]; [|discriminate].
  pose proof (run_total canonicalize globs errs (pp_fuel q) q (le_n _)) as T.
  destruct (pp_run canonicalize globs errs (pp_fuel q) q) as [[[ds s']|]|]; congruence.
Qed.

(** Parsing comes to an end, whatever was read, whatever the tokens. *)
Theorem C65_terminates : forall E canonicalize s toks, parse E canonicalize s toks <> Fine None.
Proof.
  intros E canonicalize s toks H. unfold parse, parse_declarations in H. pose proof (parse_all_stops E toks (content_iter s) [] [] default_pstate) as P.
  destruct (parse_all E toks (content_iter s) [] [] default_pstate) as [[[[outputs errors] st]|]|]; [|congruence|discriminate].
  pose proof (pass_stops canonicalize (included_globs s) (error_paths s) (root_path s) outputs (options_new (ps_options st))) as T.
  destruct (pragma_pass canonicalize (included_globs s) (error_paths s) (root_path s) outputs (options_new (ps_options st))) as [[[ds [[os' plugins] es]]|]|]; [|congruence|discriminate].
  destruct (C01_sort_stable ds) as (out & pi & So & _). rewrite So in H. destruct (errors ++ map C_Report es); discriminate.
Qed.

(** ** Panics *)

Lemma starts_here_sound I i : starts_here I i = true -> may_start I i.
Proof.
  intros H k t -> [r T]. unfold starts_here in H. rewrite T in H. split.
  - intro Hin. cbn in Hin. destruct Hin as [<-|[<-|[<-|[<-|[<-|[]]]]]]; discriminate.
  - intro X. destruct X as [->|[d ->]]; split; intros [r' T']; rewrite T' in H; discriminate.
Qed.
Lemma forallb_not {A} (f : A -> bool) : forall l, forallb f l = false -> exists x, In x l /\ f x = false.
Proof.
  induction l as [|x l IH]; cbn; [discriminate|]. rewrite andb_false_iff. intros [H|H]; [eauto|].
  destruct (IH H) as (y & Hin & F). eauto.
Qed.
Lemma not_ascii s : forallb (fun c => (c <? 128)%N) s = false -> ~ Forall ascii s.
Proof.
  intros H F. destruct (forallb_not _ _ H) as (x & Hin & L). rewrite Forall_forall in F. specialize (F x Hin). unfold ascii in F.
  apply N.ltb_ge in L. lia.
Qed.
Lemma is_ascii s : forallb (fun c => (c <? 128)%N) s = true -> Forall ascii s.
Proof. rewrite forallb_forall. intro H. apply Forall_forall. intros x Hin. apply N.ltb_lt. auto. Qed.

Lemma computable_or E I : computable E I \/ panic_cause E I.
Proof.
  destruct (check_computable E I) eqn:C; [left; apply check_computable_ok; exact C|right].
  unfold check_computable in C. apply andb_false_iff in C. destruct C as [C|C]; apply forallb_not in C.
  - destruct C as ([t r] & Hin & F). cbn [fst] in F. destruct t; try discriminate. destruct (In_nth_error _ _ Hin) as [k T].
    apply (cause_currency E I k s); [exists r; exact T|apply not_ascii; exact F].
  - destruct C as (i & Hin & F). destruct (starts_here I i) eqn:St; [|discriminate]. apply starts_here_sound in St.
    destruct (p_expr I i) as [e j ws es|es| |] eqn:P; try discriminate. destruct (expr_value_from (g_ops E) e) as [v|] eqn:V; [discriminate|].
    apply (cause_expression E I i j e St (p_expr_longest I i e j ws es P)). intros v W Ev.
    rewrite (proj2 (expr_value_worth E e v) (conj W Ev)) in V. discriminate.
Qed.

(** What is before the first colon. *)
Fixpoint before_colon (s : str) : str := match s with [] => [] | c :: s' => if (c =? 58)%N then [] else c :: before_colon s' end.
Lemma before_colon_is : forall s, ~ In 58%N (before_colon s) /\ (s = before_colon s \/ exists rest, s = before_colon s ++ 58%N :: rest).
Proof.
  induction s as [|c s [A B]]; cbn; [auto|]. destruct (N.eqb_spec c 58) as [->|N]; [split; [auto|right; exists s; reflexivity]|].
  split; [intros [X|X]; auto|]. destruct B as [B|[rest B]]; [left; f_equal; exact B|right; exists rest; cbn; f_equal; exact B].
Qed.
Lemma before_colon_only : forall c s, ~ In 58%N c -> s = c \/ (exists rest, s = c ++ 58%N :: rest) -> before_colon s = c.
Proof.
  induction c as [|x c IH]; intros s A B.
  - destruct B as [->|[rest ->]]; reflexivity.
  - assert (Nx : x <> 58%N) by (intro; subst; apply A; left; reflexivity).
    destruct B as [->|[rest ->]]; cbn; (destruct (N.eqb_spec x 58); [congruence|]); f_equal; apply IH; try (intro; apply A; right; assumption); eauto.
Qed.
Definition said_currency (name value : str) : option str :=
  if str_eqb name (lit "conversion_currency") || str_eqb name (lit "operating_currency") then Some value
  else if str_eqb name (lit "inferred_tolerance_default") then Some (before_colon value) else None.
Lemma said_currency_is name value c : said_currency name value = Some c <->
  (In name [lit "conversion_currency"; lit "operating_currency"] /\ c = value \/
   name = lit "inferred_tolerance_default" /\ ~ In 58%N c /\ (value = c \/ exists rest, value = c ++ 58%N :: rest)).
Proof.
  unfold said_currency. destruct (str_eqb name (lit "conversion_currency")) eqn:A; cbn [orb].
  { apply str_eqb_eq in A. subst name. split; [intro X; injection X as <-; left; cbn; auto|].
    intros [[_ ->]|(X & _)]; [reflexivity|discriminate]. }
  destruct (str_eqb name (lit "operating_currency")) eqn:B.
  { apply str_eqb_eq in B. subst name. split; [intro X; injection X as <-; left; cbn; auto|].
    intros [[_ ->]|(X & _)]; [reflexivity|discriminate]. }
  apply str_eqb_neq in A. apply str_eqb_neq in B. destruct (str_eqb name (lit "inferred_tolerance_default")) eqn:D.
  - apply str_eqb_eq in D. split.
    + intro X. injection X as <-. right. split; [exact D|apply before_colon_is].
    + intros [[[X|[X|[]]] _]|(_ & X & Y)]; [congruence|congruence|]. f_equal. apply before_colon_only; assumption.
  - apply str_eqb_neq in D. split; [discriminate|]. intros [[[X|[X|[]]] _]|(X & _)]; congruence.
Qed.
Definition option_fine (I : input) (i : nat) : bool :=
  match nth_error (in_tokens I) i, nth_error (in_tokens I) (S i), nth_error (in_tokens I) (S (S i)) with
  | Some (T_Keyword K_Option, _), Some (T_String name, _), Some (T_String value, _) =>
      match said_currency name value with Some c => forallb (fun c => (c <? 128)%N) c | None => true end
  | _, _, _ => true
  end.
Lemma fine_options_or E I : fine_options I \/ panic_cause E I.
Proof.
  destruct (forallb (option_fine I) (List.seq 0 (List.length (in_tokens I)))) eqn:F.
  - left. intros i name value c [r0 T0] [r1 T1] [r2 T2] Sc. apply said_currency_is in Sc. rewrite forallb_forall in F.
    assert (Hi : i < List.length (in_tokens I)) by (apply nth_error_Some; congruence).
    specialize (F i (proj2 (in_seq _ _ _) (conj (Nat.le_0_l i) Hi))). unfold option_fine in F. rewrite T0, T1, T2, Sc in F. apply is_ascii. exact F.
  - right. apply forallb_not in F. destruct F as (i & _ & F). unfold option_fine in F.
    destruct (nth_error (in_tokens I) i) as [[t0 r0]|] eqn:T0; [|discriminate]. destruct t0; try discriminate. destruct k; try discriminate.
    destruct (nth_error (in_tokens I) (S i)) as [[t1 r1]|] eqn:T1; [|discriminate]. destruct t1 as [| | |?| | | | | | | | | | | | | | | | | |?|?|?|?|?|name|?|?|?|?| | | | |?]; try discriminate.
    destruct (nth_error (in_tokens I) (S (S i))) as [[t2 r2]|] eqn:T2; [|discriminate]. destruct t2 as [| | |?| | | | | | | | | | | | | | | | | |?|?|?|?|?|value|?|?|?|?| | | | |?]; try discriminate.
    destruct (said_currency name value) as [c|] eqn:Sc; [|discriminate]. apply said_currency_is in Sc.
    apply (cause_option E I i name value c); [exists r0; exact T0|exists r1; exact T1|exists r2; exact T2|exact Sc|apply not_ascii; exact F].
Qed.

Section Panics.
  Context (L : lexer_env) (E : grammar_env) (En : environment_ok E) (U : unicode_ok (le_unicode L)).
  Context (glob_with : str -> result (list glob_item) str) (canonicalize : path -> option path) (read : path -> result str str).
  Context (Cano : forall p q c d, same_path p q -> canonicalize p = Some c -> canonicalize q = Some d -> same_path c d).
  Context (canonicalize' : path -> option path).
  Context (fuel : nat) (root : option path) (content : str) (s : sources).
  Context (Reads : reads_to (includes_of L) glob_with canonicalize read fuel root content s).
  Context (Root : forall p, root = Some p -> canonicalize p <> None).

  Lemma content_or toks : parser_new L s = Fine (Some toks) -> forall cs, incl cs (content_iter s) ->
    (forall id f c, In (id, f, c) cs -> fine_content L E id c) \/
    exists id f c ts, In (id, f, c) cs /\ lex L c = Fine (Some ts) /\ panic_cause E (input_of id c ts).
  Proof.
    intro Pn. induction cs as [|[[id f] c] cs IH]; intro Sub; [left; intros ? ? ? []|].
    destruct IH as [IH|(id' & f' & c' & ts & Hin & Rest)]; [intros x Hx; apply Sub; right; exact Hx| |].
    2: { right. exists id', f', c', ts. split; [right; exact Hin|exact Rest]. }
    assert (Lx : exists ts, lex L c = Fine (Some ts)).
    { pose proof (C30_parser L U glob_with canonicalize read fuel root content s Reads) as P. rewrite Pn in P.
      destruct (P id f c (Sub _ (or_introl eq_refl))) as (ts & Lx & _). eauto. }
    destruct Lx as [ts Lx].
    destruct (computable_or E (input_of id c ts)) as [Co|Pc]; [|right; exists id, f, c, ts; split; [left; reflexivity|auto]].
    destruct (fine_options_or E (input_of id c ts)) as [Fo|Pc]; [|right; exists id, f, c, ts; split; [left; reflexivity|auto]].
    left. intros id' f' c' [X|X]; [|eauto]. injection X as <- <- <-. exists ts. auto.
  Qed.

  (** What is read is lexed and parsed, to the end, or a file has what makes it panic. *)
  Theorem C65_panics :
    match parser_new L s with
    | Panic => exists id f c, In (id, f, c) (content_iter s) /\ lexing_panics L c
    | Fine None => False
    | Fine (Some toks) =>
        match parse E canonicalize' s toks with
        | Panic => exists id f c ts, In (id, f, c) (content_iter s) /\ lexes L c ts /\ panic_cause E (input_of id c ts)
        | Fine None => False
        | Fine (Some _) => True
        end
    end.
  Proof.
    pose proof (C30_parser L U glob_with canonicalize read fuel root content s Reads) as P.
    destruct (parser_new L s) as [[toks|]|] eqn:Pn; [|exact P|].
    - pose proof (C65_terminates E canonicalize' s toks) as T. destruct (parse E canonicalize' s toks) as [[r|]|] eqn:R; [exact Logic.I|congruence|].
      destruct (content_or toks Pn (content_iter s) (incl_refl _)) as [Fi|(id & f & c & ts & Hin & Lx & Pc)].
      + destruct (C04_parse_does_not_panic L E En U glob_with canonicalize read Cano canonicalize' fuel root content s Reads Root toks Pn Fi) as [r R'].
        congruence.
      + exists id, f, c, ts. split; [exact Hin|]. split; [|exact Pc]. pose proof (C30_lex L U c) as X. rewrite Lx in X. exact X.
    - destruct P as (id & f & c & Hin & Lx). exists id, f, c. split; [exact Hin|]. pose proof (C30_lex L U c) as X. rewrite Lx in X. exact X.
  Qed.
End Panics.

(** ** Cases: the causes, and where there is one but nothing is read there
    (the hypotheses are met, see [ex_whole_hypotheses]) *)

Definition ex_panics (content : str) : bool := match ex_run content with Panic => true | _ => false end.
Example C65_ex : map ex_panics
    [lit "2024-02-29 balance Assets:Cash 1/0 USD";
     lit "option ""operating_currency"" """ ++ [233%N] ++ lit """";
     lit "option ""inferred_tolerance_default"" """ ++ [233%N] ++ lit ":0.1""";
     lit "2024-02-29 balance Assets:Cash (1/1 USD";
     lit "option ""inferred_tolerance_default"" ""CHF:" ++ [233%N] ++ lit """";
     lit "2024-02-29 balance Assets:Cash 1 1/0 USD"] = [true; true; true; false; false; false].
Proof. vm_compute. reflexivity. Qed.

Definition ex_zero : input := ex_tokens
  [T_Date (mk_date 2024 2 29); T_Keyword K_Balance; T_Account (lit "Assets:Cash"); T_Number (ex_num 1); T_Slash; T_Number (ex_num 0); T_Currency (lit "USD")].
Example C65_ex_cause : panic_cause ex_env ex_zero.
Proof.
  destruct (p_expr ex_zero 3) as [e j ws es|es| |] eqn:P; [|vm_compute in P; discriminate..].
  apply (cause_expression ex_env ex_zero 3 j e).
  - apply starts_here_sound. reflexivity.
  - exact (p_expr_longest ex_zero 3 e j ws es P).
  - intros v W Ev. pose proof (proj2 (expr_value_worth ex_env e v) (conj W Ev)) as X. vm_compute in P. injection P as <- _ _ _. vm_compute in X. discriminate.
Qed.

Print Assumptions C65_file.
Print Assumptions C65_terminates.
Print Assumptions C65_panics.
