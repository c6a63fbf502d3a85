(** * A displayed document as the parser gets it *)
From Coq Require Import String Ascii.
From Coq Require Import List NArith Arith Bool Lia Permutation.
From Verif Require Import Base BaseFacts Types SpecTypes Decimal SpecDecimal Token SpecOptions LexPost SpecLex LexFacts P_Lex Lexer Grammar SpecExpr SpecLexer LexerFacts P_Lexer Display SpecDisplay DisplayLex DisplayText DisplayDirective.
From Verif Require SpecGrammar.
Import ListNotations.
Local Open Scope nat_scope.

(** ** Keys *)
Fixpoint tkeyed (l : list token) : list token :=
  match l with
  | [] => []
  | t :: l' => match t, l' with T_Keyword k, T_Colon :: _ => T_Key (keyword_text k) | _, _ => t end :: tkeyed l'
  end.
Lemma tkeyed_list l : map fst (keyed_list l) = tkeyed (map fst l).
Proof.
  induction l as [|[t r] l IH]; [reflexivity|]. cbn [keyed_list map tkeyed fst]. rewrite IH. f_equal. rewrite potential_key_spec.
  destruct t; destruct l as [|[[] ?] ?]; reflexivity.
Qed.

Definition no_colon_first (l : list token) : Prop := match l with T_Colon :: _ => False | _ => True end.
Lemma tkeyed_app a b : no_colon_first b -> tkeyed (a ++ b) = tkeyed a ++ tkeyed b.
Proof.
  intro H. induction a as [|t a IH]; [reflexivity|]. cbn [app tkeyed]. rewrite IH. f_equal.
  destruct t; try reflexivity. destruct a as [|u a]; [|destruct u; reflexivity]. cbn [app]. destruct b as [|u b]; [reflexivity|]. destruct u; try reflexivity. destruct H.
Qed.

(** Tokens inside a line which are no colon. *)
Definition plain (t : token) : Prop := t <> T_Colon /\ is_eol t = false.
Lemma tkeyed_plain l : Forall plain l -> tkeyed l = l.
Proof.
  induction 1 as [|t l P F IH]; [reflexivity|]. cbn [tkeyed]. rewrite IH. f_equal. destruct t; try reflexivity.
  destruct F as [|u l [N _] F]; [reflexivity|]. destruct u; congruence || reflexivity.
Qed.

(** ** What is plain *)
Ltac plain1 := split; [discriminate|reflexivity].
Lemma plain_app a b : Forall plain a -> Forall plain b -> Forall plain (a ++ b).
Proof. intros. apply Forall_app. auto. Qed.
Lemma plain_expr e : Forall plain (written_with e).
Proof.
  induction e; cbn [written_with]; try (constructor; [plain1|]); try assumption; try constructor;
    try (apply plain_app; [assumption|]; constructor; [plain1|assumption || constructor]).
Qed.
Lemma plain_value v : Forall plain (t_value v).
Proof. apply plain_expr. Qed.
Lemma plain_amount a : Forall plain (t_amount a).
Proof. apply plain_app; [apply plain_value|constructor; [plain1|constructor]]. Qed.
Lemma plain_flag f : plain (t_flag f).
Proof. destruct f; plain1. Qed.
Lemma plain_simple v : Forall plain (t_simple v).
Proof. destruct v as [| | | | | |[]| |]; try (constructor; [plain1|constructor]). apply plain_value. Qed.
Lemma plain_meta_value v : Forall plain (t_meta_value v).
Proof. destruct v; [apply plain_simple|apply plain_amount]. Qed.
Lemma plain_options {A} (f : A -> list token) o : (forall x, Forall plain (f x)) -> Forall plain (t_options f o).
Proof. intro H. destruct o; [apply H|constructor]. Qed.
Lemma plain_scoped e : Forall plain (t_scoped e).
Proof. destruct e; [apply plain_value|constructor; [plain1|apply plain_value]]. Qed.
Lemma plain_price p : Forall plain (t_price p).
Proof. destruct p; [constructor|constructor; [plain1|constructor]|apply plain_scoped|]. apply plain_app; [apply plain_scoped|constructor; [plain1|constructor]]. Qed.
Lemma plain_between sep l : Forall plain sep -> Forall (Forall plain) l -> Forall plain (between sep l).
Proof.
  intros S F. induction F as [|x l P F IH]; [constructor|]. destruct F; [exact P|]. cbn [between]. apply plain_app; [exact P|]. apply plain_app; assumption.
Qed.
Lemma plain_cost c : Forall plain (t_cost c).
Proof.
  unfold t_cost. constructor; [plain1|]. apply plain_app; [|constructor; [plain1|constructor]]. apply plain_between; [constructor; [plain1|constructor]|].
  unfold t_cost_parts, cost_parts.
  assert (A : Forall (Forall plain) (amount_parts t_value (fun _ => [T_Hash]) (fun s => [T_Currency s]) c)).
  { unfold amount_parts. destruct (cs_per_unit c), (cs_total c), (cs_currency c); cbn [app]; repeat (constructor; try apply plain_value; try plain1). }
  apply Forall_app. split; [|apply Forall_app; split; [|apply Forall_app; split]].
  - destruct (amount_parts _ _ _ c) as [|x l] eqn:Q; [constructor|]. constructor; [|constructor]. apply plain_between; [constructor|exact A].
  - destruct (cs_date c); repeat constructor; discriminate.
  - destruct (cs_label c); repeat constructor; discriminate.
  - destruct (cs_merge c); repeat constructor; discriminate.
Qed.
Lemma plain_posting p : Forall plain (t_posting p).
Proof.
  unfold t_posting. repeat apply plain_app; try apply plain_options.
  - intro x. constructor; [apply plain_flag|constructor].
  - constructor; [plain1|constructor].
  - apply plain_value.
  - intro x. constructor; [plain1|constructor].
  - apply plain_cost.
  - intro x. constructor; [plain1|apply plain_price].
Qed.
Lemma plain_map {A} (f : A -> token) l : (forall x, plain (f x)) -> Forall plain (map f l).
Proof. intro H. apply Forall_map. apply Forall_forall. auto. Qed.
Lemma plain_marks a b : Forall plain (t_marks a b).
Proof. apply plain_app; apply plain_map; intro; plain1. Qed.

Section Documents.
  Context (D : display_env).
  Lemma plain_header d : Forall plain (t_header D d).
  Proof.
    unfold t_header. constructor; [plain1|]. apply plain_app; [|destruct (dir_variant d); try constructor; apply plain_marks].
    destruct (dir_variant d) as [f p n ps|c a|a t|a cs b|a|c|a s|a s|a s|a s|a s|t vs]; cbn [t_fields].
    - constructor; [apply plain_flag|]. repeat apply plain_app; try (apply plain_options; intro; constructor; [plain1|constructor]). destruct p, n; repeat constructor; discriminate.
    - do 2 (constructor; [plain1|]). apply plain_amount.
    - do 2 (constructor; [plain1|]). apply plain_amount.
    - do 2 (constructor; [plain1|]). apply plain_app; [|apply plain_options; intro; constructor; [plain1|constructor]].
      apply plain_between; [constructor; [plain1|constructor]|]. apply Forall_map, Forall_forall. intros. constructor; [plain1|constructor].
    - repeat (constructor; [plain1|]); constructor.
    - repeat (constructor; [plain1|]); constructor.
    - repeat (constructor; [plain1|]); constructor.
    - repeat (constructor; [plain1|]); constructor.
    - repeat (constructor; [plain1|]); constructor.
    - repeat (constructor; [plain1|]); constructor.
    - repeat (constructor; [plain1|]); constructor.
    - do 2 (constructor; [plain1|]). apply Forall_flat_map, Forall_forall. intros. apply plain_meta_value.
  Qed.

  (** A line: plain, or a key, a colon and what is plain. *)
  Inductive line_shape : list token -> list token -> Prop :=
  | ls_plain l : l <> [] -> Forall plain l -> line_shape l l
  | ls_key s l : Forall plain l -> line_shape (raw_key s :: T_Colon :: l) (T_Key s :: T_Colon :: l).

  Lemma line_keyed a b : line_shape a b -> tkeyed a = b.
  Proof.
    intros [l _ F|s l F]; [apply tkeyed_plain; exact F|]. cbn [tkeyed]. rewrite (tkeyed_plain l F). f_equal. unfold raw_key.
    destruct (keyword_of s) as [k|] eqn:K; [|reflexivity]. rewrite (keyword_of_some s k K). reflexivity.
  Qed.
  Lemma line_clear a b : line_shape a b -> b <> [] /\ no_colon_first b /\ Forall (fun t => is_eol t = false) b.
  Proof.
    intros [l N F|s l F].
    - split; [exact N|]. split; [destruct F as [|t l [P _] F]; [exact I|]; destruct t; try exact I; congruence|]. eapply Forall_impl; [|exact F]. intros t [_ P]. exact P.
    - split; [discriminate|]. split; [exact I|]. constructor; [reflexivity|]. constructor; [reflexivity|]. eapply Forall_impl; [|exact F]. intros t [_ P]. exact P.
  Qed.

  Lemma Forall2_map_both {X} (f g : X -> list token) l : (forall x, line_shape (f x) (g x)) -> Forall2 line_shape (map f l) (map g l).
  Proof. intro H. induction l; constructor; auto. Qed.
  Lemma key_lines kvs : Forall2 line_shape (map (t_key_value raw_key) kvs) (map (t_key_value T_Key) kvs).
  Proof. apply Forall2_map_both. intro kv. apply ls_key. apply plain_meta_value. Qed.
  Lemma metadata_lines m : Forall2 line_shape (l_of_metadata D raw_key m) (l_of_metadata D T_Key m).
  Proof.
    unfold l_of_metadata, l_metadata, l_marks. apply Forall2_app; [|apply key_lines].
    apply Forall2_app; apply Forall2_map_both; intro; (apply ls_plain; [discriminate|constructor; [plain1|constructor]]).
  Qed.
  Lemma directive_lines d : Forall2 line_shape (l_directive D raw_key d) (l_directive D T_Key d).
  Proof.
    unfold l_directive. destruct (dir_variant d) as [f p n ps| | | | | | | | | | |]; try apply key_lines; try apply metadata_lines.
    apply Forall2_app; [apply key_lines|]. induction ps as [|q ps IH]; [constructor|]. cbn [flat_map]. apply Forall2_app; [|exact IH].
    unfold l_posting. constructor; [|apply metadata_lines]. apply ls_plain; [|apply plain_posting]. unfold t_posting. destruct (po_flag (item q)); discriminate.
  Qed.

  (** ** Layout *)
  Definition breaks (l : bool * list token) : list token := (if fst l then T_EolThenIndent else T_Eol) :: snd l.
  Definition laid (l : bool * list token) : list token := (if fst l then [T_Eol; T_Indent] else [T_Eol]) ++ snd l.
  Definition clear (c : list token) : Prop := c <> [] /\ no_colon_first c /\ Forall (fun t => is_eol t = false) c.

  Lemma ranged_not_eol (c : list rtoken) : Forall (fun t => is_eol t = false) (map fst c) -> Forall (fun x => is_eol (fst x) = false) c.
  Proof. intro H. apply Forall_map in H. exact H. Qed.
  Lemma ranged_no_colon (c : list rtoken) : no_colon_first (map fst c) -> forall r q, c <> (T_Colon, r) :: q.
  Proof. intros H r q ->. exact H. Qed.

  Lemma lines_ranged rest : Forall (fun l => clear (snd l)) rest -> forall l : list rtoken, map fst l = flat_map breaks rest ++ [T_Eol] ->
    exists ls, lines_of l ls /\ ls <> [] /\ kept_list ls = ls /\ map fst (flat_map emit ls) = flat_map laid rest ++ [T_Eol].
  Proof.
    induction 1 as [|[b c] rest (Cn & Cc & Ce) F IH]; intros l Q.
    - destruct l as [|[t [x y]] [|? ?]]; try discriminate. injection Q as ->. exists [([(T_Eol, (x, y))], [])]. split; [|split; [discriminate|split; reflexivity]].
      constructor; [reflexivity| |].
      + intros r t [X|[]]. injection X as <- <-. split; [discriminate|]. split; constructor; [reflexivity|constructor].
      + intros a r t d X N. destruct a as [|? [|? ?]]; injection X; intros; congruence || discriminate.
    - destruct l as [|[t r] l]; [discriminate|]. cbn [flat_map breaks fst snd] in Q. rewrite <- app_assoc in Q. injection Q as Qt Q.
      apply map_eq_app in Q. destruct Q as (c' & l' & -> & Qc & Ql). cbn [fst snd] in *. subst c.
      destruct (IH l' Ql) as (ls & Ls & Ln & Lk & Le). exists (([(t, r)], c') :: ls).
      assert (Ht : is_eol t = true) by (subst t; destruct b; reflexivity).
      assert (Nc : c' <> []) by (intros ->; apply Cn; reflexivity).
      split; [|split; [discriminate|split]].
      + assert (J := lo_all _ _ Ls). rewrite J in Ls |- *. change ((t, r) :: c' ++ joined ls) with (joined (([(t, r)], c') :: ls)).
        apply lines_cons; auto; [discriminate|apply ranged_not_eol; exact Ce].
      + unfold kept_list in *. cbn [filter]. assert (X : ignored_b ([(t, r)], c') = false).
        { unfold ignored_b. cbn. subst t. destruct b; [|reflexivity]. destruct c' as [|[u q] c']; [reflexivity|]. destruct u; try reflexivity. destruct Cc. }
        rewrite X. cbn [negb]. f_equal. exact Lk.
      + cbn [flat_map]. rewrite map_app, Le, <- app_assoc. f_equal. unfold emit, break_of. cbn [fst snd last]. destruct r as [x y]. subst t. destruct b; reflexivity.
  Qed.

  Lemma layout_lines c rest (l : list rtoken) fin : clear c -> Forall (fun l => clear (snd l)) rest ->
    map fst l = c ++ flat_map breaks rest ++ [T_Eol] ->
    exists out, handle_eol_indent l fin = Some out /\ map fst out = c ++ flat_map laid rest ++ [T_Eol].
  Proof.
    intros (Cn & Cc & Ce) F Q. symmetry in Q. symmetry in Q. apply map_eq_app in Q. destruct Q as (c' & l' & -> & Qc & Ql). subst c.
    destruct (lines_ranged rest F l' Ql) as (ls & Ls & Ln & Lk & Le).
    assert (Lo : lines_of ((T_Eol, (0, 0)) :: c' ++ l') (([(T_Eol, (0, 0))], c') :: ls)).
    { assert (J := lo_all _ _ Ls). rewrite J in Ls |- *. change ((T_Eol, (0, 0)) :: c' ++ joined ls) with (joined (([(T_Eol, (0, 0))], c') :: ls)).
      apply lines_cons; auto; [discriminate|apply ranged_not_eol; exact Ce|intros _ ->; apply Cn; reflexivity]. }
    exists (layout (([(T_Eol, (0, 0))], c') :: ls) fin). split; [apply handle_eol_indent_layout; exact Lo|].
    assert (St : strip (([(T_Eol, (0, 0))], c') :: ls) = Some (c', ls)).
    { cbn [strip]. destruct c' as [|[u q] c']; [exfalso; apply Cn; reflexivity|]. destruct u; try reflexivity. destruct Cc. }
    unfold layout. rewrite St, Lk. unfold ending. rewrite Lk. destruct ls as [|x ls]; [congruence|]. rewrite app_nil_r, map_app, Le. reflexivity.
  Qed.

  Definition rest_lines (key : str -> token) (d : directive) : list (bool * list token) := map (pair true) (l_directive D key d).
  Definition later_lines (key : str -> token) (ds : list directive) : list (bool * list token) :=
    flat_map (fun d => (false, t_header D d) :: rest_lines key d) ds.
  Definition o_directive (d : directive) : list token :=
    t_header D d ++ flat_map (fun l => T_Eol :: T_Indent :: l) (l_directive D T_Key d) ++ [T_Eol].

  Lemma breaks_rest key d : flat_map breaks (rest_lines key d) = indented_lines (l_directive D key d).
  Proof. unfold rest_lines, indented_lines. induction (l_directive D key d) as [|x l IH]; [reflexivity|]. cbn. rewrite IH. reflexivity. Qed.
  Lemma laid_rest d : flat_map laid (rest_lines T_Key d) = flat_map (fun l => T_Eol :: T_Indent :: l) (l_directive D T_Key d).
  Proof. unfold rest_lines. induction (l_directive D T_Key d) as [|x l IH]; [reflexivity|]. cbn. rewrite IH. reflexivity. Qed.

  Lemma breaks_document key ds : forall d, flat_map (fun d => t_directive D key d ++ [T_Eol]) (d :: ds)
    = t_header D d ++ flat_map breaks (rest_lines key d ++ later_lines key ds) ++ [T_Eol].
  Proof.
    induction ds as [|d' ds IH]; intro d.
    - cbn [flat_map later_lines]. rewrite !app_nil_r, breaks_rest. unfold t_directive. rewrite <- app_assoc. reflexivity.
    - change (flat_map (fun d => t_directive D key d ++ [T_Eol]) (d :: d' :: ds)) with ((t_directive D key d ++ [T_Eol]) ++ flat_map (fun d => t_directive D key d ++ [T_Eol]) (d' :: ds)).
      rewrite IH. change (later_lines key (d' :: ds)) with ((false, t_header D d') :: rest_lines key d' ++ later_lines key ds).
      rewrite (flat_map_app breaks (rest_lines key d)), breaks_rest. change (flat_map breaks ((false, t_header D d') :: ?r)) with ((T_Eol :: t_header D d') ++ flat_map breaks r).
      unfold t_directive. rewrite <- !app_assoc. reflexivity.
  Qed.
  Lemma laid_document ds : forall d, flat_map o_directive (d :: ds) = t_header D d ++ flat_map laid (rest_lines T_Key d ++ later_lines T_Key ds) ++ [T_Eol].
  Proof.
    induction ds as [|d' ds IH]; intro d.
    - cbn [flat_map later_lines]. rewrite !app_nil_r, laid_rest. reflexivity.
    - change (flat_map o_directive (d :: d' :: ds)) with (o_directive d ++ flat_map o_directive (d' :: ds)).
      rewrite IH. change (later_lines T_Key (d' :: ds)) with ((false, t_header D d') :: rest_lines T_Key d' ++ later_lines T_Key ds).
      rewrite (flat_map_app laid (rest_lines T_Key d)), laid_rest. change (flat_map laid ((false, t_header D d') :: ?r)) with ((T_Eol :: t_header D d') ++ flat_map laid r).
      unfold o_directive. rewrite <- !app_assoc. reflexivity.
  Qed.

  (** The keys. *)
  Lemma lines_keyed a b rest : Forall2 line_shape a b -> no_colon_first rest -> tkeyed (indented_lines a ++ rest) = indented_lines b ++ tkeyed rest.
  Proof.
    intros F N. assert (G : no_colon_first (indented_lines a ++ rest)) by (destruct F; [exact N|exact I]).
    induction F as [|x y a b S F IH]; [reflexivity|].
    change (indented_lines (x :: a)) with ((T_EolThenIndent :: x) ++ indented_lines a). change (indented_lines (y :: b)) with ((T_EolThenIndent :: y) ++ indented_lines b).
    assert (G' : no_colon_first (indented_lines a ++ rest)) by (destruct F; [exact N|exact I]).
    rewrite <- !app_assoc. rewrite (tkeyed_app (T_EolThenIndent :: x)) by exact G'.
    rewrite (IH G'). cbn [tkeyed app]. rewrite (line_keyed _ _ S). reflexivity.
  Qed.
  Lemma document_keyed ds : tkeyed (flat_map (fun d => t_directive D raw_key d ++ [T_Eol]) ds) = flat_map (fun d => t_directive D T_Key d ++ [T_Eol]) ds.
  Proof.
    induction ds as [|d ds IH]; [reflexivity|]. cbn [flat_map]. rewrite tkeyed_app by (destruct ds; [exact I|cbn; exact I]). rewrite IH. f_equal.
    unfold t_directive. rewrite <- !app_assoc. rewrite (tkeyed_app (t_header D d)) by (destruct (directive_lines d); exact I).
    rewrite (tkeyed_plain _ (plain_header d)), (lines_keyed _ _ [T_Eol] (directive_lines d) I). reflexivity.
  Qed.

  (** ** The whole *)
  Context (L : lexer_env) (UO : unicode_ok (le_unicode L)) (E : grammar_env) (names : account_type -> str)
          (Dok : display_ok D) (RD : reads_decimals (le_decimal L))
          (ND : forall c, u_Nd (le_unicode L) c = true -> u_Lu (le_unicode L) c = false /\ u_Lo (le_unicode L) c = false).

  Lemma header_clear d : clear (t_header D d).
  Proof.
    split; [discriminate|]. split; [exact I|]. eapply Forall_impl; [|apply plain_header]. intros t [_ P]. exact P.
  Qed.
  Lemma rest_clear d : Forall (fun l => clear (snd l)) (rest_lines T_Key d).
  Proof.
    unfold rest_lines. apply Forall_map. pose proof (directive_lines d) as F. induction F as [|x y a b S F IH]; constructor; [apply line_clear in S; exact S|exact IH].
  Qed.

  Lemma document_lexed ds : Forall (common L E names) ds ->
    exists out, lex L (document D ds) = Fine (Some out) /\ map fst out = flat_map o_directive ds.
  Proof.
    intro F. destruct (spells_document L UO D E names Dok RD ds F) as [S _].
    destruct (S [] 0 [] eq_refl (wc_end _ _)) as (its & W & M). rewrite !app_nil_r in W.
    set (ts := flat_map (fun d => t_directive D raw_key d ++ [T_Eol]) ds) in *.
    unfold lex. rewrite (C30_complete L UO _ _ ND W).
    pose proof (attempt_recovery_spec (document D ds) (recovery_lex L) its) as R.
    assert (Ok : forall e r, In (Err e, r) its -> False).
    { intros e r X. apply (in_map fst) in X. rewrite M in X. apply in_map_iff in X. destruct X as (t & X & _). discriminate. }
    destruct (attempt_recovery (document D ds) (recovery_lex L) its) as [[toks|]|]; [|destruct R|exfalso; apply R; intros e a b X; destruct (Ok _ _ X)].
    destruct R as [Rt _].
    assert (Q : map fst toks = ts).
    { rewrite Rt. clear - M. clearbody ts. revert ts M. induction its as [|[x r] its IH]; intros [|t ts] Q; try discriminate; [reflexivity|]. cbn in Q. injection Q as -> Q. cbn. rewrite (IH ts Q). reflexivity. }
    clear Rt. destruct (C28_keyword_then_colon toks) as (keys & Hk & _). rewrite Hk.
    assert (Qk : keys = keyed_list toks).
    { unfold keyword_then_colon_to_key in Hk. rewrite (keyword_collect (toks, None)) in Hk; [|exact I|cbn; lia]. injection Hk as <-. reflexivity. }
    assert (Mk : map fst keys = flat_map (fun d => t_directive D T_Key d ++ [T_Eol]) ds) by (rewrite Qk, tkeyed_list, Q; apply document_keyed).
    destruct ds as [|d ds].
    - destruct keys; [|discriminate]. exists []. split; [|reflexivity].
      rewrite (handle_eol_indent_layout [] _ [([(T_Eol, (0, 0))], [])]); [reflexivity|].
      constructor; [reflexivity| |].
      + intros r t [X|[]]. injection X as <- <-. split; [discriminate|]. split; constructor; [reflexivity|constructor].
      + intros a r t b X N. destruct a as [|? [|? ?]]; injection X; intros; congruence || discriminate.
    - rewrite breaks_document in Mk.
      destruct (layout_lines (t_header D d) (rest_lines T_Key d ++ later_lines T_Key ds) keys (Some (blen (document D (d :: ds)), blen (document D (d :: ds))))) as (out & Ho & Mo).
      + apply header_clear.
      + apply Forall_app. split; [apply rest_clear|]. unfold later_lines. apply Forall_flat_map, Forall_forall. intros x _. constructor; [apply header_clear|apply rest_clear].
      + exact Mk.
      + exists out. rewrite Ho. split; [reflexivity|]. rewrite laid_document. exact Mo.
  Qed.
End Documents.
