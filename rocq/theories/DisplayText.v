(** * The tokens of displayed text *)
From Coq Require Import String Ascii.
From Coq Require Import List NArith Arith Bool Lia Permutation.
From Verif Require Import Base BaseFacts Types SpecTypes Decimal SpecDecimal Token SpecOptions SpecLex Lexer Grammar SpecGrammar SpecExpr SpecLexer LexerFacts Display SpecDisplay DisplayLex.
Import ListNotations.
Local Open Scope nat_scope.

(** ** The tokens of each thing which is displayed

    [key] says how a key is written: as a key, or as a keyword which becomes
    one because of the colon. *)
Definition keyword_of (s : str) : option keyword :=
  find (fun k => str_eqb (keyword_text k) s)
    [K_Txn; K_Balance; K_Open; K_Close; K_Commodity; K_Pad; K_Event; K_Query; K_Custom; K_Price; K_Note; K_Document;
     K_Pushtag; K_Poptag; K_Pushmeta; K_Popmeta; K_Option; K_Options; K_Plugin; K_Include].
Definition raw_key (s : str) : token := match keyword_of s with Some k => T_Keyword k | None => T_Key s end.

Lemma keyword_of_some s k : keyword_of s = Some k -> keyword_text k = s.
Proof. intro H. apply find_some in H. destruct H as [_ H]. apply str_eqb_eq. exact H. Qed.
Lemma keyword_of_none s : keyword_of s = None -> forall k, s <> keyword_text k.
Proof.
  intros H k ->. unfold keyword_of in H. apply (find_none _ _) with (x := k) in H; [|destruct k; cbn; auto 30].
  rewrite (proj2 (str_eqb_eq _ _) eq_refl) in H. discriminate.
Qed.

Definition t_flag (f : flag) : token :=
  match f with F_Asterisk => T_Asterisk | F_Hash => T_Hash | f => T_Flag f end.
Definition t_value (v : expr_value) : list token := written_with (ev_expr v).
Definition t_amount (a : amount) : list token := t_value (item (am_number a)) ++ [T_Currency (item (am_currency a))].
Definition t_amount_tol (a : amount_tol) : list token := t_amount (item (at_amount a)).
Definition t_scoped (e : scoped_expr) : list token := match e with SE_PerUnit v => t_value v | SE_Total v => T_Hash :: t_value v end.
Definition t_price (p : price_spec) : list token :=
  match p with
  | PS_Unspecified => []
  | PS_Currency c => [T_Currency c]
  | PS_Amount e => t_scoped e
  | PS_CurrencyAmount e c => t_scoped e ++ [T_Currency c]
  end.
Definition t_simple (v : simple_value) : list token :=
  match v with
  | SV_String s => [T_String s]
  | SV_Currency c => [T_Currency c]
  | SV_Account a => [T_Account (acc_name a)]
  | SV_Tag t => [T_Tag t]
  | SV_Link l => [T_Link l]
  | SV_Date d => [T_Date d]
  | SV_Bool b => [if b then T_True else T_False]
  | SV_Null => [T_Null]
  | SV_Expr v => t_value v
  end.
Definition t_meta_value (v : meta_value) : list token :=
  match v with MV_Simple v => t_simple v | MV_Amount a => t_amount a end.

(** Lists with something in between. *)
Fixpoint between {A} (sep : list A) (l : list (list A)) : list A :=
  match l with
  | [] => []
  | [x] => x
  | x :: r => x ++ sep ++ between sep r
  end.

(** A cost: the parts of the amount, and the components. *)
Section Costs.
  Context {A : Type} (value : expr_value -> list A) (hash currency : str -> list A) (dat : date -> list A) (lab : str -> list A)
          (merge : list A) (space : list A).
  Definition amount_parts (c : cost_spec) : list (list A) :=
    match cs_per_unit c with Some v => [value (item v)] | None => [] end ++
    match cs_total c with Some v => [hash [] ++ value (item v)] | None => [] end ++
    match cs_currency c with Some v => [currency (item v)] | None => [] end.
  Definition cost_parts (c : cost_spec) : list (list A) :=
    match amount_parts c with [] => [] | l => [between space l] end ++
    match cs_date c with Some v => [dat (item v)] | None => [] end ++
    match cs_label c with Some v => [lab (item v)] | None => [] end ++
    (if cs_merge c then [merge] else []).
End Costs.
Definition t_cost_parts (c : cost_spec) : list (list token) :=
  cost_parts t_value (fun _ => [T_Hash]) (fun s => [T_Currency s]) (fun d => [T_Date d]) (fun s => [T_String s]) [T_Asterisk] [] c.
Definition t_cost (c : cost_spec) : list token := T_Lcurl :: between [T_Comma] (t_cost_parts c) ++ [T_Rcurl].

Section Keyed.
  Context (key : str -> token).

  Definition t_marks (tags links : list (spanned str)) : list token :=
    map (fun t => T_Tag (item t)) tags ++ map (fun l => T_Link (item l)) links.
  Definition t_key_value (kv : spanned str * spanned meta_value) : list token :=
    key (item (fst kv)) :: T_Colon :: t_meta_value (item (snd kv)).
  Definition l_marks (tags links : list (spanned str)) : list (list token) :=
    map (fun t => [T_Tag (item t)]) tags ++ map (fun l => [T_Link (item l)]) links.
  Definition l_metadata (tags links : list (spanned str)) (kvs : list (spanned str * spanned meta_value)) : list (list token) :=
    l_marks tags links ++ map t_key_value kvs.
End Keyed.

Section Spelling.
  Context (L : lexer_env) (UO : unicode_ok (le_unicode L)).
  Notation lexeme := (lexeme L).

  (** Before anything which may follow, [s] is cut into [ts]. *)
  Definition spells (stop : str -> Prop) (s : str) (ts : list token) : Prop :=
    forall rest off items, stop rest -> well_cut lexeme (off + blen s) rest items ->
      exists its, well_cut lexeme off (s ++ rest) (its ++ items) /\ map fst its = map (@Ok _ _) ts.

  Definition anything (_ : str) : Prop := True.
  Definition fresh (s : str) : Prop := exists c r, s = c :: r /\ ~ is_blank c.

  Lemma spells_nil stop : spells stop [] [].
  Proof. intros rest off items _ W. exists []. cbn in *. rewrite Nat.add_0_r in W. auto. Qed.
  Lemma spells_weaken (p q : str -> Prop) s ts : (forall r, q r -> p r) -> spells p s ts -> spells q s ts.
  Proof. intros H S rest off items Q. apply S. auto. Qed.
  Lemma spells_one (stop : str -> Prop) s t : lexeme s (tok t) -> (forall rest, stop rest -> longest lexeme s rest) -> spells stop s [t].
  Proof.
    intros H Lo rest off items Q W. exists [(Ok t, (off, off + blen s))]. split; [|reflexivity]. cbn [app]. apply wc_item; auto.
  Qed.
  Lemma spells_skip (stop : str -> Prop) s : lexeme s (Fine None) -> (forall rest, stop rest -> longest lexeme s rest) -> spells stop s [].
  Proof. intros H Lo rest off items Q W. exists []. split; [|reflexivity]. cbn [app]. apply wc_skip; auto. Qed.
  Lemma spells_app (p q : str -> Prop) a b ts us : spells p a ts -> spells q b us -> (forall rest, q rest -> p (b ++ rest)) -> spells q (a ++ b) (ts ++ us).
  Proof.
    intros A B F rest off items Q W. rewrite blen_app, Nat.add_assoc in W. destruct (B rest (off + blen a) items Q W) as (i2 & W2 & M2).
    destruct (A (b ++ rest) off (i2 ++ items) (F rest Q) W2) as (i1 & W1 & M1). exists (i1 ++ i2). rewrite <- !app_assoc. split; [exact W1|].
    rewrite !map_app, M1, M2. reflexivity.
  Qed.
  Lemma anywhere stop s ts : spells anything s ts -> spells stop s ts.
  Proof. apply spells_weaken. intros. exact I. Qed.

  Lemma fresh_no_blank s rest : fresh s -> no_blank (s ++ rest).
  Proof. intros (c & r & -> & N) c' r' X. injection X as <- _. exact N. Qed.

  (** *** Words *)
  Lemma spells_word s t : word s -> lexeme s (tok t) -> spells after_word s [t].
  Proof. intros W H. apply spells_one; [exact H|]. intros rest A. eapply word_longest; eassumption. Qed.
  Lemma spells_alone c t : In c [45; 43; 42; 40; 41; 44; 58; 126]%N -> lexeme [c] (tok t) -> spells anything [c] [t].
  Proof. intros I H. apply spells_one; [exact H|]. intros rest _. eapply alone_longest; eassumption. Qed.
  Lemma spells_space : spells no_blank [32%N] [].
  Proof. apply spells_skip; [apply lx_blank; split; [discriminate|repeat constructor]|]. intros rest. apply (space_longest L UO). Qed.
  Lemma lit_space : lit " " = [32%N].
  Proof. reflexivity. Qed.
  Lemma symbol_lexeme s t : In (s, t) symbols -> lexeme s (tok t).
  Proof. apply lx_symbol. Qed.

  (** Something preceded by a space. *)
  Lemma spells_after_space stop s ts : spells stop s ts -> fresh s -> spells stop (32%N :: s) ts.
  Proof. intros S F. apply (spells_app no_blank stop [32%N] s [] ts); [apply spells_space|exact S|]. intros rest _. apply fresh_no_blank. exact F. Qed.
  Lemma spells_indent stop s ts : spells stop s ts -> fresh s -> spells stop (NEWLINE_INDENT ++ s) (T_EolThenIndent :: ts).
  Proof.
    intros S F. apply (spells_app no_blank stop NEWLINE_INDENT s [T_EolThenIndent] ts); [|exact S|intros rest _; apply fresh_no_blank; exact F].
    apply spells_one; [|intros rest; apply (indent_longest L UO)].
    apply (lx_indent L [10%N] [32; 32]%N); [|split; [discriminate|repeat constructor]].
    exists [], [10%N], []. split; [reflexivity|]. split; [auto|]. split; [left; reflexivity|constructor].
  Qed.

  (** What may come after words on a line, and after a line. *)
  Definition tail_word (b : str) (us : list token) : Prop := spells after_word b us /\ (b = [] \/ starts 32 b \/ starts 10 b).
  Definition tail_line (b : str) (us : list token) : Prop := spells after_line b us /\ (b = [] \/ starts 10 b).

  Lemma starts_app c b rest : starts c b -> starts c (b ++ rest).
  Proof. intros (r & ->). exists (r ++ rest). reflexivity. Qed.
  Lemma spells_then a b ts us : spells after_word a ts -> tail_word b us -> spells after_word (a ++ b) (ts ++ us).
  Proof.
    intros A [B H]. apply (spells_app after_word after_word); auto. intros rest R.
    destruct H as [->|[H|H]]; [exact R|right; left|right; right; left]; apply starts_app; exact H.
  Qed.
  Lemma tail_word_nil : tail_word [] [].
  Proof. split; [apply spells_nil|auto]. Qed.
  Lemma tail_word_app a b ts us : tail_word a ts -> tail_word b us -> tail_word (a ++ b) (ts ++ us).
  Proof.
    intros [A H] B. split; [apply spells_then; assumption|]. destruct H as [->|[H|H]]; [apply B|right; left|right; right]; apply starts_app; exact H.
  Qed.
  Lemma tail_word_space s ts : spells after_word s ts -> fresh s -> tail_word (32%N :: s) ts.
  Proof. intros S F. split; [apply spells_after_space; assumption|]. right. left. exists s. reflexivity. Qed.
  Lemma tail_line_nil : tail_line [] [].
  Proof. split; [apply spells_nil|auto]. Qed.
  Lemma tail_line_app a b ts us : tail_line a ts -> tail_line b us -> tail_line (a ++ b) (ts ++ us).
  Proof.
    intros [A H] [B H']. split.
    - apply (spells_app after_line after_line); auto. intros rest R. destruct H' as [->|H']; [exact R|right; apply starts_app; exact H'].
    - destruct H as [->|H]; [exact H'|right; apply starts_app; exact H].
  Qed.
  Lemma tail_line_indent s ts : spells after_line s ts -> fresh s -> tail_line (NEWLINE_INDENT ++ s) (T_EolThenIndent :: ts).
  Proof. intros S F. split; [apply spells_indent; assumption|]. right. exists (lit "  " ++ s). reflexivity. Qed.
  Lemma spells_line a b ts us : spells after_line a ts -> tail_line b us -> spells after_line (a ++ b) (ts ++ us).
  Proof. intros A [B H]. apply (spells_app after_line after_line); auto. intros rest R. destruct H as [->|H]; [exact R|right; apply starts_app; exact H]. Qed.
  Lemma word_line a ts : spells after_word a ts -> spells after_line a ts.
  Proof. apply spells_weaken. intros r. apply after_line_word. Qed.

  (** *** Tokens *)
  Context (D : display_env) (E : grammar_env) (names : account_type -> str)
          (Dok : display_ok D) (RD : reads_decimals (le_decimal L)).

  Lemma not_opening c : (33 <= c)%N -> c <> 34%N -> c <> 59%N -> ~ opening c.
  Proof. unfold opening. cbn. intuition lia. Qed.
  Lemma not_is_blank c : (33 <= c)%N -> ~ is_blank c.
  Proof. unfold is_blank. lia. Qed.

  Lemma word_fresh s : word s -> fresh s.
  Proof. intros (c & r & -> & N & _). exists c, r. split; [reflexivity|]. intro B. apply N. destruct B as [->| ->]; cbn; auto. Qed.

  Lemma currency_word c : currency_text c -> word c.
  Proof.
    intros [(a & r & -> & Ha & _)|(a & b & -> & _)]; [exists a, r|exists 47%N, (a ++ b)]; (split; [reflexivity|]);
      [unfold upper in Ha; split; [apply not_opening|]; lia|split; [apply not_opening; lia|lia]].
  Qed.
  Lemma spells_currency c : common_currency c -> spells after_word c [T_Currency c] /\ word c.
  Proof. intros (T & N & _). pose proof (currency_word c T). split; [|assumption]. apply spells_word; [assumption|]. apply lx_currency; assumption. Qed.

  Lemma account_word s : account_text L s -> word s.
  Proof.
    intro H. destruct (account_first _ _ H) as (c & r & -> & Hc). apply (letter_first L UO) in Hc. exists c, r. split; [reflexivity|]. split; [apply not_opening; lia|lia].
  Qed.
  Lemma spells_account a : common_account L E names a -> spells after_word (acc_name a) [T_Account (acc_name a)] /\ word (acc_name a).
  Proof. intros (T & _). pose proof (account_word _ T). split; [|assumption]. apply spells_word; [assumption|]. apply lx_account; assumption. Qed.

  Lemma spells_tag t : common_label E t -> spells after_word (display_tag t) [T_Tag t] /\ word (display_tag t).
  Proof.
    intros (T & _). assert (word (display_tag t)) by (exists 35%N, t; split; [reflexivity|]; split; [apply not_opening; lia|lia]).
    split; [|assumption]. apply spells_word; [assumption|]. apply lx_tag; assumption.
  Qed.
  Lemma spells_link t : common_label E t -> spells after_word (display_link t) [T_Link t] /\ word (display_link t).
  Proof.
    intros (T & _). assert (word (display_link t)) by (exists 94%N, t; split; [reflexivity|]; split; [apply not_opening; lia|lia]).
    split; [|assumption]. apply spells_word; [assumption|]. apply lx_link; assumption.
  Qed.
  Lemma clean_body s : ~ In 34%N s -> ~ In 92%N s -> string_body s.
  Proof. induction s as [|c s IH]; intros A B; constructor; cbn in *; try (intros ->; tauto). apply IH; tauto. Qed.
  Lemma spells_string s : clean s -> spells anything (double_quoted s) [T_String s] /\ fresh (double_quoted s).
  Proof.
    intros [A B]. split; [|exists 34%N, (s ++ quote); split; [reflexivity|apply not_is_blank; lia]].
    assert (H : lexeme (34%N :: s ++ [34%N]) (tok (T_String s))) by (apply lx_string; [apply clean_body; assumption|assumption]).
    apply spells_one; [exact H|]. intros rest _. eapply string_longest; eassumption.
  Qed.

  Lemma digits_ascii n s : List.length s = n -> Forall digit s -> digits L n s.
  Proof.
    intros Ls F. split; [exact Ls|]. eapply Forall_impl; [|exact F]. intros c Hc. unfold decimal_digit.
    destruct (ascii_class L UO c) as (_ & _ & _ & _ & ->); [unfold digit in Hc; lia|]. unfold is_ascii_digit. unfold digit in Hc.
    apply andb_true_iff. split; apply N.leb_le; lia.
  Qed.
  Lemma digit_word c r : digit c -> word (c :: r).
  Proof. unfold digit. intro H. exists c, r. split; [reflexivity|]. split; [apply not_opening; lia|lia]. Qed.
  Lemma spells_date d : common_date d -> spells after_word (de_date D d) [T_Date d] /\ word (de_date D d) /\
    exists c r, de_date D d = c :: r /\ digit c.
  Proof.
    destruct d as [y m d]. intros [C Y]. cbn in C, Y. destruct (do_date _ Dok y m d Y C) as (ys & ms & ds & -> & Ly & Lm & Ld & Fy & Fm & Fd & Vy & Vm & Vd).
    assert (F : exists c r, ys = c :: r /\ digit c) by (destruct ys as [|c r]; [discriminate|]; inversion Fy; subst; eauto).
    destruct F as (c & r & -> & Hc).
    assert (W : word ((c :: r) ++ 45%N :: ms ++ 45%N :: ds)) by (apply (digit_word c _ Hc)). split; [|split; [exact W|cbn [app]; eauto]].
    apply spells_word; [exact W|].
    apply (lx_date L (c :: r) 45%N ms 45%N ds (Fine (Ok (mk_date y m d)))); try (apply digits_ascii; assumption); auto.
    rewrite <- Vy, <- Vm, <- Vd. constructor; try assumption. rewrite Vy, Vm, Vd. exact C.
  Qed.
  Lemma spells_number d : common_number d -> spells after_word (de_decimal D d) [T_Number d] /\ word (de_decimal D d) /\
    exists c r, de_decimal D d = c :: r /\ digit c.
  Proof.
    destruct d as [neg m s]. intros (N & M & S). cbn in N, M, S. subst neg. destruct (do_decimal _ Dok m s M S) as (i & f & -> & Ni & Fi & Ff & Lf & V).
    assert (F : exists c r, i = c :: r /\ digit c) by (destruct i as [|c r]; [congruence|]; inversion Fi; subst; eauto).
    destruct F as (c & r & -> & Hc).
    assert (W : word ((c :: r) ++ match f with [] => [] | _ => 46%N :: f end)) by (apply (digit_word c _ Hc)). split; [|split; [exact W|cbn [app]; eauto]].
    apply spells_word; [exact W|].
    assert (Di : forall w, Forall digit w -> Forall (decimal_digit L) w) by (intros w Hw; exact (proj2 (digits_ascii _ w eq_refl Hw))).
    assert (NT : number_text L (c :: r) [] (match f with [] => None | _ => Some f end) ((c :: r) ++ match f with [] => [] | _ => 46%N :: f end)).
    { split; [discriminate|]. split; [apply Di; exact Fi|]. split; [constructor|]. split; [|destruct f; reflexivity].
      intros d Q. destruct f as [|x f]; [discriminate|]. injection Q as <-. split; [discriminate|apply Di; exact Ff]. }
    pose proof (lx_number L _ _ _ _ NT) as H. cbn [concat app] in H.
    replace (match match f with [] => None | _ => Some f end with Some d => 46%N :: d | None => [] end) with (match f with [] => [] | _ => 46%N :: f end) in H by (destruct f; reflexivity).
    pose proof (RD (c :: r) f ltac:(discriminate) Fi Ff ltac:(lia)) as R. rewrite V, Lf in R. specialize (R M). cbn [app] in R. rewrite R in H. exact H.
  Qed.

  Lemma spells_flag f : common_flag f -> spells after_word (display_flag f) [t_flag f] /\ word (display_flag f).
  Proof.
    intro H. assert (W : word (display_flag f)).
    { destruct f; cbn; eexists _, _; (split; [reflexivity|]; split; [apply not_opening; lia|lia]). }
    split; [|exact W]. apply spells_word; [exact W|]. destruct f; cbn in *; first [apply lx_flag; exact H | apply lx_symbol; cbn; auto 30].
  Qed.
  Lemma spells_keyword k : spells after_word (keyword_text k) [T_Keyword k] /\ word (keyword_text k).
  Proof.
    assert (W : word (keyword_text k)) by (destruct k; cbn; eexists _, _; (split; [reflexivity|]; split; [apply not_opening; lia|lia])).
    split; [|exact W]. apply spells_word; [exact W|]. apply lx_keyword.
  Qed.

  (** A key, with its colon. *)
  Lemma key_not_colon s u o : key_text s -> ~ lexeme (s ++ 58%N :: u) o.
  Proof.
    intros [(c & r & -> & Hc & Hr) _] H. unfold lower in Hc.
    remember ((c :: r) ++ 58%N :: u) as w eqn:Ew.
    assert (In58 : In 58%N w) by (subst w; apply in_or_app; right; left; reflexivity).
    assert (First : exists q, w = c :: q) by (subst w; eexists; reflexivity). clear Ew. destruct First as [q Ew].
    assert (Dg : forall n x y, digits L (S n) x -> w = x ++ y -> False).
    { intros n x y Hx Q. destruct (digits_first _ _ _ Hx) as (a & z & -> & Ha). rewrite Ew in Q. injection Q as -> _. apply (digit_first L UO) in Ha. lia. }
    destruct H.
    - subst s. destruct H as [_ F]. inversion F as [|? ? B _]; subst. unfold is_blank in B. lia.
    - cbn in H. repeat (destruct H as [H|H]; [injection H as <- <-; injection Ew as <- _; lia|]). destruct H.
    - destruct k; cbn in In58; intuition discriminate.
    - destruct H as [(a & z & -> & Ha & _)|(a & b & -> & _)]; injection Ew as Ea _; unfold upper in *; lia.
    - injection Ew as <- _. lia.
    - eapply Dg; [exact H|reflexivity].
    - destruct H as [H|H]; (eapply Dg; [exact H|reflexivity]).
    - destruct H as [H|H]; (eapply Dg; [exact H|reflexivity]).
    - destruct (account_first _ _ H) as (a & z & -> & Ha). injection Ew as -> _. apply (letter_first L UO) in Ha. lia.
    - injection Ew as <- _. lia.
    - injection Ew as <- _. lia.
    - destruct (number_first _ _ _ _ _ H) as (a & z & -> & Ha). injection Ew as -> _. apply (digit_first L UO) in Ha. lia.
    - injection Ew as <- _. lia.
    - injection Ew as <- _. lia.
    - destruct H as [(a & z & -> & Ha & Hz) _]. destruct In58 as [X|X]; [injection Ew as -> _; lia|]. rewrite Forall_forall in Hz. specialize (Hz _ X).
      unfold identifier_char, upper, lower, digit in Hz. intuition lia.
    - destruct (line_break_opens s b H) as (a & z & X & Ho). rewrite X in Ew. injection Ew as -> _. unfold opening in Ho. cbn in Ho. intuition lia.
    - destruct (line_break_opens s [] H) as (a & z & X & Ho). rewrite app_nil_r in X. rewrite X in Ew. injection Ew as -> _. unfold opening in Ho. cbn in Ho. intuition lia.
    - injection Ew as <- _. lia.
  Qed.
  Lemma key_lexeme s : key_text s -> lexeme s (tok (raw_key s)).
  Proof.
    intro H. unfold raw_key. destruct (keyword_of s) as [k|] eqn:K.
    - apply keyword_of_some in K. subst s. apply lx_keyword.
    - apply lx_key; [exact H|apply keyword_of_none; exact K].
  Qed.
  Lemma spells_key s : key_text s -> spells (starts 58) s [raw_key s] /\ word s.
  Proof.
    intro H. split.
    - apply spells_one; [apply key_lexeme; exact H|]. intros rest (r & ->). apply (longest_by L _ _ (tok (raw_key s))).
      + destruct H as [(c & q & -> & _) _]. discriminate.
      + apply key_lexeme. exact H.
      + intros c u v o Er X. injection Er as <- _. exact (key_not_colon s u o H X).
    - destruct H as [(c & q & -> & Hc & _) _]. unfold lower in Hc. exists c, q. split; [reflexivity|]. split; [apply not_opening; lia|lia].
  Qed.

  (** *** Expressions *)
  Lemma spells_spaced (c : N) t stop w ts : In c [45; 43; 42; 40; 41; 44; 58; 126]%N \/ word [c] -> lexeme [c] (tok t) -> ~ is_blank c ->
    spells stop w ts -> fresh w -> spells stop (32%N :: c :: 32%N :: w) (t :: ts).
  Proof.
    intros Hc Hl Nb Sw Fw.
    assert (A : spells after_word [c] [t]).
    { destruct Hc as [Hc|Hc]; [apply anywhere, spells_alone; assumption|apply spells_word; assumption]. }
    apply (spells_after_space stop (c :: 32%N :: w)); [|exists c; eexists; split; [reflexivity|exact Nb]].
    apply (spells_app after_word stop [c] (32%N :: w) [t] ts); [exact A|apply spells_after_space; assumption|].
    intros rest _. right. left. eexists. reflexivity.
  Qed.
  Lemma spells_operator c t a b ts us : In c [45; 43; 42; 40; 41; 44; 58; 126]%N \/ word [c] -> lexeme [c] (tok t) -> ~ is_blank c ->
    spells after_word a ts -> spells after_word b us -> fresh b -> spells after_word (a ++ 32%N :: c :: 32%N :: b) (ts ++ t :: us).
  Proof.
    intros Hc Hl Nb A B Fb. apply (spells_app after_word after_word); [exact A|eapply spells_spaced; eassumption|].
    intros rest _. right. left. eexists. reflexivity.
  Qed.

  (** What an expression starts with. *)
  Lemma expr_starts e : common_numbers e -> exists c r, display_expr D e = c :: r /\ (digit c \/ c = 45%N \/ c = 40%N).
  Proof.
    induction e as [d|a IHa b _|a IHa b _|a IHa b _|a IHa b _|a _|a _]; cbn [display_expr common_numbers].
    - intro H. destruct (spells_number d H) as (_ & _ & c & r & -> & Hc). eauto.
    - intros [H _]. destruct (IHa H) as (c & r & -> & Hc). eexists _, _. split; [reflexivity|exact Hc].
    - intros [H _]. destruct (IHa H) as (c & r & -> & Hc). eexists _, _. split; [reflexivity|exact Hc].
    - intros [H _]. destruct (IHa H) as (c & r & -> & Hc). eexists _, _. split; [reflexivity|exact Hc].
    - intros [H _]. destruct (IHa H) as (c & r & -> & Hc). eexists _, _. split; [reflexivity|exact Hc].
    - intros _. exists 45%N. eexists. split; [reflexivity|auto].
    - intros _. exists 40%N. eexists. split; [reflexivity|auto].
  Qed.
  Lemma expr_fresh e : common_numbers e -> fresh (display_expr D e).
  Proof. intro H. destruct (expr_starts e H) as (c & r & -> & Hc). exists c, r. split; [reflexivity|]. apply not_is_blank. unfold digit in Hc. lia. Qed.

  Lemma spells_expr e : common_numbers e -> spells after_word (display_expr D e) (written_with e).
  Proof.
    induction e as [d|a IHa b IHb|a IHa b IHb|a IHa b IHb|a IHa b IHb|a IHa|a IHa]; cbn [common_numbers display_expr written_with].
    - intro H. apply spells_number. exact H.
    - intros [Ha Hb]. apply (spells_operator 43%N T_Plus); auto; [left; cbn; auto 10|apply lx_symbol; cbn; auto 30|apply not_is_blank; lia|apply expr_fresh; exact Hb].
    - intros [Ha Hb]. apply (spells_operator 45%N T_Minus); auto; [left; cbn; auto 10|apply lx_symbol; cbn; auto 30|apply not_is_blank; lia|apply expr_fresh; exact Hb].
    - intros [Ha Hb]. apply (spells_operator 42%N T_Asterisk); auto; [left; cbn; auto 10|apply lx_symbol; cbn; auto 30|apply not_is_blank; lia|apply expr_fresh; exact Hb].
    - intros [Ha Hb]. apply (spells_operator 47%N T_Slash); auto; [right|apply lx_symbol; cbn; auto 30|apply not_is_blank; lia|apply expr_fresh; exact Hb].
      exists 47%N, []. split; [reflexivity|]. split; [apply not_opening; lia|lia].
    - intro H. apply (spells_app anything after_word [45%N] _ [T_Minus]); [|auto|intros; exact I].
      apply spells_alone; [cbn; auto|apply lx_symbol; cbn; auto 30].
    - intro H. apply (spells_app anything after_word [40%N] _ [T_Lparen]); [apply spells_alone; [cbn; auto 10|apply lx_symbol; cbn; auto 30]| |intros; exact I].
      apply (spells_app after_word after_word); [auto|apply anywhere, spells_alone; [cbn; auto 10|apply lx_symbol; cbn; auto 30]|].
      intros rest _. right. right. right. left. eexists. reflexivity.
  Qed.
  Lemma spells_value v : common_value E v -> spells after_word (display_value D v) (t_value v) /\ fresh (display_value D v).
  Proof. intros (_ & H & _). split; [apply spells_expr|apply expr_fresh]; exact H. Qed.

  Lemma fresh_app a b : fresh a -> fresh (a ++ b).
  Proof. intros (c & r & -> & N). exists c. eexists. split; [reflexivity|exact N]. Qed.

  Lemma spells_amount a : common_amount E a -> spells after_word (display_amount D a) (t_amount a) /\ fresh (display_amount D a).
  Proof.
    intros [V C]. destruct (spells_value _ V) as [Sv Fv]. destruct (spells_currency _ C) as [Sc Wc]. split; [|apply fresh_app; exact Fv].
    apply spells_then; [exact Sv|]. apply tail_word_space; [exact Sc|apply word_fresh; exact Wc].
  Qed.
  Lemma spells_amount_tol a : common_amount E (item (at_amount a)) -> at_tolerance a = None ->
    spells after_word (display_amount_tol D a) (t_amount_tol a) /\ fresh (display_amount_tol D a).
  Proof. unfold display_amount_tol, t_amount_tol. intros H ->. apply spells_amount. exact H. Qed.

  Lemma spells_symbol s t : word s -> In (s, t) symbols -> spells after_word s [t].
  Proof. intros W H. apply spells_word; [exact W|apply lx_symbol; exact H]. Qed.
  Ltac sym_word := eexists _, _; (split; [reflexivity|]; split; [apply not_opening; lia|lia]).

  Lemma spells_simple v : common_simple L E names v -> spells after_word (display_simple D v) (t_simple v) /\ fresh (display_simple D v).
  Proof.
    destruct v as [s|c|a|t|l|d|b| |v]; cbn [common_simple display_simple t_simple]; intro H.
    - destruct (spells_string s H) as [S F]. split; [apply anywhere; exact S|exact F].
    - destruct (spells_currency c H) as [S W]. split; [exact S|apply word_fresh; exact W].
    - destruct (spells_account a H) as [S W]. split; [exact S|apply word_fresh; exact W].
    - destruct (spells_tag t H) as [S W]. split; [exact S|apply word_fresh; exact W].
    - destruct (spells_link l H) as [S W]. split; [exact S|apply word_fresh; exact W].
    - destruct (spells_date d H) as (S & W & _). split; [exact S|apply word_fresh; exact W].
    - assert (W : word (if b then lit "TRUE" else lit "FALSE")) by (destruct b; cbn; sym_word). split; [|apply word_fresh; exact W].
      apply spells_symbol; [exact W|destruct b; cbn; auto 30].
    - assert (W : word (lit "NULL")) by (cbn; sym_word). split; [|apply word_fresh; exact W]. apply spells_symbol; [exact W|cbn; auto 30].
    - apply spells_value. exact H.
  Qed.
  Lemma spells_meta_value v : common_meta_value L E names v -> spells after_word (display_meta_value D v) (t_meta_value v) /\ fresh (display_meta_value D v).
  Proof. destruct v as [v|a]; [apply spells_simple|apply spells_amount]. Qed.

  Lemma spells_key_value kv : common_key E (item (fst kv)) -> common_meta_value L E names (item (snd kv)) ->
    spells after_word (key_value (display_key (item (fst kv))) (display_meta_value D (item (snd kv)))) (t_key_value raw_key kv) /\
    fresh (key_value (display_key (item (fst kv))) (display_meta_value D (item (snd kv)))).
  Proof.
    intros [K _] V. destruct (spells_key _ K) as [Sk Wk]. destruct (spells_meta_value _ V) as [Sv Fv]. unfold key_value, display_key, t_key_value.
    split; [|apply fresh_app, word_fresh; exact Wk].
    apply (spells_app (starts 58) after_word _ (lit ": " ++ display_meta_value D (item (snd kv))) [raw_key (item (fst kv))] (T_Colon :: t_meta_value (item (snd kv)))).
    - exact Sk.
    - apply (spells_app anything after_word [58%N] (32%N :: display_meta_value D (item (snd kv))) [T_Colon]); [|apply spells_after_space; assumption|intros; exact I].
      apply spells_alone; [cbn; auto 10|apply lx_symbol; cbn; auto 30].
    - intros rest _. eexists. reflexivity.
  Qed.

  (** *** Sequences *)
  Lemma format_same {T} (l : list T) m sep : format l m sep (Some sep) = flat_map (fun x => sep ++ m x) l.
  Proof. destruct l as [|x l]; [reflexivity|]. cbn. rewrite <- app_assoc. reflexivity. Qed.

  Lemma tail_words {T} (l : list T) m t : (forall x, In x l -> spells after_word (m x) (t x) /\ fresh (m x)) ->
    tail_word (flat_map (fun x => SPACE ++ m x) l) (flat_map t l).
  Proof.
    induction l as [|x l IH]; intro H; cbn [flat_map]; [apply tail_word_nil|]. apply tail_word_app; [|apply IH; intros; apply H; right; assumption].
    destruct (H x (or_introl eq_refl)) as [S F]. apply tail_word_space; assumption.
  Qed.
  Lemma tail_lines {T} (l : list T) m t : (forall x, In x l -> spells after_line (m x) (t x) /\ fresh (m x)) ->
    tail_line (flat_map (fun x => NEWLINE_INDENT ++ m x) l) (flat_map (fun x => T_EolThenIndent :: t x) l).
  Proof.
    induction l as [|x l IH]; intro H; cbn [flat_map]; [apply tail_line_nil|].
    apply (tail_line_app _ _ (T_EolThenIndent :: t x) _); [|apply IH; intros; apply H; right; assumption].
    destruct (H x (or_introl eq_refl)) as [S F]. apply tail_line_indent; assumption.
  Qed.

  Lemma flat_map_single {X Y} (f : X -> Y) l : flat_map (fun x => [f x]) l = map f l.
  Proof. induction l as [|x l IH]; cbn; [reflexivity|]. rewrite IH. reflexivity. Qed.

  Lemma ordered_all {X} (P : X -> Prop) l l' : Permutation l l' -> Forall P l -> forall x, In x l' -> P x.
  Proof. intros Pm F x Hx. rewrite Forall_forall in F. apply F. eapply Permutation_in; [apply Permutation_sym; exact Pm|exact Hx]. Qed.

  (** *** Metadata *)
  Notation tags_of m := (de_set_order D (md_tags m)).
  Notation links_of m := (de_set_order D (md_links m)).
  Notation kvs_of m := (de_map_order D (md_key_values m)).

  Lemma tail_marks m : common_metadata L E names m -> tail_word (fmt_tags_links_inline D m) (t_marks (tags_of m) (links_of m)).
  Proof.
    intros [_ Ct Cl _ _ _]. unfold fmt_tags_links_inline, t_marks. rewrite !format_same. apply tail_word_app.
    - rewrite <- flat_map_single. apply tail_words. intros x Hx. apply (ordered_all _ _ _ (do_set _ Dok _) Ct) in Hx.
      destruct (spells_tag _ Hx) as [S W]. split; [exact S|apply word_fresh; exact W].
    - rewrite <- flat_map_single. apply tail_words. intros x Hx. apply (ordered_all _ _ _ (do_set _ Dok _) Cl) in Hx.
      destruct (spells_link _ Hx) as [S W]. split; [exact S|apply word_fresh; exact W].
  Qed.

  Definition indented_lines (ls : list (list token)) : list token := flat_map (fun l => T_EolThenIndent :: l) ls.
  Lemma indented_lines_app a b : indented_lines (a ++ b) = indented_lines a ++ indented_lines b.
  Proof. apply flat_map_app. Qed.
  Lemma indented_lines_map {X} (f : X -> list token) l : indented_lines (map f l) = flat_map (fun x => T_EolThenIndent :: f x) l.
  Proof. induction l as [|x l IH]; cbn; [reflexivity|]. rewrite <- IH. reflexivity. Qed.

  Lemma tail_mark_lines m : common_metadata L E names m ->
    tail_line (fmt_tags_links_on_separate_lines D m) (indented_lines (l_marks (tags_of m) (links_of m))).
  Proof.
    intros [_ Ct Cl _ _ _]. unfold fmt_tags_links_on_separate_lines, l_marks. rewrite !format_same, indented_lines_app, !indented_lines_map. apply tail_line_app.
    - apply tail_lines. intros x Hx. apply (ordered_all _ _ _ (do_set _ Dok _) Ct) in Hx.
      destruct (spells_tag _ Hx) as [S W]. split; [apply word_line; exact S|apply word_fresh; exact W].
    - apply tail_lines. intros x Hx. apply (ordered_all _ _ _ (do_set _ Dok _) Cl) in Hx.
      destruct (spells_link _ Hx) as [S W]. split; [apply word_line; exact S|apply word_fresh; exact W].
  Qed.
  Lemma tail_keys m : common_metadata L E names m ->
    tail_line (fmt_keys_values D m) (indented_lines (map (t_key_value raw_key) (kvs_of m))).
  Proof.
    intros [Ck _ _ _ _ _]. unfold fmt_keys_values. rewrite format_same, indented_lines_map.
    apply tail_lines. intros x Hx. apply (ordered_all _ _ _ (do_map _ Dok _) Ck) in Hx. destruct Hx as [A B].
    destruct (spells_key_value x A B) as [S F]. split; [apply word_line; exact S|exact F].
  Qed.
  Lemma tail_metadata m : common_metadata L E names m ->
    tail_line (display_metadata D m) (indented_lines (l_metadata raw_key (tags_of m) (links_of m) (kvs_of m))).
  Proof.
    intro H. unfold display_metadata, l_metadata. rewrite app_assoc, indented_lines_app. apply tail_line_app; [apply tail_mark_lines|apply tail_keys]; exact H.
  Qed.
End Spelling.
