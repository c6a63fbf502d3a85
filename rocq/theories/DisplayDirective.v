(** * The tokens of displayed directives *)
From Coq Require Import String Ascii.
From Coq Require Import List NArith Arith Bool Lia Permutation.
From Verif Require Import Base BaseFacts Types SpecTypes Decimal SpecDecimal Token SpecOptions SpecLex Lexer Grammar SpecGrammar SpecExpr SpecLexer LexerFacts Display SpecDisplay DisplayLex DisplayText.
Import ListNotations.
Local Open Scope nat_scope.

(** ** The tokens *)
Definition t_options {A} (f : A -> list token) (o : option (spanned A)) : list token :=
  match o with Some x => f (item x) | None => [] end.

Section Tokens.
  Context (D : display_env) (key : str -> token).
  Notation tags_of m := (de_set_order D (md_tags m)).
  Notation links_of m := (de_set_order D (md_links m)).
  Notation kvs_of m := (de_map_order D (md_key_values m)).

  Definition t_posting (p : posting) : list token :=
    t_options (fun f => [t_flag f]) (po_flag p) ++ [T_Account (acc_name (item (po_account p)))] ++
    t_options t_value (po_amount p) ++ t_options (fun c => [T_Currency c]) (po_currency p) ++
    t_options t_cost (po_cost_spec p) ++ t_options (fun x => T_At :: t_price x) (po_price p).
  Definition l_of_metadata (m : metadata) : list (list token) := l_metadata key (tags_of m) (links_of m) (kvs_of m).
  Definition l_posting (p : posting) : list (list token) := t_posting p :: l_of_metadata (item (po_metadata p)).

  Definition t_of_marks (m : metadata) : list token := t_marks (tags_of m) (links_of m).
  Definition l_of_keys (m : metadata) : list (list token) := map (t_key_value key) (kvs_of m).

  Definition t_fields (v : variant) : list token :=
    match v with
    | V_Transaction f p n _ =>
        t_flag (item f) :: t_options (fun s => [T_String s]) p ++ t_options (fun s => [T_String s]) n ++
        match p, n with Some _, None => [T_String []] | _, _ => [] end
    | V_Price c a => T_Keyword K_Price :: T_Currency (item c) :: t_amount (item a)
    | V_Balance a t => T_Keyword K_Balance :: T_Account (acc_name (item a)) :: t_amount_tol (item t)
    | V_Open a cs b => T_Keyword K_Open :: T_Account (acc_name (item a)) ::
        between [T_Comma] (map (fun c => [T_Currency (item c)]) (de_set_order D cs)) ++
        t_options (fun b => [T_String (booking_name b)]) b
    | V_Close a => [T_Keyword K_Close; T_Account (acc_name (item a))]
    | V_Commodity c => [T_Keyword K_Commodity; T_Currency (item c)]
    | V_Pad a s => [T_Keyword K_Pad; T_Account (acc_name (item a)); T_Account (acc_name (item s))]
    | V_Document a s => [T_Keyword K_Document; T_Account (acc_name (item a)); T_String (item s)]
    | V_Note a s => [T_Keyword K_Note; T_Account (acc_name (item a)); T_String (item s)]
    | V_Event a s => [T_Keyword K_Event; T_String (item a); T_String (item s)]
    | V_Query a s => [T_Keyword K_Query; T_String (item a); T_String (item s)]
    | V_Custom t vs => T_Keyword K_Custom :: T_String (item t) :: flat_map (fun v => t_meta_value (item v)) vs
    end.
  Definition t_header (d : directive) : list token :=
    T_Date (item (dir_date d)) :: t_fields (dir_variant d) ++
    match dir_variant d with V_Custom _ _ => [] | _ => t_of_marks (item (dir_metadata d)) end.
  Definition l_directive (d : directive) : list (list token) :=
    match dir_variant d with
    | V_Custom _ _ => l_of_metadata (item (dir_metadata d))
    | V_Transaction _ _ _ ps => l_of_keys (item (dir_metadata d)) ++ flat_map (fun p => l_posting (item p)) ps
    | _ => l_of_keys (item (dir_metadata d))
    end.
  Definition t_directive (d : directive) : list token := t_header d ++ indented_lines (l_directive d).
End Tokens.

Section Spelling.
  Context (L : lexer_env) (UO : unicode_ok (le_unicode L)).
  Notation lexeme := (lexeme L).
  Notation spells := (spells L).
  Context (D : display_env) (E : grammar_env) (names : account_type -> str)
          (Dok : display_ok D) (RD : reads_decimals (le_decimal L)).
  Notation tail_word := (tail_word L).
  Notation tail_line := (tail_line L).
  Ltac sym_word := eexists _, _; (split; [reflexivity|]; split; [apply not_opening; lia|lia]).

  (** *** Cost *)
  Definition piece (w : str) (ts : list token) : Prop :=
    spells after_word w ts /\ exists c r, w = c :: r /\ ~ is_blank c /\ c <> 123%N.
  Lemma piece_fresh w ts : piece w ts -> fresh w.
  Proof. intros (_ & c & r & -> & N & _). exists c, r. auto. Qed.

  Lemma between_words ws tss : Forall2 piece ws tss -> ws <> [] -> piece (between (lit " ") ws) (between [] tss).
  Proof.
    intro F. induction F as [|w ts ws tss P F IH]; [congruence|]. intros _. destruct F as [|w' ts' ws tss P' F]; [exact P|].
    specialize (IH ltac:(discriminate)). pose proof (piece_fresh _ _ IH) as Fr. destruct P as (S & c & r & -> & N & Nc). split.
    - change (between (lit " ") ((c :: r) :: w' :: ws)) with ((c :: r) ++ 32%N :: between (lit " ") (w' :: ws)).
      change (between [] (ts :: ts' :: tss)) with (ts ++ between [] (ts' :: tss)).
      apply spells_then; [exact S|]. apply tail_word_space; [exact UO|apply IH|exact Fr].
    - exists c. eexists. split; [reflexivity|auto].
  Qed.
  Lemma between_commas ws tss : Forall2 piece ws tss -> ws <> [] -> piece (between (lit ", ") ws) (between [T_Comma] tss).
  Proof.
    intro F. induction F as [|w ts ws tss P F IH]; [congruence|]. intros _. destruct F as [|w' ts' ws tss P' F]; [exact P|].
    specialize (IH ltac:(discriminate)). pose proof (piece_fresh _ _ IH) as Fr. destruct P as (S & c & r & -> & N & Nc). split.
    - change (between (lit ", ") ((c :: r) :: w' :: ws)) with ((c :: r) ++ [44%N] ++ 32%N :: between (lit ", ") (w' :: ws)).
      change (between [T_Comma] (ts :: ts' :: tss)) with (ts ++ [T_Comma] ++ between [T_Comma] (ts' :: tss)).
      apply (spells_app L after_word after_word); [exact S| |intros rest _; do 5 right; eexists; reflexivity].
      apply (spells_app L anything after_word); [|apply spells_after_space; [exact UO|apply IH|exact Fr]|intros; exact I].
      apply spells_alone; [exact UO|cbn; auto 10|apply lx_symbol; cbn; auto 30].
    - exists c. eexists. split; [reflexivity|auto].
  Qed.

  Definition s_cost_parts (c : cost_spec) : list str :=
    cost_parts (display_value D) (fun _ => lit "# ") (fun s => s) (de_date D) double_quoted (lit "*") (lit " ") c.
  Lemma display_cost_parts c : display_cost D c = 123%N :: between (lit ", ") (s_cost_parts c) ++ lit "}".
  Proof.
    unfold display_cost, s_cost_parts, cost_parts, amount_parts, display_currency, double_quoted.
    destruct (cs_per_unit c), (cs_total c), (cs_currency c), (cs_date c), (cs_label c), (cs_merge c); unfold quote; repeat (progress (cbn; rewrite <- ?app_assoc)); reflexivity.
  Qed.

  Lemma piece_value v : common_value E v -> piece (display_value D v) (t_value v).
  Proof.
    intro H. destruct (spells_value L UO D E Dok RD v H) as [S _]. split; [exact S|]. destruct H as (_ & H & _).
    destruct (expr_starts L UO D Dok RD _ H) as (c & r & Q & Hc). exists c, r. split; [exact Q|]. unfold digit in Hc. split; [apply not_is_blank; lia|lia].
  Qed.
  Lemma piece_hash v : common_value E v -> piece (lit "# " ++ display_value D v) (T_Hash :: t_value v).
  Proof.
    intro H. destruct (spells_value L UO D E Dok RD v H) as [S F]. split; [|exists 35%N; eexists; split; [reflexivity|]; split; [apply not_is_blank; lia|lia]].
    apply (spells_app L after_word after_word [35%N] (32%N :: display_value D v) [T_Hash]).
    - apply spells_symbol; [exact UO|sym_word|cbn; auto 30].
    - apply spells_after_space; assumption.
    - intros rest _. right. left. eexists. reflexivity.
  Qed.
  Lemma word_piece w ts : spells after_word w ts -> word w -> (forall r, w <> 123%N :: r) -> piece w ts.
  Proof. intros S W N. split; [exact S|]. destruct (word_fresh w W) as (c & r & -> & Nb). exists c, r. split; [reflexivity|]. split; [exact Nb|]. intros ->. exact (N r eq_refl). Qed.
  Lemma piece_currency c : common_currency c -> piece c [T_Currency c].
  Proof.
    intro H. destruct (spells_currency L UO c H) as [S W]. apply word_piece; auto. intros r ->.
    destruct H as ([(a & q & X & Ha & _)|(a & b & X & _)] & _); injection X as X _; [unfold upper in Ha; subst; lia|discriminate].
  Qed.
  Lemma piece_date d : common_date d -> piece (de_date D d) [T_Date d].
  Proof. intro H. destruct (spells_date L UO D Dok d H) as (S & W & c & r & Q & Hc). apply word_piece; auto. intros q X. rewrite Q in X. injection X as -> _. unfold digit in Hc. lia. Qed.
  Lemma piece_string s : clean s -> piece (double_quoted s) [T_String s].
  Proof. intro H. destruct (spells_string L UO s H) as [S _]. split; [apply anywhere; exact S|]. exists 34%N. eexists. split; [reflexivity|]. split; [apply not_is_blank; lia|lia]. Qed.
  Lemma piece_star : piece (lit "*") [T_Asterisk].
  Proof. split; [apply anywhere, spells_alone; [exact UO|cbn; auto|apply lx_symbol; cbn; auto 30]|]. exists 42%N, []. split; [reflexivity|]. split; [apply not_is_blank; lia|lia]. Qed.

  Lemma cost_pieces c : common_cost E c -> Forall2 piece (s_cost_parts c) (t_cost_parts c).
  Proof.
    intros (A & B & C & Dt & Lb). unfold s_cost_parts, t_cost_parts, cost_parts.
    assert (F : Forall2 piece (amount_parts (display_value D) (fun _ => lit "# ") (fun s => s) c) (amount_parts t_value (fun _ => [T_Hash]) (fun s => [T_Currency s]) c)).
    { unfold amount_parts. apply Forall2_app; [|apply Forall2_app].
      - destruct (cs_per_unit c); constructor; [apply piece_value; exact A|constructor].
      - destruct (cs_total c); constructor; [apply (piece_hash (item s)); exact B|constructor].
      - destruct (cs_currency c); constructor; [apply piece_currency; exact C|constructor]. }
    apply Forall2_app; [|apply Forall2_app; [|apply Forall2_app]].
    - destruct F as [|w ts ws tss P F]; [constructor|]. constructor; [|constructor]. apply between_words; [constructor; assumption|discriminate].
    - destruct (cs_date c); constructor; [apply piece_date; exact Dt|constructor].
    - destruct (cs_label c); constructor; [apply piece_string; exact Lb|constructor].
    - destruct (cs_merge c); constructor; [apply piece_star|constructor].
  Qed.

  (** After a cost: the end, a space, the end of the line. *)
  Definition after_text (rest : str) : Prop := rest = [] \/ starts 32 rest \/ starts 10 rest.
  Lemma after_text_word rest : after_text rest -> after_word rest.
  Proof. unfold after_text, after_word. tauto. Qed.

  Lemma spells_cost_text c : common_cost E c -> spells after_text (display_cost D c) (t_cost c).
  Proof.
    intro H. pose proof (cost_pieces c H) as F. rewrite display_cost_parts. unfold t_cost.
    assert (Sl : spells (fun rest => ~ starts 123 rest) [123%N] [T_Lcurl]).
    { assert (X : lexeme [123%N] (tok T_Lcurl)) by (apply lx_symbol; cbn; auto 30). apply spells_one; [exact X|]. intros rest N. eapply lcurl_longest; eassumption. }
    assert (Sr : spells after_text (lit "}") [T_Rcurl]).
    { assert (X : lexeme (lit "}") (tok T_Rcurl)) by (apply lx_symbol; cbn; auto 30). apply spells_one; [exact X|]. intros rest N. eapply rcurl_longest; [exact UO|eassumption|].
      intros (r & ->). destruct N as [N|[(q & N)|(q & N)]]; discriminate. }
    apply (spells_app L (fun rest => ~ starts 123 rest) after_text [123%N] _ [T_Lcurl]); [exact Sl| |].
    - destruct F as [|w ts ws tss P F]; [exact Sr|].
      apply (spells_app L after_word after_text); [|exact Sr|intros rest _; do 4 right; left; eexists; reflexivity].
      apply between_commas; [constructor; assumption|discriminate].
    - intros rest _ (r & X). destruct F as [|w ts ws tss P F]; [discriminate|].
      destruct (between_commas (w :: ws) (ts :: tss) ltac:(constructor; assumption) ltac:(discriminate)) as (_ & c0 & r0 & Q & _ & N).
      rewrite Q in X. injection X as -> _. apply N. reflexivity.
  Qed.

  (** *** Price *)
  Lemma spells_price p : common_price E p -> spells after_line (lit " @ " ++ display_price D p) (T_At :: t_price p).
  Proof.
    intro H. apply (spells_after_space L UO after_line (64%N :: 32%N :: display_price D p)); [|exists 64%N; eexists; split; [reflexivity|apply not_is_blank; lia]].
    apply (spells_app L after_word after_line [64%N] (32%N :: display_price D p) [T_At]); [apply spells_symbol; [exact UO|sym_word|cbn; auto 30]| |intros rest _; right; left; eexists; reflexivity].
    destruct p as [|c|e|e c]; cbn [display_price t_price common_price] in *.
    - apply (spells_weaken L no_blank); [intros r; apply after_line_blank|apply spells_space; exact UO].
    - destruct (spells_currency L UO c H) as [S W]. apply spells_after_space; [exact UO|apply word_line; exact S|apply word_fresh; exact W].
    - destruct e as [v|v]; [|destruct H]. cbn in *. destruct (spells_value L UO D E Dok RD v H) as [S F]. apply spells_after_space; [exact UO|apply word_line; exact S|exact F].
    - destruct H as [H C]. destruct e as [v|v]; [|destruct H]. cbn [display_scoped t_scoped]. cbn in H. destruct (spells_value L UO D E Dok RD v H) as [S F].
      destruct (spells_currency L UO c C) as [Sc W]. apply spells_after_space; [exact UO| |apply fresh_app; exact F].
      apply word_line. apply spells_then; [exact S|]. apply tail_word_space; [exact UO|exact Sc|apply word_fresh; exact W].
  Qed.

  (** *** Postings *)
  Lemma tail_option {A} (o : option (spanned A)) m t : (forall x, o = Some x -> spells after_word (m (item x)) (t (item x)) /\ fresh (m (item x))) ->
    tail_word (simple_format (option_list o) (fun x => m (item x)) (Some (lit " "))) (t_options t o).
  Proof.
    intro H. destruct o as [x|]; [|apply tail_word_nil]. cbn. rewrite app_nil_r. destruct (H x eq_refl) as [S F]. apply tail_word_space; assumption.
  Qed.
  Lemma format_option {A} (o : option A) m sep p : format (option_list o) m sep p = simple_format (option_list o) m p.
  Proof. destruct o; reflexivity. Qed.

  Lemma spells_posting p : common_posting L E names p ->
    spells after_line (display_posting D p) (t_posting p ++ indented_lines (l_of_metadata D raw_key (item (po_metadata p)))) /\
    fresh (display_posting D p).
  Proof.
    intros [Cf Ca Cv Cc Ck Cp Cm]. unfold display_posting, t_posting.
    destruct (spells_account L UO E names _ Ca) as [Sa Wa].
    assert (Tv : tail_word (simple_format (option_list (po_amount p)) (fun v => display_value D (item v)) (Some (lit " "))) (t_options t_value (po_amount p))).
    { apply tail_option. intros x Q. rewrite Q in Cv. apply (spells_value L UO D E Dok RD). exact Cv. }
    assert (Tc : tail_word (simple_format (option_list (po_currency p)) (fun c => display_currency (item c)) (Some (lit " "))) (t_options (fun c => [T_Currency c]) (po_currency p))).
    { apply (tail_option _ (fun c => c)). intros x Q. rewrite Q in Cc. destruct (spells_currency L UO _ Cc) as [S W]. split; [exact S|apply word_fresh; exact W]. }
    assert (Sk : spells after_text (simple_format (option_list (po_cost_spec p)) (fun c => display_cost D (item c)) (Some (lit " "))) (t_options t_cost (po_cost_spec p)) /\
      (simple_format (option_list (po_cost_spec p)) (fun c => display_cost D (item c)) (Some (lit " ")) = [] \/ starts 32 (simple_format (option_list (po_cost_spec p)) (fun c => display_cost D (item c)) (Some (lit " "))))).
    { destruct (po_cost_spec p) as [k|]; [|split; [apply spells_nil|auto]]. cbn. rewrite app_nil_r. split; [|right; eexists; reflexivity].
      apply spells_after_space; [exact UO|apply spells_cost_text; exact Ck|]. rewrite display_cost_parts. exists 123%N. eexists. split; [reflexivity|apply not_is_blank; lia]. }
    assert (Sp : spells after_line (simple_format (option_list (po_price p)) (fun c => display_price D (item c)) (Some (lit " @ "))) (t_options (fun x => T_At :: t_price x) (po_price p)) /\
      (simple_format (option_list (po_price p)) (fun c => display_price D (item c)) (Some (lit " @ ")) = [] \/ starts 32 (simple_format (option_list (po_price p)) (fun c => display_price D (item c)) (Some (lit " @ "))))).
    { destruct (po_price p) as [k|]; [|split; [apply spells_nil|auto]]. unfold simple_format, format. cbn [option_list flat_map]. rewrite app_nil_r. split; [|right; eexists; reflexivity].
      apply (spells_price (item k)). exact Cp. }
    pose proof (tail_metadata L UO D E names Dok RD _ Cm) as Tm.
    set (sv := simple_format (option_list (po_amount p)) _ _) in *. set (sc := simple_format (option_list (po_currency p)) _ _) in *.
    set (sk := simple_format (option_list (po_cost_spec p)) _ _) in *. set (sp := simple_format (option_list (po_price p)) _ _) in *.
    set (sf := simple_format (option_list (po_flag p)) _ _).
    assert (Sw : spells after_text (display_account (item (po_account p)) ++ sv ++ sc ++ sk)
                   ([T_Account (acc_name (item (po_account p)))] ++ t_options t_value (po_amount p) ++ t_options (fun c => [T_Currency c]) (po_currency p) ++ t_options t_cost (po_cost_spec p))).
    { rewrite !app_assoc. apply (spells_app L after_word after_text); [|apply Sk|].
      - apply spells_then; [|exact Tc]. apply spells_then; [|exact Tv]. exact Sa.
      - intros rest R. destruct Sk as [_ [Q|Q]]; [rewrite Q; apply after_text_word; exact R|right; left; apply starts_app; exact Q]. }
    assert (Spm : spells after_line (sp ++ display_metadata D (item (po_metadata p))) (t_options (fun x => T_At :: t_price x) (po_price p) ++ indented_lines (l_of_metadata D raw_key (item (po_metadata p))))).
    { apply spells_line; [apply Sp|exact Tm]. }
    assert (St : spells after_line ((display_account (item (po_account p)) ++ sv ++ sc ++ sk) ++ (sp ++ display_metadata D (item (po_metadata p))))
       (([T_Account (acc_name (item (po_account p)))] ++ t_options t_value (po_amount p) ++ t_options (fun c => [T_Currency c]) (po_currency p) ++ t_options t_cost (po_cost_spec p)) ++
        (t_options (fun x => T_At :: t_price x) (po_price p) ++ indented_lines (l_of_metadata D raw_key (item (po_metadata p)))))).
    { apply (spells_app L after_text after_line); [exact Sw|exact Spm|]. intros rest R.
      destruct Sp as [_ [Q|Q]]; [rewrite Q|right; left; rewrite <- app_assoc; apply starts_app; exact Q]. cbn [app].
      destruct Tm as [_ [M|M]]; [rewrite M; destruct R as [->|R]; [left; reflexivity|right; right; exact R]|right; right; apply starts_app; exact M]. }
    rewrite <- !app_assoc in St. rewrite <- !app_assoc.
    destruct (po_flag p) as [f|].
    - destruct (spells_flag L UO _ Cf) as [Sf Wf]. unfold sf. cbn [option_list simple_format format flat_map t_options]. rewrite app_nil_r.
      change (([] ++ display_flag (item f)) ++ lit " " ++ ?x) with (display_flag (item f) ++ 32%N :: x).
      cbn [app]. split; [|apply fresh_app, word_fresh; exact Wf].
      change (t_flag (item f) :: ?x) with ([t_flag (item f)] ++ x). cbn [app] in St.
      apply (spells_app L after_word after_line); [exact Sf| |intros rest _; right; left; eexists; reflexivity].
      apply spells_after_space; [exact UO|exact St|apply fresh_app, word_fresh; exact Wa].
    - unfold sf. cbn [option_list simple_format format app t_options]. split; [exact St|apply fresh_app, word_fresh; exact Wa].
  Qed.

  (** *** Directives *)
  Lemma tail_string s : clean s -> tail_word (lit " " ++ double_quoted s) [T_String s].
  Proof. intro H. destruct (spells_string L UO s H) as [S F]. apply tail_word_space; [exact UO|apply anywhere; exact S|exact F]. Qed.
  Lemma tail_account a : common_account L E names a -> tail_word (lit " " ++ display_account a) [T_Account (acc_name a)].
  Proof. intro H. destruct (spells_account L UO E names a H) as [S W]. apply tail_word_space; [exact UO|exact S|apply word_fresh; exact W]. Qed.
  Lemma tail_currency c : common_currency c -> tail_word (lit " " ++ display_currency c) [T_Currency c].
  Proof. intro H. destruct (spells_currency L UO c H) as [S W]. apply tail_word_space; [exact UO|exact S|apply word_fresh; exact W]. Qed.
  Lemma tail_keyword k : tail_word (lit " " ++ keyword_text k) [T_Keyword k].
  Proof. destruct (spells_keyword L UO k) as [S W]. apply tail_word_space; [exact UO|exact S|apply word_fresh; exact W]. Qed.
  Lemma tail_amount a : common_amount E a -> tail_word (lit " " ++ display_amount D a) (t_amount a).
  Proof. intro H. destruct (spells_amount L UO D E Dok RD a H) as [S F]. apply tail_word_space; assumption. Qed.

  (** Currencies with commas. *)
  Lemma spells_currency_list c : common_currency c -> spells (fun rest => after_word rest \/ starts 44 rest) c [T_Currency c].
  Proof.
    intro H. pose proof (spells_currency L UO c H) as [_ W]. destruct H as (T & N & _).
    assert (Lx : lexeme c (tok (T_Currency c))) by (apply lx_currency; assumption).
    apply spells_one; [exact Lx|]. intros rest [R|(r & ->)]; [eapply word_longest; eassumption|].
    split; [destruct W as (a & q & -> & _); discriminate|]. split; [eexists; exact Lx|]. intros u v Q Nu [o Ho]. destruct u as [|x u]; [congruence|]. injection Q as <- _.
    assert (First : exists a q, c = a :: q /\ (65 <= a <= 90 \/ a = 47)%N).
    { destruct T as [(a & q & -> & Ha & _)|(a & b & -> & _)]; [exists a, q|eexists 47%N, _]; (split; [reflexivity|]); [unfold upper in Ha|]; lia. }
    destruct First as (a & q & -> & Ha).
    destruct (inside L UO _ _ 44%N Ho ltac:(cbn; auto 10) ltac:(apply in_or_app; right; left; reflexivity)) as [(b & s & X & O)|[(X & _)|[(X & _)|(_ & [X|(i & gs & f & X)])]]]; try discriminate.
    - injection X as -> _. unfold opening in O. cbn in O. intuition lia.
    - injection X as -> _. lia.
    - destruct (number_first L _ _ _ _ X) as (b & s & Y & O). injection Y as -> _. apply (digit_first L UO) in O. lia.
  Qed.
  Lemma currency_list l : Forall common_currency l -> l <> [] ->
    spells after_word (between (lit ",") l) (between [T_Comma] (map (fun c => [T_Currency c]) l)) /\ fresh (between (lit ",") l).
  Proof.
    induction l as [|c l IH]; [congruence|]. intros F _. inversion F as [|? ? C F' X]; subst. pose proof (spells_currency L UO c C) as [Sc W].
    destruct l as [|c' l]; [split; [exact Sc|apply word_fresh; exact W]|]. specialize (IH F' ltac:(discriminate)). destruct IH as [Sl _].
    split; [|apply fresh_app, word_fresh; exact W].
    change (between (lit ",") (c :: c' :: l)) with (c ++ [44%N] ++ between (lit ",") (c' :: l)).
    change (between [T_Comma] (map (fun c => [T_Currency c]) (c :: c' :: l))) with ([T_Currency c] ++ [T_Comma] ++ between [T_Comma] (map (fun c => [T_Currency c]) (c' :: l))).
    apply (spells_app L (fun rest => after_word rest \/ starts 44 rest) after_word); [apply spells_currency_list; exact C| |intros rest _; right; eexists; reflexivity].
    apply (spells_app L anything after_word); [|exact Sl|intros; exact I].
    apply spells_alone; [exact UO|cbn; auto 10|apply lx_symbol; cbn; auto 30].
  Qed.
  Lemma format_between {T} (l : list T) m sep p : l <> [] -> format l m sep (Some p) = p ++ between sep (map m l).
  Proof.
    destruct l as [|x l]; [congruence|]. intros _. cbn [format]. f_equal. revert x. induction l as [|y l IH]; intro x; [cbn; apply app_nil_r|].
    cbn [flat_map map between]. f_equal. rewrite <- app_assoc. f_equal. apply IH.
  Qed.
  Lemma tail_currencies cs : Forall (fun c => common_currency (item c)) cs ->
    tail_word (format cs (fun c => display_currency (item c)) (lit ",") (Some (lit " "))) (between [T_Comma] (map (fun c => [T_Currency (item c)]) cs)).
  Proof.
    intro F. destruct cs as [|c cs]; [apply tail_word_nil|]. rewrite format_between by discriminate.
    rewrite <- (map_map item (fun c => [T_Currency c])). unfold display_currency.
    destruct (currency_list (map item (c :: cs))) as [S Fr]; [apply Forall_map; exact F|discriminate|]. apply tail_word_space; assumption.
  Qed.

  Lemma booking_clean b : clean (booking_name b).
  Proof. destruct b; split; cbn; intuition discriminate. Qed.
  Lemma booking_same b : display_booking b = booking_name b.
  Proof. destruct b; reflexivity. Qed.

  Lemma indented_lines_flat {X} (f : X -> list (list token)) l : indented_lines (flat_map f l) = flat_map (fun x => indented_lines (f x)) l.
  Proof. induction l as [|x l IH]; cbn; [reflexivity|]. rewrite indented_lines_app, IH. reflexivity. Qed.

  Ltac from_words := repeat first
    [ apply tail_keyword | apply tail_account; assumption | apply tail_currency; assumption | apply tail_string; assumption | apply tail_amount; assumption
    | apply (tail_marks L UO D E names Dok); assumption
    | assumption
    | apply (tail_word_app L) ].

  (** A header of words, and lines. *)
  Lemma header_lines d w tw l tl : tail_word w tw -> tail_line l tl -> common_date d ->
    spells after_line (de_date D d ++ w ++ l) (T_Date d :: tw ++ tl).
  Proof.
    intros W Tl Cd. destruct (spells_date L UO D Dok d Cd) as (S & _). rewrite app_assoc. change (T_Date d :: tw ++ tl) with (([T_Date d] ++ tw) ++ tl).
    apply spells_line; [|exact Tl]. apply word_line. apply spells_then; assumption.
  Qed.

  Lemma spells_directive d : common L E names d -> spells after_line (display_directive D d) (t_directive D raw_key d) /\
    exists c r, display_directive D d = c :: r /\ digit c.
  Proof.
    intros [Cd Cm Cv]. split.
    2:{ destruct (spells_date L UO D Dok _ Cd) as (_ & _ & c & r & Q & Hc). unfold display_directive, fmt_variant.
        exists c. destruct (dir_variant d); rewrite Q; eexists; (split; [reflexivity|exact Hc]). }
    unfold display_directive, t_directive, t_header, l_directive. set (m := item (dir_metadata d)) in *.
    pose proof (tail_keys L UO D E names Dok RD m Cm) as Tk.
    pose proof (tail_marks L UO D E names Dok m Cm) as Tmk.
    change (indented_lines (map (t_key_value raw_key) (de_map_order D (md_key_values m)))) with (indented_lines (l_of_keys D raw_key m)) in Tk.
    change (t_marks (de_set_order D (md_tags m)) (de_set_order D (md_links m))) with (t_of_marks D m) in Tmk.
    destruct (dir_variant d) as [f p n ps|c a|a t|a cs b|a|c|a s|a s|a s|a s|a s|t vs]; cbn [common_variant] in Cv; cbn [fmt_variant t_fields].
    - destruct Cv as (Cf & Cp & Cn & Cps). rewrite indented_lines_app.
      assert (Tp : tail_line (format ps (fun p => display_posting D (item p)) NEWLINE_INDENT (Some NEWLINE_INDENT)) (indented_lines (flat_map (fun p => l_posting D raw_key (item p)) ps))).
      { rewrite format_same, indented_lines_flat. apply (tail_lines L UO ps (fun p => display_posting D (item p)) (fun p => t_posting (item p) ++ indented_lines (l_of_metadata D raw_key (item (po_metadata (item p)))))).
        intros x Hx. rewrite Forall_forall in Cps. apply spells_posting. exact (Cps x Hx). }
      set (w := lit " " ++ display_flag (item f) ++ (format (option_list p) (fun s => double_quoted (item s)) (lit " ") (Some (lit " "))) ++
        (format (option_list n) (fun s => double_quoted (item s)) (lit " ") (Some (lit " "))) ++
        (match p, n with Some _, None => lit " """"" | _, _ => [] end)).
      assert (Tw : tail_word w (t_flag (item f) :: t_options (fun s => [T_String s]) p ++ t_options (fun s => [T_String s]) n ++ match p, n with Some _, None => [T_String []] | _, _ => [] end)).
      { unfold w. destruct (spells_flag L UO _ Cf) as [Sf Wf]. rewrite app_assoc. change (t_flag (item f) :: ?x) with ([t_flag (item f)] ++ x).
        apply tail_word_app; [apply tail_word_space; [exact UO|exact Sf|apply word_fresh; exact Wf]|].
        assert (So : forall o : option (spanned str), optional (fun s => clean (item s) /\ item s <> []) o -> tail_word (format (option_list o) (fun s => double_quoted (item s)) (lit " ") (Some (lit " "))) (t_options (fun s => [T_String s]) o)).
        { intros o Co. rewrite format_option. apply tail_option. intros x Q. rewrite Q in Co. destruct (spells_string L UO _ (proj1 Co)) as [S F]. split; [apply anywhere; exact S|exact F]. }
        apply tail_word_app; [apply So; exact Cp|]. apply tail_word_app; [apply So; exact Cn|].
        destruct p, n; try apply tail_word_nil. apply (tail_string []). split; intros []. }
      assert (Eq : forall x y z, de_date D (item (dir_date d)) ++ lit " " ++ display_flag (item f) ++ format (option_list p) (fun s => double_quoted (item s)) (lit " ") (Some (lit " ")) ++
        format (option_list n) (fun s => double_quoted (item s)) (lit " ") (Some (lit " ")) ++ match p, n with Some _, None => lit " """"" | _, _ => [] end ++ x ++ y ++ z
        = de_date D (item (dir_date d)) ++ (w ++ x) ++ (y ++ z)) by (intros; unfold w; rewrite <- !app_assoc; reflexivity).
      rewrite Eq. change ((T_Date ?x :: ?y) ++ ?z) with (T_Date x :: y ++ z).
      apply header_lines; [apply tail_word_app; assumption|apply tail_line_app; assumption|exact Cd].
    - destruct Cv as (Cc & Ca).
      replace (_ : str) with (de_date D (item (dir_date d)) ++ ((lit " " ++ keyword_text K_Price) ++ (lit " " ++ display_currency (item c)) ++ (lit " " ++ display_amount D (item a)) ++ fmt_tags_links_inline D m) ++ fmt_keys_values D m)
        by (rewrite <- !app_assoc; reflexivity).
      replace (_ : list token) with (T_Date (item (dir_date d)) :: ([T_Keyword K_Price] ++ [T_Currency (item c)] ++ t_amount (item a) ++ t_of_marks D m) ++ indented_lines (l_of_keys D raw_key m))
        by (cbn [app]; rewrite <- ?app_assoc; reflexivity).
      apply header_lines; [|exact Tk|exact Cd]. from_words.
    - destruct Cv as (Ca & Ct & Cn). unfold display_amount_tol, t_amount_tol. rewrite Cn.
      replace (_ : str) with (de_date D (item (dir_date d)) ++ ((lit " " ++ keyword_text K_Balance) ++ (lit " " ++ display_account (item a)) ++ (lit " " ++ display_amount D (item (at_amount (item t)))) ++ fmt_tags_links_inline D m) ++ fmt_keys_values D m)
        by (rewrite <- !app_assoc; reflexivity).
      replace (_ : list token) with (T_Date (item (dir_date d)) :: ([T_Keyword K_Balance] ++ [T_Account (acc_name (item a))] ++ t_amount (item (at_amount (item t))) ++ t_of_marks D m) ++ indented_lines (l_of_keys D raw_key m))
        by (cbn [app]; rewrite <- ?app_assoc; reflexivity).
      apply header_lines; [|exact Tk|exact Cd]. from_words.
    - destruct Cv as (Ca & Cc & _).
      assert (Tcs : tail_word (format (de_set_order D cs) (fun c => display_currency (item c)) (lit ",") (Some (lit " "))) (between [T_Comma] (map (fun c => [T_Currency (item c)]) (de_set_order D cs)))).
      { apply tail_currencies. apply Forall_forall. apply (ordered_all _ _ _ (do_set _ Dok _) Cc). }
      assert (Tb : tail_word (format (option_list b) (fun b => double_quoted (display_booking (item b))) (lit " ") (Some (lit " "))) (t_options (fun b => [T_String (booking_name b)]) b)).
      { rewrite format_option. apply (tail_option _ (fun b => double_quoted (display_booking b))). intros x _. rewrite booking_same. destruct (spells_string L UO _ (booking_clean (item x))) as [S F]. split; [apply anywhere; exact S|exact F]. }
      replace (_ : str) with (de_date D (item (dir_date d)) ++ ((lit " " ++ keyword_text K_Open) ++ (lit " " ++ display_account (item a)) ++
         format (de_set_order D cs) (fun c => display_currency (item c)) (lit ",") (Some (lit " ")) ++ format (option_list b) (fun b => double_quoted (display_booking (item b))) (lit " ") (Some (lit " ")) ++ fmt_tags_links_inline D m) ++ fmt_keys_values D m)
        by (rewrite <- !app_assoc; reflexivity).
      replace (_ : list token) with (T_Date (item (dir_date d)) :: ([T_Keyword K_Open] ++ [T_Account (acc_name (item a))] ++ between [T_Comma] (map (fun c => [T_Currency (item c)]) (de_set_order D cs)) ++ t_options (fun b => [T_String (booking_name b)]) b ++ t_of_marks D m) ++ indented_lines (l_of_keys D raw_key m))
        by (cbn [app]; rewrite <- ?app_assoc; reflexivity).
      apply header_lines; [|exact Tk|exact Cd]. from_words.
    - replace (_ : str) with (de_date D (item (dir_date d)) ++ ((lit " " ++ keyword_text K_Close) ++ (lit " " ++ display_account (item a)) ++ fmt_tags_links_inline D m) ++ fmt_keys_values D m)
        by (rewrite <- !app_assoc; reflexivity).
      apply (header_lines (item (dir_date d)) _ ([T_Keyword K_Close] ++ [T_Account (acc_name (item a))] ++ t_of_marks D m)); [|exact Tk|exact Cd]. from_words.
    - replace (_ : str) with (de_date D (item (dir_date d)) ++ ((lit " " ++ keyword_text K_Commodity) ++ (lit " " ++ display_currency (item c)) ++ fmt_tags_links_inline D m) ++ fmt_keys_values D m)
        by (rewrite <- !app_assoc; reflexivity).
      apply (header_lines (item (dir_date d)) _ ([T_Keyword K_Commodity] ++ [T_Currency (item c)] ++ t_of_marks D m)); [|exact Tk|exact Cd]. from_words.
    - destruct Cv as (Ca & Cs). replace (_ : str) with (de_date D (item (dir_date d)) ++ ((lit " " ++ keyword_text K_Pad) ++ (lit " " ++ display_account (item a)) ++ (lit " " ++ display_account (item s)) ++ fmt_tags_links_inline D m) ++ fmt_keys_values D m)
        by (rewrite <- !app_assoc; reflexivity).
      apply (header_lines (item (dir_date d)) _ ([T_Keyword K_Pad] ++ [T_Account (acc_name (item a))] ++ [T_Account (acc_name (item s))] ++ t_of_marks D m)); [|exact Tk|exact Cd]. from_words.
    - destruct Cv as (Ca & Cs). replace (_ : str) with (de_date D (item (dir_date d)) ++ ((lit " " ++ keyword_text K_Document) ++ (lit " " ++ display_account (item a)) ++ (lit " " ++ double_quoted (item s)) ++ fmt_tags_links_inline D m) ++ fmt_keys_values D m)
        by (rewrite <- !app_assoc; reflexivity).
      apply (header_lines (item (dir_date d)) _ ([T_Keyword K_Document] ++ [T_Account (acc_name (item a))] ++ [T_String (item s)] ++ t_of_marks D m)); [|exact Tk|exact Cd]. from_words.
    - destruct Cv as (Ca & Cs). replace (_ : str) with (de_date D (item (dir_date d)) ++ ((lit " " ++ keyword_text K_Note) ++ (lit " " ++ display_account (item a)) ++ (lit " " ++ double_quoted (item s)) ++ fmt_tags_links_inline D m) ++ fmt_keys_values D m)
        by (rewrite <- !app_assoc; reflexivity).
      apply (header_lines (item (dir_date d)) _ ([T_Keyword K_Note] ++ [T_Account (acc_name (item a))] ++ [T_String (item s)] ++ t_of_marks D m)); [|exact Tk|exact Cd]. from_words.
    - destruct Cv as (Ca & Cs). replace (_ : str) with (de_date D (item (dir_date d)) ++ ((lit " " ++ keyword_text K_Event) ++ (lit " " ++ double_quoted (item a)) ++ (lit " " ++ double_quoted (item s)) ++ fmt_tags_links_inline D m) ++ fmt_keys_values D m)
        by (rewrite <- !app_assoc; reflexivity).
      apply (header_lines (item (dir_date d)) _ ([T_Keyword K_Event] ++ [T_String (item a)] ++ [T_String (item s)] ++ t_of_marks D m)); [|exact Tk|exact Cd]. from_words.
    - destruct Cv as (Ca & Cs). replace (_ : str) with (de_date D (item (dir_date d)) ++ ((lit " " ++ keyword_text K_Query) ++ (lit " " ++ double_quoted (item a)) ++ (lit " " ++ double_quoted (item s)) ++ fmt_tags_links_inline D m) ++ fmt_keys_values D m)
        by (rewrite <- !app_assoc; reflexivity).
      apply (header_lines (item (dir_date d)) _ ([T_Keyword K_Query] ++ [T_String (item a)] ++ [T_String (item s)] ++ t_of_marks D m)); [|exact Tk|exact Cd]. from_words.
    - destruct Cv as (Ct & Cvs & _).
      assert (Tvs : tail_word (format vs (fun v => display_meta_value D (item v)) SPACE (Some SPACE)) (flat_map (fun v => t_meta_value (item v)) vs)).
      { rewrite format_same. apply tail_words; [exact UO|]. intros x Hx. rewrite Forall_forall in Cvs. apply (spells_meta_value L UO D E names Dok RD). exact (Cvs x Hx). }
      replace (_ : str) with (de_date D (item (dir_date d)) ++ ((lit " " ++ keyword_text K_Custom) ++ (lit " " ++ double_quoted (item t)) ++ format vs (fun v => display_meta_value D (item v)) SPACE (Some SPACE)) ++ display_metadata D m)
        by (unfold display_metadata, fmt_tags_links_on_separate_lines; rewrite <- !app_assoc; reflexivity).
      replace (_ : list token) with (T_Date (item (dir_date d)) :: ([T_Keyword K_Custom] ++ [T_String (item t)] ++ flat_map (fun v => t_meta_value (item v)) vs) ++ indented_lines (l_of_metadata D raw_key m))
        by (cbn [app]; rewrite ?app_nil_r, <- ?app_assoc; reflexivity).
      apply header_lines; [|apply (tail_metadata L UO D E names Dok RD m Cm)|exact Cd]. from_words.
  Qed.

  (** *** Documents *)
  Lemma spells_document ds : Forall (common L E names) ds ->
    spells (fun rest => rest = []) (document D ds) (flat_map (fun d => t_directive D raw_key d ++ [T_Eol]) ds) /\
    (document D ds = [] \/ exists c r, document D ds = c :: r /\ digit c).
  Proof.
    induction 1 as [|d ds C F [IH Fr]]; [split; [apply spells_nil|auto]|]. destruct (spells_directive d C) as (S & c & r & Q & Hc). cbn [document flat_map].
    split; [|right; exists c; eexists; rewrite Q; cbn [app]; split; [reflexivity|exact Hc]].
    apply (spells_app L (fun rest => rest = [] \/ exists c r, rest = c :: r /\ digit c) (fun rest => rest = [])); [|exact IH|].
    - apply (spells_app L after_line); [exact S| |intros rest _; right; eexists; reflexivity].
      apply spells_one.
      + apply lx_eol. exists [], [10%N], []. split; [reflexivity|]. split; [auto|]. split; [left; reflexivity|constructor].
      + intros rest R. apply (eol_longest L UO). intros a q X. destruct R as [->|(c' & r' & -> & H')]; [discriminate|]. injection X as -> ->. unfold digit in H'. split; [apply not_is_blank; lia|].
        unfold ignored_first. cbn. intuition lia.
    - intros rest ->. rewrite app_nil_r. exact Fr.
  Qed.
End Spelling.
