(** * C57: the errors and warnings of a parse, as written *)
From Coq Require Import String Ascii.
From Coq Require Import List NArith Arith Bool Lia Permutation.
From Verif Require Import Base BaseFacts Types SpecTypes Path SpecPath Token Lexer SpecLexer Sources SpecSources Options SpecOptions Pragma SpecPragma
  Read SpecRead Display Grammar SpecGrammar Parse SpecParse SpecWhole P_Lexer P_Read P_Grammar P_File P_Includes P_Parse
  Report SpecReport ReportFacts SpecPlaces Messages SpecMessages SpecWritten P_Messages P_Report P_Places.
Import ListNotations.
Local Open Scope nat_scope.

(** Nothing but drawings is asked for. *)
Lemma draw_only : forall l ds, List.length ds = List.length l -> all_actions (map unannotated l) ds = map Draw ds.
Proof.
  induction l as [|n l IH]; intros [|d ds] H; try discriminate; [reflexivity|]. cbn. f_equal. apply IH. now injection H.
Qed.

Lemma Forall2_mapped {A B C} (f : A -> B) (P : B -> C -> Prop) : forall l ds, Forall2 P (map f l) ds <-> Forall2 (fun x d => P (f x) d) l ds.
Proof.
  induction l as [|x l IH]; intros ds; cbn; split; intro H; inversion H; subst; constructor; auto; now apply IH.
Qed.

Lemma drawn_length {A B} (P : A -> B -> Prop) l ds : Forall2 P l ds -> List.length l = List.length ds.
Proof. induction 1; cbn; congruence. Qed.

Section Written.
  Context (L : lexer_env) (E : grammar_env) (En : environment_ok E) (UO : unicode_ok (le_unicode L)).
  Context (glob_with : str -> result (list glob_item) str) (canonicalize : path -> option path) (read : path -> result str str).
  Context (Cano : forall p q c d, same_path p q -> canonicalize p = Some c -> canonicalize q = Some d -> same_path c d).
  Context (canonicalize' : path -> option path) (fuel : nat) (root : option path) (content : str) (s : sources).
  Context (Reads : reads_to (includes_of L) glob_with canonicalize read fuel root content s).
  Context (Root : forall p, root = Some p -> canonicalize p <> None).
  Context (Inline : inline_is_free root s).
  Context (toks : list (list rtoken)) (Pn : parser_new L s = Fine (Some toks)) (Fi : forall id f c, In (id, f, c) (content_iter s) -> fine_content L E id c).
  Context (M : message_env) (W Er : Type) (draw : drawing -> list (str * str) -> W -> W * option Er) (put : str -> W -> W * option Er).

  (** The drawing for a report: what is said of it, about what it concerns. *)
  Definition told (texts : list (str * str)) (r : report) (d : drawing) : Prop :=
    exists n, notice_for (display_meta_value (me_display M)) (me_decimal M) (me_integer M) (me_contexts M) (me_message M) r n /\
      drawn L s texts (concerns L (g_unicode E) (g_decimal E) (rp_problem r)) n d.
  (** Of a syntax error it is what chumsky says. *)
  Definition told_of (texts : list (str * str)) (c : complaint) (d : drawing) : Prop :=
    match c with
    | C_Report r => told texts r d
    | C_Syntax id position =>
        exists n, nt_kind n = K_Error /\ (nt_message n, nt_reason n, nt_span n, contexts n) = me_syntax M id position /\ related n = [] /\
          asked (label_for s) n d
    end.

  Lemma place_marked texts texts' (what : str -> Prop) sp m name a b :
    list_sources s = Fine texts -> Permutation texts texts' -> written_at s sp m -> what m -> label_for s sp name a b -> marks texts' what name a b.
  Proof.
    intros Ls P (nm & file & c & pre & post & T & I & D) Wh Lf. destruct (end_blanks_exists m) as [text B]. exists m, text. split; [exact Wh|]. split; [exact B|].
    exact (C54_points _ _ _ _ _ _ _ _ Reads texts texts' Inline Ls P _ _ _ _ _ _ _ _ _ _ _ I eq_refl D B Lf).
  Qed.

  Lemma report_told texts texts' r d : list_sources s = Fine texts -> Permutation texts texts' ->
    located_report L (written_at s) (g_unicode E) (g_decimal E) r -> asked (label_for s) (notice_of M r) d -> told texts' r d.
  Proof.
    intros Ls P [(m & Wr & Co) Rel] [K Me Wh (primary & cs & rs & Q & (P1 & P2 & P3) & Cs & Rs)].
    assert (N : notice_for (display_meta_value (me_display M)) (me_decimal M) (me_integer M) (me_contexts M) (me_message M) r (notice_of M r)).
    { apply C56_report. intros e X. rewrite X in Co. destruct Co as (name & v & _ & Wv). eauto. }
    exists (notice_of M r). split; [exact N|]. destruct N as [(message & name & _ & _ & _ & Re) Sp]. rewrite Sp in *.
    split; [exact K|exact Me|exact (place_marked _ _ _ _ _ _ _ _ Ls P Wr Co Wh)|].
    exists primary, cs, rs. split; [exact Q|]. split; [|split; [exact Cs|]].
    - split; [exact P2|]. split; [exact P3|]. exact (place_marked _ _ _ _ _ _ _ _ Ls P Wr Co P1).
    - rewrite Re in *. destruct name as [x|]; [|inversion Rs; constructor]. apply Forall2_mapped. apply (proj1 (Forall2_mapped _ _ _ _)) in Rs.
      clear - Rs Rel Ls P Reads Inline. induction Rs as [|sp l sps ls (A & B & C) Rs IH]; [constructor|]. pose proof (Forall_inv Rel) as Hs. apply Forall_inv_tail in Rel. constructor; [|auto].
      split; [exact B|]. split; [exact C|]. destruct Hs as (v & m & Wr & Sv). eapply (place_marked _ _ _ _ _ _ _ _ Ls P Wr); [|exact A]. now exists v.
  Qed.

  Lemma reports_written texts rs : list_sources s = Fine texts -> Forall (located_report L (written_at s) (g_unicode E) (g_decimal E)) rs ->
    exists drawings,
      (forall w, write_errors_or_warnings draw put s w (map unannotated (map (notice_of M) rs)) = Fine (perform draw put texts (map Draw drawings) w)) /\
      forall texts', Permutation texts texts' -> Forall2 (told texts') rs drawings.
  Proof.
    intros Ls F. destruct (C54_written _ _ _ _ _ _ _ _ Reads W Er draw put (map unannotated (map (notice_of M) rs))) as (texts1 & ds & Ls1 & As & Wr).
    rewrite Ls in Ls1. injection Ls1 as <-. exists ds. do 2 rewrite Forall2_mapped in As. cbn [an_notice unannotated] in As. split.
    - intro w. rewrite Wr, draw_only; [reflexivity|]. rewrite map_length. exact (eq_sym (drawn_length _ _ _ As)).
    - intros texts' P. clear Wr. induction As as [|r d rs ds A As IH]; [constructor|]. inversion F as [|? ? Fr F']; subst. constructor; [|auto].
      exact (report_told _ _ _ _ Ls P Fr A).
  Qed.

  (** Writing the warnings of a parse draws each of them: what is said of it,
      marking what it is about. *)
  Theorem C57_warnings : forall p, parse E canonicalize' s toks = Fine (Some p) ->
    exists texts drawings, list_sources s = Fine texts /\
      (forall w, write_errors_or_warnings draw put s w (map unannotated (warnings_of M p)) = Fine (perform draw put texts (map Draw drawings) w)) /\
      forall texts', Permutation texts texts' -> Forall2 (told texts') (match p with Success _ _ _ ws | Failure _ ws => ws end) drawings.
  Proof.
    intros p Ps. destruct (C54_texts _ _ _ _ _ _ _ _ Reads) as (texts & Ls & _). exists texts.
    destruct p as [ds o pl ws|es ws].
    - destruct (C53_success L E En UO _ _ _ Cano canonicalize' _ _ _ _ Reads Root toks Pn Fi _ _ _ _ Ps) as (_ & _ & _ & F).
      destruct (reports_written texts ws Ls F) as (drawings & A & B). exists drawings. auto.
    - destruct (C53_failure L E En UO _ _ _ Cano canonicalize' _ _ _ _ Reads Root toks Pn Fi _ _ Ps) as (_ & F).
      destruct (reports_written texts ws Ls F) as (drawings & A & B). exists drawings. auto.
  Qed.

  (** And so for errors. *)
  Theorem C57_errors : forall errors warnings, parse E canonicalize' s toks = Fine (Some (Failure errors warnings)) ->
    exists texts drawings, list_sources s = Fine texts /\
      (forall w, write_errors_or_warnings draw put s w (map unannotated (errors_of M (Failure errors warnings))) = Fine (perform draw put texts (map Draw drawings) w)) /\
      forall texts', Permutation texts texts' -> Forall2 (told_of texts') errors drawings.
  Proof.
    intros es ws Ps. destruct (C54_written _ _ _ _ _ _ _ _ Reads W Er draw put (map unannotated (errors_of M (Failure es ws)))) as (texts & ds & Ls & As & Wr).
    exists texts, ds. split; [exact Ls|]. cbn [errors_of] in *. do 2 rewrite Forall2_mapped in As. cbn [an_notice unannotated] in As. split.
    - intro w. rewrite Wr, draw_only; [reflexivity|]. rewrite map_length. exact (eq_sym (drawn_length _ _ _ As)).
    - intros texts' P. destruct (C53_failure L E En UO _ _ _ Cano canonicalize' _ _ _ _ Reads Root toks Pn Fi _ _ Ps) as (F & _). clear Wr Ps.
      induction As as [|c d cs ds A As IH]; [constructor|]. inversion F as [|? ? Fr F']; subst. constructor; [|auto]. destruct c as [r|id position]; [exact (report_told _ _ _ _ Ls P Fr A)|]. cbn in A |- *.
      destruct (me_syntax M id position) as [[[message reason] sp] contexts]. cbn in A. eexists. split; [|split; [|split; [|exact A]]]; reflexivity.
  Qed.
End Written.
Print Assumptions C57_warnings.
Print Assumptions C57_errors.

(** ** A case

    Two errors and a warning are drawn; the writer keeps the drawings. *)
Definition keep (d : drawing) (_ : list (str * str)) (w : list drawing) : list drawing * option Empty_set := (w ++ [d], None).
Definition keep_put (_ : str) (w : list drawing) : list drawing * option Empty_set := (w, None).
Definition ex_wrong : str :=
  ex_line "option ""long_string_maxlines"" ""1""" ++ ex_line "poptag #trip" ++ ex_line "option ""title"" ""x" ++ ex_line """" ++ ex_line "option ""title"" ""y""".
Definition ex_marks (s : sources) (p : parsed_as) : bool :=
  match write_errors_or_warnings keep keep_put s [] (map unannotated (errors_of ex_messages p ++ warnings_of ex_messages p)) with
  | Fine ([d1; d2; d3], None) =>
      match dr_labels d1, dr_labels d2, dr_labels d3 with
      | [l1], [l2; l3], [l4; l5] =>
          (lb_start l1 =? 34) && (lb_end l1 =? 46) && str_eqb (lb_text l1) (lit "missing corresponding pushtag") &&
          (lb_start l2 =? 74) && (lb_end l2 =? 81) && str_eqb (lb_text l2) (lit "duplicate") &&
          (lb_start l3 =? 54) && (lb_end l3 =? 61) && str_eqb (lb_text l3) (lit "option") &&
          (lb_start l4 =? 62) && (lb_end l4 =? 66) &&
          str_eqb (lb_text l4) (lit "exceeds long_string_maxlines(1) - hint: would require option ""long_string_maxlines"" ""2""") &&
          (lb_start l5 =? 30) && (lb_end l5 =? 33) && str_eqb (lb_text l5) (lit "max allowed")
      | _, _, _ => false
      end
  | _ => false
  end.
Lemma ex_same : forall p q c d, same_path p q -> ex_canonicalize p = Some c -> ex_canonicalize q = Some d -> same_path c d.
Proof. unfold ex_canonicalize. intros p q x y Sp Q Q'. injection Q as <-. injection Q' as <-. exact Sp. Qed.
Example C57_ex_written : exists s toks errors warnings,
  ex_ran ex_wrong s toks (Failure errors warnings) /\ ex_marks s (Failure errors warnings) = true /\ inline_is_free ex_name s /\
  exists texts drawings, Forall2 (told_of P_Lexer.ex_env P_Grammar.ex_env s ex_messages texts) errors drawings /\ List.length drawings = 2.
Proof.
  assert (X : ex_run ex_wrong (fun s r => match r with Failure es ws => (List.length es =? 2) && ex_marks s (Failure es ws) | _ => false end) = true) by (vm_compute; reflexivity).
  apply ex_run_ok in X. destruct X as (s & toks & [|es ws] & [A B C D] & X); [discriminate|]. apply andb_true_iff in X as [Y X]. apply Nat.eqb_eq in Y.
  exists s, toks, es, ws. split; [split; assumption|]. split; [exact X|]. split; [discriminate|].
  destruct (C57_errors _ _ ex_environment ex_unicode _ _ _
    ex_same _ _ _ _ _ A
    ltac:(discriminate) ltac:(discriminate) _ B C ex_messages _ _ keep keep_put _ _ D) as (texts & ds & _ & _ & T).
  exists texts, ds. split; [exact (T texts (Permutation_refl _))|]. rewrite <- Y. exact (eq_sym (drawn_length _ _ _ (T texts (Permutation_refl _)))).
Qed.
