(** * Warnings are for strings: also those of failed attempts *)
From Coq Require Import String Ascii.
From Coq Require Import List NArith Arith Bool Lia.
From Verif Require Import Base BaseFacts Types Options Decimal Cost Token Peg Grammar SpecGrammar PegFacts ExprFacts GrammarComplete.
Import ListNotations.
Local Open Scope nat_scope.

Section Honest.
  Context (E : grammar_env) (I : input) (po : parser_options).
  Notation toks := (in_tokens I).

  Definition for_string (w : report) : Prop := exists q s, tok I q (T_String s) /\ long_strings (limit_of po) I q (S q) = [w].
  Definition honest {A} (p : parser A) : Prop := forall i,
    match p i with Got _ _ ws _ => Forall for_string ws | Not ws => Forall for_string ws | _ => True end.

  Lemma honest_ret {A} (a : A) : honest (ret a).
  Proof. intro i. constructor. Qed.
  Lemma honest_bind {A B} (p : parser A) (f : A -> parser B) : honest p -> (forall a, honest (f a)) -> honest (bind p f).
  Proof.
    intros P F i. unfold bind. specialize (P i). destruct (p i) as [a j ws es|ws| |]; auto.
    specialize (F a j). destruct (f a j); auto; apply Forall_app; auto.
  Qed.
  Lemma honest_pmap {A B} (f : A -> B) p : honest p -> honest (pmap f p).
  Proof. intro P. apply honest_bind; [exact P|]. intro. apply honest_ret. Qed.
  Lemma honest_pmap_out {A B} (f : A -> outcome B) p : honest p -> honest (pmap_out f p).
  Proof. intros P i. unfold pmap_out. specialize (P i). destruct (p i); auto. destruct (f a); auto. Qed.
  Lemma honest_try_map {A B R} (f : A -> outcome (result B R)) p : honest p -> honest (try_map f p).
  Proof. intros P i. unfold try_map. specialize (P i). destruct (p i); auto. destruct (f a) as [[|]|]; auto. Qed.
  Lemma honest_validate {A B} (f : A -> B * list report) p : honest p -> honest (validate f p).
  Proof. intros P i. unfold validate. specialize (P i). destruct (p i); auto. destruct (f a); auto. Qed.
  Lemma honest_map_span {A B} (f : A -> span -> B) p : honest p -> honest (map_span (in_source I) toks (in_len I) f p).
  Proof. intros P i. unfold map_span. specialize (P i). destruct (p i); auto. Qed.
  Lemma honest_spn {A} (p : parser A) : honest p -> honest (spn I p).
  Proof. apply honest_map_span. Qed.
  Lemma honest_alt {A} (p q : parser A) : honest p -> honest q -> honest (alt p q).
  Proof.
    intros P Q i. unfold alt. specialize (P i). specialize (Q i). destruct (p i); auto. destruct (q i); auto; apply Forall_app; auto.
  Qed.
  Lemma honest_choice {A} (ps : list (parser A)) : Forall honest ps -> honest (choice ps).
  Proof.
    induction ps as [|p [|q ps] IH]; intro F.
    - intro i. constructor.
    - inversion F. assumption.
    - inversion F as [|? ? P Q]. apply honest_alt; [exact P|apply IH; exact Q].
  Qed.
  Lemma honest_opt {A} (p : parser A) : honest p -> honest (opt p).
  Proof. intros P i. unfold opt. specialize (P i). destruct (p i); auto. Qed.
  Lemma honest_rep {A} (p : parser A) : honest p -> honest (rep I p).
  Proof.
    intro P. unfold rep, many. intro i. generalize (S (List.length toks - i)) as f. intro f. revert i.
    induction f as [|f IH]; intro i; [exact Logic.I|]. cbn. specialize (P i). destruct (p i) as [a j ws es|ws| |]; auto.
    specialize (IH j). destruct (many_n f p j); auto; apply Forall_app; auto.
  Qed.
  Lemma honest_sel {A} (f : token -> option A) : honest (sel I f).
  Proof. intro i. unfold sel, select. destruct (nth_error toks i) as [[t r]|]; [destruct (f t)|]; constructor. Qed.
  Lemma honest_just t : honest (just I t).
  Proof. apply honest_sel. Qed.
  Lemma honest_at_end : honest (at_end toks).
  Proof. intro i. unfold at_end. destruct (nth_error toks i); constructor. Qed.
  Lemma honest_eol : honest (eol I).
  Proof. apply honest_choice. repeat constructor; [apply honest_pmap, honest_just|apply honest_at_end]. Qed.
  Lemma honest_string : honest (p_string I po).
  Proof.
    intro i. unfold p_string, spn, sp, map_span, sel, select.
    destruct (nth_error toks i) as [[t r]|] eqn:T; [|constructor]. destruct t; try constructor. cbn [item app span_of].
    assert (X : span_at (in_source I) toks (in_len I) i (S i) = mk_span (in_source I) (fst r) (snd r)).
    { unfold span_at, start_of, end_before. rewrite T. destruct r; reflexivity. }
    rewrite X, <- (long_strings_string po I i s r T).
    assert (L : List.length (long_strings (limit_of po) I i (S i)) <= 1).
    { unfold long_strings. replace (S i - i) with 1 by lia. cbn. rewrite T. destruct r. destruct (_ <=? _)%N; cbn; lia. }
    destruct (long_strings (limit_of po) I i (S i)) as [|w [|w2 l]] eqn:Q; [constructor| |cbn in L; lia].
    constructor; [|constructor]. exists i, s. split; [exists r; exact T|exact Q].
  Qed.
  Lemma honest_expr : honest (p_expr I).
  Proof. intro i. pose proof (p_expr_plain I i) as P. destruct (p_expr I i); auto; [destruct P as [-> _]|subst]; constructor. Qed.

  Ltac ho :=
    lazymatch goal with
    | |- forall _, _ => intro; ho
    | |- Forall _ [] => constructor
    | |- Forall _ (_ :: _) => constructor; ho
    | |- honest (ret _) => apply honest_ret
    | |- honest (sel _ _) => apply honest_sel
    | |- honest (just _ _) => apply honest_just
    | |- honest (keyword_ _ _) => apply honest_just
    | |- honest (spn _ _) => apply honest_spn; ho
    | |- honest (pmap _ _) => apply honest_pmap; ho
    | |- honest (pmap_out _ _) => apply honest_pmap_out; ho
    | |- honest (validate _ _) => apply honest_validate; ho
    | |- honest (map_span _ _ _ _ _) => apply honest_map_span; ho
    | |- honest (alt _ _) => apply honest_alt; ho
    | |- honest (choice _) => apply honest_choice; ho
    | |- honest (opt _) => apply honest_opt; ho
    | |- honest (rep _ _) => apply honest_rep; ho
    | |- honest (bind _ _) => apply honest_bind; ho
    | |- honest (p_string _ _) => apply honest_string
    | |- honest (eol _) => apply honest_eol
    | |- honest (p_expr _) => apply honest_expr
    | |- honest (try_map _ _) => apply honest_try_map; ho
    | |- honest (?f E I po) => unfold f; ho
    | |- honest (?f E I) => unfold f; ho
    | |- honest (?f I po) => unfold f; ho
    | |- honest (?f I) => unfold f; ho
    end.

  Lemma honest_directive : honest (p_directive E I po).
  Proof.
    unfold p_directive, p_transaction, p_price, p_balance, p_open, p_close, p_commodity, p_pad, p_document, p_note, p_event, p_query,
      p_custom, p_line. ho.
  Qed.
  Lemma honest_pushtag : honest (p_pushtag E I). Proof. ho. Qed.
  Lemma honest_poptag : honest (p_poptag E I). Proof. ho. Qed.
  Lemma honest_pushmeta : honest (p_pushmeta E I po). Proof. ho. Qed.
  Lemma honest_popmeta : honest (p_popmeta E I). Proof. ho. Qed.
  Lemma honest_include : honest (p_include I po). Proof. ho. Qed.
  Lemma honest_plugin : honest (p_plugin I po). Proof. ho. Qed.
  Lemma honest_option_tokens : honest (p_option_tokens I po). Proof. ho. Qed.
  Lemma honest_includes : honest (p_includes I po). Proof. ho. Qed.
End Honest.
