(** * Facts about texts with other words *)
From Coq Require Import String Ascii.
From Coq Require Import List NArith Arith Bool.
From Verif Require Import Base Types Token SpecLex Lexer SpecLexer SpecLayout SpecRename.
Import ListNotations.
Local Open Scope nat_scope.

Section Words.
  Context (f : token -> token).
  Context (Keyword : forall k, f (T_Keyword k) = T_Keyword k) (Colon : f T_Colon = T_Colon).
  Context (Other : forall t, (exists k, t = T_Keyword k) \/ t = T_Colon \/ ((forall k, f t <> T_Keyword k) /\ (forall k, t <> T_Keyword k) /\ f t <> T_Colon)).
  Context (Key : forall k, f (T_Key (keyword_text k)) = T_Key (keyword_text k)).
  Context (Eol : f T_Eol = T_Eol) (Indent : f T_Indent = T_Indent).

  Lemma words_tokens_cons t l : words_tokens (t :: l) =
    (match t, l with T_Keyword k, T_Colon :: _ => T_Key (keyword_text k) | _, _ => t end) :: words_tokens l.
  Proof. destruct t; try reflexivity. destruct l as [|u l]; [reflexivity|]. destruct u; reflexivity. Qed.
  Lemma words_tokens_by l : words_tokens (map f l) = map f (words_tokens l).
  Proof.
    induction l as [|t l IH]; [reflexivity|]. cbn [map]. rewrite !words_tokens_cons. cbn [map]. rewrite IH. f_equal.
    destruct (Other t) as [[k ->]|[->|(A & B & D)]].
    - rewrite Keyword. destruct l as [|u l]; [cbn; rewrite Keyword; reflexivity|]. cbn [map]. destruct (Other u) as [[k' ->]|[->|(A & B & D)]].
      + rewrite !Keyword. reflexivity.
      + rewrite Colon, Key. reflexivity.
      + assert (Nc : u <> T_Colon) by (intros ->; apply D; exact Colon). clear - Nc D Keyword. destruct (f u); try (destruct (D eq_refl)); destruct u; try (destruct (Nc eq_refl)); rewrite Keyword; reflexivity.
    - rewrite !Colon. reflexivity.
    - clear - A B. destruct (f t) eqn:Q; try (destruct (A _ eq_refl)); destruct t; try (destruct (B _ eq_refl)); cbn; symmetry; exact Q.
  Qed.
  Lemma ledger_tokens_by fin a b : lines_by f a b -> ledger_tokens fin b = map f (ledger_tokens fin a).
  Proof.
    assert (W : forall x y, words_by f x y -> tokens_of_words (snd y) = map f (tokens_of_words (snd x))) by (intros x y H; unfold tokens_of_words; rewrite H; apply words_tokens_by).
    destruct a as [|x a], b as [|y b]; try contradiction; [reflexivity|]. intros [H F].
    assert (A : flat_map tokens_of_line b = map f (flat_map tokens_of_line a)).
    { clear - F W Eol Indent. induction F as [|u v l l' [Q Wl] F IH]; [reflexivity|]. cbn [flat_map]. rewrite map_app, <- IH. f_equal. unfold tokens_of_line. rewrite map_app, (W _ _ Wl), Q. f_equal.
      destruct (fst v); cbn; rewrite Eol, ?Indent; reflexivity. }
    unfold ledger_tokens. rewrite A, (W _ _ H). destruct F; [rewrite map_app; cbn; rewrite Eol; reflexivity|]. rewrite !map_app. f_equal. f_equal. destruct fin; cbn; rewrite ?Eol; reflexivity.
  Qed.
End Words.
