(** * Specification of the layout of a ledger: words, lines and what is between them *)
From Coq Require Import String Ascii.
From Coq Require Import List NArith Arith Bool.
From Verif Require Import Base Types Token SpecLex Lexer SpecLexer.
Import ListNotations.
Local Open Scope nat_scope.

(** What ends a line, or is no line at all: ends of lines, each with the
    comment before it and the ignored lines after it, and blanks after each.
    [gaps None] is nothing; in [gaps (Some i)] there are blanks after the last
    end of line just if [i]. *)
Inductive gaps : option bool -> str -> Prop :=
| gaps_none : gaps None []
| gaps_eol e : line_break e -> gaps (Some false) e
| gaps_indent e b : line_break e -> blanks b -> gaps (Some true) (e ++ b)
| gaps_more e b i g : line_break e -> Forall is_blank b -> gaps (Some i) g -> gaps (Some i) (e ++ b ++ g).

(** A comment which ends with the text. *)
Definition last_comment (s : str) : Prop := exists t, s = 59%N :: t /\ ~ In 10%N t /\ ~ In 13%N t.

(** A line is indented or not, and has words: texts with the tokens they are. *)
Definition word : Type := (str * token)%type.
Definition words_line : Type := (bool * list word)%type.

(** A line which starts with one of these, not indented, is ignored. *)
Definition ignored_start (s : str) : Prop := exists c r, s = c :: r /\ In c (lit "*!&#?%:").

Section Layout.
  Context (E : lexer_env).

  (** [worded ws rest s]: [s] is the words [ws] with blanks between and after
      them, and then [rest]; what is to be a word is not part of a longer
      one. *)
  Inductive worded : list word -> str -> str -> Prop :=
  | worded_end rest : worded [] rest rest
  | worded_next w t b ws rest s :
      lexeme E w (tok t) -> is_eol t = false -> Forall is_blank b -> longest (lexeme E) w (b ++ s) ->
      worded ws rest s -> worded ((w, t) :: ws) rest (w ++ b ++ s).

  (** The first word of a line is no colon. *)
  Definition begins (ws : list word) : Prop := exists w t r, ws = (w, t) :: r /\ t <> T_Colon.

  (** [lined fin ls s]: what follows on the words of a line is the lines [ls]
      and the end of the text; [fin] when the last line is ended, by an end of
      line or a comment. *)
  Inductive lined : bool -> list words_line -> str -> Prop :=
  | lined_end : lined false [] []
  | lined_eol g : gaps (Some false) g -> lined true [] g
  | lined_comment o g c : gaps o g -> last_comment c -> lined true [] (g ++ c)
  | lined_next fin i ws ls g s rest :
      gaps (Some i) g -> worded ws rest s -> begins ws -> (i = false -> ~ ignored_start s) ->
      lined fin ls rest -> lined fin ((i, ws) :: ls) (g ++ s).

  (** [set_out fin ls s]: the text [s] has the lines [ls], if it has any after
      blanks [b] and gaps [g].  Whether the first of them is indented does not
      count. *)
  Inductive set_out : bool -> list words_line -> str -> Prop :=
  | laid_nothing fin b o g c : Forall is_blank b -> gaps o g -> c = [] \/ last_comment c -> set_out fin [] (b ++ g ++ c)
  | laid_lines fin i ws ls b o g s rest :
      Forall is_blank b -> gaps o g -> worded ws rest s -> begins ws -> (o = Some false -> ~ ignored_start s) ->
      lined fin ls rest -> set_out fin ((i, ws) :: ls) (b ++ g ++ s).
End Layout.

(** ** The tokens of such a text *)

(** A keyword before a colon is a key. *)
Fixpoint words_tokens (l : list token) : list token :=
  match l with
  | [] => []
  | T_Keyword k :: ((T_Colon :: _) as l') => T_Key (keyword_text k) :: words_tokens l'
  | t :: l' => t :: words_tokens l'
  end.
Definition tokens_of_words (ws : list word) : list token := words_tokens (map snd ws).
Definition tokens_of_line (l : words_line) : list token :=
  (if fst l then [T_Eol; T_Indent] else [T_Eol]) ++ tokens_of_words (snd l).
(** Before the first line there is no end of line, and after the last there is
    one when it is the only one or when it is ended. *)
Definition ledger_tokens (fin : bool) (ls : list words_line) : list token :=
  match ls with
  | [] => []
  | [l] => tokens_of_words (snd l) ++ [T_Eol]
  | l :: ls' => tokens_of_words (snd l) ++ flat_map tokens_of_line ls' ++ (if fin then [T_Eol] else [])
  end.

(** Lines with the same tokens, indented alike but for the first. *)
Definition same_words (a b : words_line) : Prop := map snd (snd a) = map snd (snd b).
Definition same_line (a b : words_line) : Prop := fst a = fst b /\ same_words a b.
Definition same_lines (a b : list words_line) : Prop :=
  match a, b with
  | [], [] => True
  | x :: a', y :: b' => same_words x y /\ Forall2 same_line a' b'
  | _, _ => False
  end.

(** Two texts with the same words on the same lines. *)
Definition relaid (E : lexer_env) (s s' : str) : Prop :=
  exists fin ls ls', set_out E fin ls s /\ set_out E fin ls' s' /\ same_lines ls ls'.

(** And where the last line may be ended in the one and not in the other. *)
Definition relaid_but_end (E : lexer_env) (s s' : str) : Prop :=
  exists fin fin' ls ls', set_out E fin ls s /\ set_out E fin' ls' s' /\ same_lines ls ls'.
