(** * Regex: matching by derivatives, and a lexer made of rules

    Stands for the lexers generated by logos 0.16 from the [#[token]] and
    [#[regex]] attributes: the longest match of any rule wins, among equally
    long ones the rule of highest priority. *)
From Coq Require Import String Ascii.
From Coq Require Import List NArith Arith Bool.
From Verif Require Import Base.
Import ListNotations.
Local Open Scope nat_scope.

(** logos: the regexes at lexer.rs 16-32. *)
Inductive re :=
| R_None
| R_Eps
| R_Class (p : char -> bool)
| R_Seq (a b : re)
| R_Alt (a b : re)
| R_Star (a : re).

(** [R_None] and [R_Eps] simplified away. (no code of its own: for lexer.rs 16-32.) *)
Definition seq (a b : re) : re :=
  match a, b with
  | R_None, _ | _, R_None => R_None
  | R_Eps, _ => b
  | _, R_Eps => a
  | _, _ => R_Seq a b
  end.
(** No code of its own: for lexer.rs 16-32. *)
Definition alt (a b : re) : re :=
  match a, b with
  | R_None, _ => b
  | _, R_None => a
  | _, _ => R_Alt a b
  end.

(** logos: whether the empty text matches, for lexer.rs 16-32. *)
Fixpoint nullable (r : re) : bool :=
  match r with
  | R_None | R_Class _ => false
  | R_Eps | R_Star _ => true
  | R_Seq a b => nullable a && nullable b
  | R_Alt a b => nullable a || nullable b
  end.

(** logos: what has to follow a char, for lexer.rs 16-32. *)
Fixpoint deriv (c : char) (r : re) : re :=
  match r with
  | R_None | R_Eps => R_None
  | R_Class p => if p c then R_Eps else R_None
  | R_Seq a b => alt (seq (deriv c a) b) (if nullable a then deriv c b else R_None)
  | R_Alt a b => alt (deriv c a) (deriv c b)
  | R_Star a => seq (deriv c a) (R_Star a)
  end.

(** logos: nothing matches any more, for lexer.rs 16-32. *)
Definition is_none (r : re) : bool := match r with R_None => true | _ => false end.

(** ** The notation of the regexes *)
(** logos: a char, as at lexer.rs 23. *)
Definition r_char (c : char) : re := R_Class (N.eqb c).
(** logos: [#[token(..)]], as at lexer.rs 34. *)
Fixpoint r_str (s : str) : re :=
  match s with
  | [] => R_Eps
  | [c] => r_char c
  | c :: s' => R_Seq (r_char c) (r_str s')
  end.
(** logos: the plus, as at lexer.rs 16. *)
Definition r_plus (r : re) : re := R_Seq r (R_Star r).
(** logos: the question mark, as at lexer.rs 26. *)
Definition r_opt (r : re) : re := R_Alt r R_Eps.
(** logos: a number in braces, as at lexer.rs 25. *)
Fixpoint r_rep (n : nat) (r : re) : re :=
  match n with
  | 0 => R_Eps
  | 1 => r
  | S n' => R_Seq r (r_rep n' r)
  end.
(** logos: a class in brackets, as at lexer.rs 25. *)
Definition in_set (s : str) (c : char) : bool := mem N.eqb c s.

Section Lexer.
  (** The rules in decreasing priority, with what is done with the text
      matched: [None] when it is skipped, otherwise the item; the callback
      may panic. *)
  Context {A : Type}.
  (** logos: a callback, as at lexer.rs 41, 127. *)
  Notation action := (list N -> outcome (option A)).

  (** The longest match so far and its rule's action. (logos; for lexer.rs 319, 358.) *)
  Fixpoint scan (rules : list (re * action)) (n : nat) (s : str) (best : option (nat * action))
    : option (nat * action) :=
    match s with
    | [] => best
    | c :: s' =>
        let rules' := filter (fun r => negb (is_none (fst r))) (map (fun '(r, a) => (deriv c r, a)) rules) in
        let best' := match find (fun r => nullable (fst r)) rules' with
                     | Some (_, a) => Some (S n, a)
                     | None => best
                     end in
        match rules' with
        | [] => best'
        | _ => scan rules' (S n) s' best'
        end
    end.

  (** [unmatched] is the error item and [err_len] how many chars after the
      first one it extends: how far logos looked before giving up is not
      modelled, it is arbitrary but for the end of the source. *)
  Context (rules : list (re * action)) (unmatched : A) (err_len : str -> nat).

  (** logos: how much of the text is an error, for lexer.rs 319, 366. *)
  Definition failed_chars (s : str) : nat := S (Nat.min (err_len s) (List.length s - 1)).

  (** [Logos::lexer(s).spanned()], collected: the items and their byte
      ranges, [off] being the position of [s]; [None] when [fuel] rounds do
      not suffice. (logos; used at lexer.rs 319-320, 358.) *)
  Fixpoint lexed (fuel off : nat) (s : str) : outcome (option (list (A * (nat * nat)))) :=
    match s with
    | [] => Fine (Some [])
    | _ =>
        match fuel with
        | O => Fine None
        | S fuel' =>
            match scan rules 0 s None with
            | Some (n, act) =>
                let e := off + blen (firstn n s) in
                match act (firstn n s) with
                | Panic => Panic
                | Fine None => lexed fuel' e (skipn n s)
                | Fine (Some a) =>
                    match lexed fuel' e (skipn n s) with
                    | Panic => Panic
                    | Fine r => Fine (option_map (cons (a, (off, e))) r)
                    end
                end
            | None =>
                let n := failed_chars s in
                let e := off + blen (firstn n s) in
                match lexed fuel' e (skipn n s) with
                | Panic => Panic
                | Fine r => Fine (option_map (cons (unmatched, (off, e))) r)
                end
            end
        end
    end.
End Lexer.
