(** * Peg: the parser combinators of chumsky 0.12 used in src/parsers.rs

    chumsky is not part of /repo; this file is the meaning given to its
    combinators.  A parser reads the tokens of one source from a position.
    Ordered choice commits to the first alternative which succeeds; [or_not]
    and [repeated] take what they can get.  When an alternative fails, the
    position and the errors it has emitted are rewound, but not the state,
    which is an [extra::SimpleState]: the warnings pushed meanwhile stay.

    The state ([ParserState], parsers.rs 1340-1345) has two parts.  [options]
    is only changed by the parser of options, so it is a constant here, and
    [Parse] has the parsers which may change it.  [warnings] is only pushed to;
    parsers return what they push.

    What a failing parser says in its error is in [Miss]. *)
From Coq Require Import List NArith Arith Bool.
From Verif Require Import Base Types Token.
Import ListNotations.
Local Open Scope nat_scope.

(** The result of a parser: a value, the next position, the warnings pushed
    and the errors emitted; or failure, with the warnings pushed; or a panic;
    or no end. (chumsky: the outcome of a parser of parsers.rs 24-1232.) *)
Inductive res (A : Type) : Type :=
| Got (a : A) (j : nat) (ws es : list report)
| Not (ws : list report)
| Crash
| Loop.
Arguments Got {A} a j ws es.
Arguments Not {A} ws.
Arguments Crash {A}.
Arguments Loop {A}.

(** chumsky: a parser, as in the types at parsers.rs 24-1232. *)
Notation parser A := (nat -> res A).

(** chumsky: a value, as in parsers.rs 993. *)
Definition ret {A} (a : A) : parser A := fun i => Got a i [] [].

(** [then], [ignore_then], [then_ignore], [group]. (as at parsers.rs 98, 108, 115, 169.) *)
Definition bind {A B} (p : parser A) (f : A -> parser B) : parser B := fun i =>
  match p i with
  | Got a j ws es =>
      match f a j with
      | Got b k ws' es' => Got b k (ws ++ ws') (es ++ es')
      | Not ws' => Not (ws ++ ws')
      | Crash => Crash
      | Loop => Loop
      end
  | Not ws => Not ws
  | Crash => Crash
  | Loop => Loop
  end.
(** No code of its own: notation for [bind]. *)
Notation "x <- p ;; q" := (bind p (fun x => q)) (at level 61, p at next level, right associativity).
(** No code of its own: notation for [bind]. *)
Notation "p ;; q" := (bind p (fun _ => q)) (at level 61, right associativity).

(** [map], [to]. (as at parsers.rs 105, 635.) *)
Definition pmap {A B} (f : A -> B) (p : parser A) : parser B := x <- p ;; ret (f x).

(** [map] with a function which may panic. (parsers.rs 1085.) *)
Definition pmap_out {A B} (f : A -> outcome B) (p : parser A) : parser B := fun i =>
  match p i with
  | Got a j ws es => match f a with Fine b => Got b j ws es | Panic => Crash end
  | Not ws => Not ws
  | Crash => Crash
  | Loop => Loop
  end.

(** [try_map]; the error is dropped. (as at parsers.rs 391, 407, 945, 973, 1147.) *)
Definition try_map {A B E} (f : A -> outcome (result B E)) (p : parser A) : parser B := fun i =>
  match p i with
  | Got a j ws es =>
      match f a with
      | Fine (Ok b) => Got b j ws es
      | Fine (Err _) => Not ws
      | Panic => Crash
      end
  | Not ws => Not ws
  | Crash => Crash
  | Loop => Loop
  end.

(** [validate]: the function gives a value and the errors to emit. (as at parsers.rs 174, 258, 363, 711, 1039.) *)
Definition validate {A B} (f : A -> B * list report) (p : parser A) : parser B := fun i =>
  match p i with
  | Got a j ws es => let (b, es') := f a in Got b j ws (es ++ es')
  | Not ws => Not ws
  | Crash => Crash
  | Loop => Loop
  end.

(** [or], [choice]. (as at parsers.rs 29, 1108.) *)
Definition alt {A} (p q : parser A) : parser A := fun i =>
  match p i with
  | Not ws =>
      match q i with
      | Got a j ws' es => Got a j (ws ++ ws') es
      | Not ws' => Not (ws ++ ws')
      | Crash => Crash
      | Loop => Loop
      end
  | r => r
  end.
(** chumsky: [choice], as at parsers.rs 59, 69, 96. *)
Fixpoint choice {A} (ps : list (parser A)) : parser A :=
  match ps with
  | [] => fun _ => Not []
  | [p] => p
  | p :: ps' => alt p (choice ps')
  end.

(** [or_not]. (as at parsers.rs 115, 212-213, 343.) *)
Definition opt {A} (p : parser A) : parser (option A) := fun i =>
  match p i with
  | Got a j ws es => Got (Some a) j ws es
  | Not ws => Got None i ws []
  | Crash => Crash
  | Loop => Loop
  end.

(** [repeated().collect::<Vec<_>>()], [Loop] when [n] repetitions do not suffice. (as at parsers.rs 30-31, 172.) *)
Fixpoint many_n {A} (n : nat) (p : parser A) : parser (list A) := fun i =>
  match n with
  | O => Loop
  | S n' =>
      match p i with
      | Got a j ws es =>
          match many_n n' p j with
          | Got l k ws' es' => Got (a :: l) k (ws ++ ws') (es ++ es')
          | Not ws' => Not (ws ++ ws')
          | Crash => Crash
          | Loop => Loop
          end
      | Not ws => Got [] i ws []
      | Crash => Crash
      | Loop => Loop
      end
  end.

Section Input.
  (** The number of the source, its tokens and its length in bytes. *)
  Context (source : nat) (toks : list rtoken) (len : nat).

  (** [any_ref], [just], [select_ref!]. (as at parsers.rs 29, 97, 1146.) *)
  Definition select {A} (f : token -> option A) : parser A := fun i =>
    match nth_error toks i with
    | Some (t, _) => match f t with Some a => Got a (S i) [] [] | None => Not [] end
    | None => Not []
    end.

  (** [end]. (as at parsers.rs 123.) *)
  Definition at_end : parser unit := fun i =>
    match nth_error toks i with Some _ => Not [] | None => Got tt i [] [] end.

  (** One repetition more than there are tokens left always suffices for a
      parser which consumes some. (for parsers.rs 30-31, 172.) *)
  Definition many {A} (p : parser A) : parser (list A) := fun i =>
    many_n (S (List.length toks - i)) p i.

  (** [foldl]. (parsers.rs 1118, 1129.) *)
  Definition foldl {A B} (p : parser A) (q : parser B) (f : A -> B -> A) : parser A :=
    a <- p ;; l <- many q ;; ret (fold_left f l a).

  (** [MapExtra::span]: from the start of the token after the start to the end
      of the last token consumed; where there is none, the end of input. (as at parsers.rs 99, 392.) *)
  Definition start_of (i : nat) : nat :=
    match nth_error toks i with Some (_, (a, _)) => a | None => len end.
  (** the end of the last token before, as at parsers.rs 99, 392. *)
  Definition end_before (j : nat) : nat :=
    match j with
    | O => len
    | S k => match nth_error toks k with Some (_, (_, b)) => b | None => len end
    end.
  (** the whole, as at parsers.rs 99, 392. *)
  Definition span_at (i j : nat) : span := mk_span source (start_of i) (end_before j).

  (** [map_with] with a function of the value and the span. (as at parsers.rs 99, 664.) *)
  Definition map_span {A B} (f : A -> span -> B) (p : parser A) : parser B := fun i =>
    match p i with
    | Got a j ws es => Got (f a (span_at i j)) j ws es
    | Not ws => Not ws
    | Crash => Crash
    | Loop => Loop
    end.

  (** types.rs 564-574: [map_with(spanned_extra)]. *)
  Definition sp {A} (p : parser A) : parser (spanned A) := map_span mk_spanned p.
End Input.
