(** * Miss: what a failing parser says (chumsky 0.12)

    [Peg] gives the meaning of the combinators but for the errors of failing
    parsers.  Here are the same combinators again with that.  chumsky keeps one
    error of all those seen so far: the one which is furthest into the input.
    Each parser returns the furthest of those seen meanwhile.

    Of an error there are the position in the tokens, the span, and the text if
    it was made by the code (a "custom" error); else it says which token was
    found there and which were expected.  The latter, and the labelled contexts,
    are not modelled. *)
From Coq Require Import List NArith Arith Bool.
From Verif Require Import Base Types Token Peg.
Import ListNotations.
Local Open Scope nat_scope.

(** chumsky: an error and where it is, as kept for parsers.rs 1323-1338. *)
Record miss := mk_miss { ms_at : nat; ms_span : span; ms_custom : option str }.
(** chumsky: the furthest error, if any, for parsers.rs 1323-1338. *)
Notation misses := (option miss).

(** chumsky's [add_alt], [add_alt_err]: of two errors the one further on is
    kept.  If both are at the same place they are merged: the span is that of the
    first, and a custom text takes precedence, the first of two.
    (chumsky: of two errors the further, for parsers.rs 1323-1338.) *)
Definition further (a b : misses) : misses :=
  match a, b with
  | None, _ => b
  | _, None => a
  | Some x, Some y =>
      match Nat.compare (ms_at x) (ms_at y) with
      | Lt => b
      | Gt => a
      | Eq => Some (mk_miss (ms_at x) (ms_span x) (match ms_custom x with Some c => Some c | None => ms_custom y end))
      end
  end.

(** chumsky: as [Peg.parser], for parsers.rs 24-1232. *)
Notation mparser A := (nat -> res A * misses).

(** chumsky: a value, as in parsers.rs 993. *)
Definition mret {A} (a : A) : mparser A := fun i => (Got a i [] [], None).

(** chumsky: as [Peg.bind], parsers.rs 98-111. *)
Definition mbind {A B} (p : mparser A) (f : A -> mparser B) : mparser B := fun i =>
  let (r, m) := p i in
  match r with
  | Got a j ws es =>
      let (r', m') := f a j in
      (match r' with
       | Got b k ws' es' => Got b k (ws ++ ws') (es ++ es')
       | Not ws' => Not (ws ++ ws')
       | Crash => Crash
       | Loop => Loop
       end, further m m')
  | Not ws => (Not ws, m)
  | Crash => (Crash, m)
  | Loop => (Loop, m)
  end.
(** No code of its own: notation for [mbind]. *)
Notation "x <-- p ;;; q" := (mbind p (fun x => q)) (at level 61, p at next level, right associativity).
(** No code of its own: notation for [mbind]. *)
Notation "p ;;; q" := (mbind p (fun _ => q)) (at level 61, right associativity).

(** chumsky: [map], as at parsers.rs 105. *)
Definition mmap {A B} (f : A -> B) (p : mparser A) : mparser B := x <-- p ;;; mret (f x).

(** chumsky: [map] at parsers.rs 1085. *)
Definition mmap_out {A B} (f : A -> outcome B) (p : mparser A) : mparser B := fun i =>
  let (r, m) := p i in
  (match r with
   | Got a j ws es => match f a with Fine b => Got b j ws es | Panic => Crash end
   | Not ws => Not ws
   | Crash => Crash
   | Loop => Loop
   end, m).

(** chumsky: [validate], as at parsers.rs 138. *)
Definition mvalidate {A B} (f : A -> B * list report) (p : mparser A) : mparser B := fun i =>
  let (r, m) := p i in
  (match r with
   | Got a j ws es => let (b, es') := f a in Got b j ws (es ++ es')
   | Not ws => Not ws
   | Crash => Crash
   | Loop => Loop
   end, m).

(** chumsky: [or], as at parsers.rs 29, 1108. *)
Definition malt {A} (p q : mparser A) : mparser A := fun i =>
  let (r, m) := p i in
  match r with
  | Not ws =>
      let (r', m') := q i in
      (match r' with
       | Got a j ws' es => Got a j (ws ++ ws') es
       | Not ws' => Not (ws ++ ws')
       | Crash => Crash
       | Loop => Loop
       end, further m m')
  | _ => (r, m)
  end.
(** chumsky: [choice], as at parsers.rs 59. *)
Fixpoint mchoice {A} (ps : list (mparser A)) : mparser A :=
  match ps with
  | [] => fun _ => (Not [], None)
  | [p] => p
  | p :: ps' => malt p (mchoice ps')
  end.

(** chumsky: [or_not], as at parsers.rs 115. *)
Definition mopt {A} (p : mparser A) : mparser (option A) := fun i =>
  let (r, m) := p i in
  (match r with
   | Got a j ws es => Got (Some a) j ws es
   | Not ws => Got None i ws []
   | Crash => Crash
   | Loop => Loop
   end, m).

(** chumsky: [repeated().collect()], as at parsers.rs 30-31. *)
Fixpoint mmany_n {A} (n : nat) (p : mparser A) : mparser (list A) := fun i =>
  match n with
  | O => (Loop, None)
  | S n' =>
      let (r, m) := p i in
      match r with
      | Got a j ws es =>
          let (r', m') := mmany_n n' p j in
          (match r' with
           | Got l k ws' es' => Got (a :: l) k (ws ++ ws') (es ++ es')
           | Not ws' => Not (ws ++ ws')
           | Crash => Crash
           | Loop => Loop
           end, further m m')
      | Not ws => (Got [] i ws [], m)
      | Crash => (Crash, m)
      | Loop => (Loop, m)
      end
  end.

Section Input.
  Context (source : nat) (toks : list rtoken) (len : nat).

  (** The error at a position: its span is that of the token there, or of the
      end of the input. (chumsky: the error where a token is not as expected, parsers.rs 1323-1338.) *)
  Definition missed (i : nat) : misses :=
    Some (mk_miss i
      (span_at source toks len i (match nth_error toks i with Some _ => S i | None => i end)) None).

  (** chumsky: [select_ref!] and [just], as at parsers.rs 97, 1146. *)
  Definition mselect {A} (f : token -> option A) : mparser A := fun i =>
    match nth_error toks i with
    | Some (t, _) => match f t with Some a => (Got a (S i) [] [], None) | None => (Not [], missed i) end
    | None => (Not [], missed i)
    end.

  (** chumsky: [end], as at parsers.rs 123. *)
  Definition mat_end : mparser unit := fun i =>
    match nth_error toks i with Some _ => (Not [], missed i) | None => (Got tt i [] [], None) end.

  (** The error of [try_map] is where its parser started.
      (chumsky: [try_map] and [try_map_with], as at parsers.rs 391, 407.) *)
  Definition mtry_map {A B E} (show : E -> str) (f : A -> outcome (result B E)) (p : mparser A) : mparser B := fun i =>
    let (r, m) := p i in
    match r with
    | Got a j ws es =>
        match f a with
        | Fine (Ok b) => (Got b j ws es, m)
        | Fine (Err e) => (Not ws, further m (Some (mk_miss i (span_at source toks len i j) (Some (show e)))))
        | Panic => (Crash, m)
        end
    | Not ws => (Not ws, m)
    | Crash => (Crash, m)
    | Loop => (Loop, m)
    end.

  (** chumsky: [repeated().collect()], as at parsers.rs 30-31. *)
  Definition mmany {A} (p : mparser A) : mparser (list A) := fun i =>
    mmany_n (S (List.length toks - i)) p i.

  (** chumsky: [foldl] at parsers.rs 1118, 1129. *)
  Definition mfoldl {A B} (p : mparser A) (q : mparser B) (f : A -> B -> A) : mparser A :=
    a <-- p ;;; l <-- mmany q ;;; mret (fold_left f l a).

  (** chumsky: [map_with], as at parsers.rs 99. *)
  Definition mmap_span {A B} (f : A -> span -> B) (p : mparser A) : mparser B := fun i =>
    let (r, m) := p i in
    (match r with
     | Got a j ws es => Got (f a (span_at source toks len i j)) j ws es
     | Not ws => Not ws
     | Crash => Crash
     | Loop => Loop
     end, m).

  (** types.rs 564-574: [spanned_extra]. *)
  Definition msp {A} (p : mparser A) : mparser (spanned A) := mmap_span mk_spanned p.
End Input.
