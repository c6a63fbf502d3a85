(** * Base: strings, bytes, spans, finite maps

    Rust [str] is modelled as the list of its Unicode scalar values; byte
    offsets are recovered from the UTF-8 length of each scalar.  Everything in
    this file is about the Rust standard library, not about /repo itself,
    except [Span] and [Spanned] (types.rs). *)
From Coq Require Import String Ascii.
From Coq Require Import List NArith Arith Bool Lia.
Import ListNotations.
Local Open Scope nat_scope.

(** Rust [char]: a Unicode scalar value.  (Surrogates are not excluded by the
    type; no theorem depends on that.)
    (std; the chars which types.rs 1352-1360 and 2076-2086, for example, look at.) *)
Notation char := N (only parsing).

(** Rust [str] / [String] as a sequence of chars.
    (std; the [&str] slices of a source throughout, as in lexer.rs 33-175.) *)
Notation str := (list N) (only parsing).

(** ASCII literals of the Rust source. (no code of its own: the literals such as those at options.rs 71-152.) *)
Definition lit (s : string) : str := map N_of_ascii (list_ascii_of_string s).
(** No code of its own: char literals such as those at types.rs 2051. *)
Definition chr (a : ascii) : char := N_of_ascii a.

(** [char::len_utf8]. *)
Definition utf8_len (c : char) : nat :=
  if (c <? 128)%N then 1
  else if (c <? 2048)%N then 2
  else if (c <? 65536)%N then 3
  else 4.

(** [str::len]: length in bytes. (std; used at lexer.rs 305, types.rs 1694-1699, sources.rs 481-482.) *)
Fixpoint blen (s : str) : nat :=
  match s with
  | [] => 0
  | c :: s' => utf8_len c + blen s'
  end.

(** Split a string at a byte offset; [None] if the offset is beyond the end or
    inside a character ([str::is_char_boundary] is false).
    (std; behind the slices at lexer.rs 355, sources.rs 273, 291, 719.) *)
Fixpoint split_at (n : nat) (s : str) : option (str * str) :=
  match n with
  | O => Some ([], s)
  | S _ =>
      match s with
      | [] => None
      | c :: s' =>
          if utf8_len c <=? n then
            match split_at (n - utf8_len c) s' with
            | Some (a, b) => Some (c :: a, b)
            | None => None
            end
          else None
      end
  end.

(** [str::get(a..b)]: [None] for misaligned, inverted or out of range
    arguments.  The indexing form [&s[a..b]] panics exactly when this is
    [None]. (std; used at sources.rs 273, 291, 573, 699, 719.) *)
Definition str_get (s : str) (a b : nat) : option str :=
  if a <=? b then
    match split_at a s with
    | Some (_, rest) =>
        match split_at (b - a) rest with
        | Some (m, _) => Some m
        | None => None
        end
    | None => None
    end
  else None.

(** [str::char_indices().map(|(i, _)| i)] with all indices shifted by [base].
    (std; used at sources.rs 135-138, 175-178, 490-494, 509.) *)
Fixpoint char_offs (base : nat) (s : str) : list nat :=
  match s with
  | [] => []
  | c :: s' => base :: char_offs (base + utf8_len c) s'
  end.

(** Outcome of code that may panic. (no code of its own: [panic!] at lib.rs 527 and each [unwrap] or index.) *)
Inductive outcome (A : Type) : Type :=
| Fine (a : A)
| Panic.
Arguments Fine {A} a.
Arguments Panic {A}.

(** Rust [Result]. (std; as at options.rs 62-66.) *)
Inductive result (A E : Type) : Type :=
| Ok (a : A)
| Err (e : E).
Arguments Ok {A E} a.
Arguments Err {A E} e.

(** ** Character classes *)

(** std; used at types.rs 1467. *)
Definition is_ascii (c : char) : bool := (c <? 128)%N.
(** std; used at types.rs 396, 1354, 1467, 1583, 1587, 1593. *)
Definition is_ascii_uppercase (c : char) : bool := (65 <=? c)%N && (c <=? 90)%N.
(** std; used at types.rs 2094. *)
Definition is_ascii_lowercase (c : char) : bool := (97 <=? c)%N && (c <=? 122)%N.
(** std; used at types.rs 1467, 1588, 1593. *)
Definition is_ascii_digit (c : char) : bool := (48 <=? c)%N && (c <=? 57)%N.

(** [char::is_whitespace]: Unicode White_Space. (std; used at trim.rs 5-10.) *)
Definition is_whitespace (c : char) : bool :=
  ((9 <=? c) && (c <=? 13) || (c =? 32) || (c =? 133) || (c =? 160) ||
   (c =? 5760) || (8192 <=? c) && (c <=? 8202) || (c =? 8232) || (c =? 8233) ||
   (c =? 8239) || (c =? 8287) || (c =? 12288))%N.

(** The char at parsers.rs 1208 and sources.rs 258, 264. *)
Definition newline : char := 10%N.

(** The Unicode property tables used by [char::is_alphabetic],
    [char::is_numeric] and by the regex classes [\p{L}], [\p{Lu}], [\p{Lo}],
    [\p{N}], [\d].  The theorems hold for any tables which agree with ASCII.
    (std and logos; used at types.rs 1358, 1467, 2054, 2098 and lexer.rs 25-30.) *)
Record unicode := {
  u_alphabetic : char -> bool;
  u_numeric : char -> bool;
  u_L : char -> bool;
  u_Lu : char -> bool;
  u_Lo : char -> bool;
  u_N : char -> bool;
  u_Nd : char -> bool
}.

(** std; used at types.rs 1358, 2054, 2098. *)
Definition is_alphanumeric (U : unicode) (c : char) : bool :=
  u_alphabetic U c || u_numeric U c.

(** Agreement with the ASCII part of Unicode.
    (no code of its own: what is assumed of std, for types.rs 1358 and lexer.rs 25-30.) *)
Definition unicode_ok (U : unicode) : Prop :=
  forall c, is_ascii c = true ->
    u_alphabetic U c = (is_ascii_uppercase c || is_ascii_lowercase c) /\
    u_numeric U c = is_ascii_digit c /\
    u_L U c = (is_ascii_uppercase c || is_ascii_lowercase c) /\
    u_Lu U c = is_ascii_uppercase c /\
    u_Lo U c = false /\
    u_N U c = is_ascii_digit c /\
    u_Nd U c = is_ascii_digit c.

(** The smallest such tables, used in the concrete examples. (no code of its own: an instance, for examples.) *)
Definition ascii_unicode : unicode := {|
  u_alphabetic := fun c => is_ascii_uppercase c || is_ascii_lowercase c;
  u_numeric := is_ascii_digit;
  u_L := fun c => is_ascii_uppercase c || is_ascii_lowercase c;
  u_Lu := is_ascii_uppercase;
  u_Lo := fun _ => false;
  u_N := is_ascii_digit;
  u_Nd := is_ascii_digit |}.

(** ** Decidable equality of strings *)

(** std; [PartialEq for str], used at options.rs 53, 70-152, 229-231. *)
Fixpoint str_eqb (a b : str) : bool :=
  match a, b with
  | [], [] => true
  | x :: a', y :: b' => (x =? y)%N && str_eqb a' b'
  | _, _ => false
  end.

(** ** Spans *)

(** types.rs 493-497: [Span]. *)
Record span := mk_span { sp_source : nat; sp_start : nat; sp_end : nat }.

(** types.rs 531-537: [Spanned<T>]. *)
Record spanned (A : Type) := mk_spanned { item : A; span_of : span }.
Arguments mk_spanned {A} item span_of.
Arguments item {A} _.
Arguments span_of {A} _.

(** ** Finite maps

    [HashMap<K, V>] as an association list without repeated keys, given an
    equality test on keys.  The list order stands for the (unspecified)
    iteration order. *)
Section Assoc.
  Context {K V : Type} (keqb : K -> K -> bool).

  (** [HashMap::get] (std; used at lib.rs 526, 577, 604-606, sources.rs 148, 313, types.rs 2765.) *)
  Fixpoint lookup (k : K) (m : list (K * V)) : option V :=
    match m with
    | [] => None
    | (k', v) :: m' => if keqb k k' then Some v else lookup k m'
    end.

  (** [HashMap::remove] (std; used at lib.rs 381, 480, 514, types.rs 2780.) *)
  Fixpoint remove_key (k : K) (m : list (K * V)) : list (K * V) :=
    match m with
    | [] => []
    | (k', v) :: m' => if keqb k k' then remove_key k m' else (k', v) :: remove_key k m'
    end.

  (** [HashMap::get_mut] followed by assignment: the stored key is kept.
      (std; used at lib.rs 449-452, 460-468, 483-486, 495-502.) *)
  Fixpoint replace_val (k : K) (v : V) (m : list (K * V)) : list (K * V) :=
    match m with
    | [] => []
    | (k', v') :: m' => if keqb k k' then (k', v) :: m' else (k', v') :: replace_val k v m'
    end.

  (** [HashMap::insert]: an existing entry keeps its key and takes the new value.
      (std; used at lib.rs 290, 454, 562, sources.rs 95, 105, 145, 170, 510.) *)
  Definition insert (k : K) (v : V) (m : list (K * V)) : list (K * V) :=
    match lookup k m with
    | Some _ => replace_val k v m
    | None => m ++ [(k, v)]
    end.
End Assoc.

(** [HashSet::contains] (std; used at parsers.rs 368, 735, 747, 1044, 1056, 1265, sources.rs 111.) *)
Fixpoint mem {A} (eqb : A -> A -> bool) (x : A) (l : list A) : bool :=
  match l with
  | [] => false
  | y :: l' => eqb x y || mem eqb x l'
  end.

(** [PartialEq for Spanned]: types.rs 641-648, the span is ignored. *)
Definition spanned_eqb {A} (eqb : A -> A -> bool) (x y : spanned A) : bool :=
  eqb (item x) (item y).
