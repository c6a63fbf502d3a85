(** * Text: trimming and byte/rune conversion (src/trim.rs, src/sources.rs) *)
From Coq Require Import List NArith Arith Bool Lia.
From Verif Require Import Base.
Import ListNotations.

(** [str::rfind(p)] on the slice: byte index of the last char satisfying [p]. (std; used at trim.rs 5-10.) *)
Fixpoint rfind_from (p : char -> bool) (off : nat) (s : str) : option nat :=
  match s with
  | [] => None
  | c :: s' =>
      match rfind_from p (off + utf8_len c) s' with
      | Some i => Some i
      | None => if p c then Some off else None
      end
  end.
(** std; used at trim.rs 5-10. *)
Definition rfind (p : char -> bool) (s : str) : option nat := rfind_from p 0 s.

(** src/trim.rs 4-10: [trim_trailing_whitespace]; [Panic] when the slice
    [content[start..end]] is not on char boundaries or out of range. *)
Definition trim_trailing_whitespace (content : str) (start end_ : nat) : outcome nat :=
  match str_get content start end_ with
  | None => Panic
  | Some m =>
      match rfind (fun c => negb (is_whitespace c)) m with
      | Some i => Fine (start + i + 1)
      | None => Fine end_
      end
  end.

(** src/sources.rs 715-726: [trimmed_span]. *)
Definition trimmed_span (source : str) (sp : span) : outcome span :=
  match str_get source (sp_start sp) (sp_end sp) with
  | None => Fine (mk_span (sp_source sp) 0 0)
  | Some _ =>
      match trim_trailing_whitespace source (sp_start sp) (sp_end sp) with
      | Fine e => Fine (mk_span (sp_source sp) (sp_start sp) e)
      | Panic => Panic
      end
  end.

(** [slice::partition_point(p)], that is
    [binary_search_by(|x| if p(x) {Less} else {Greater}).unwrap_or_else(|i| i)],
    following core::slice::binary_search_by: halve [size], keep [base].
    [length l] rounds suffice. (std; used at sources.rs 280-281, 730-731.) *)
Fixpoint pp_loop (fuel : nat) (p : nat -> bool) (l : list nat) (size base : nat) : nat :=
  match fuel with
  | O => base
  | S f =>
      if 1 <? size then
        let half := Nat.div2 size in
        let mid := base + half in
        pp_loop f p l (size - half) (if p (nth mid l 0) then mid else base)
      else base
  end.
(** std; used at sources.rs 280-281, 730-731. *)
Definition partition_point (p : nat -> bool) (l : list nat) : nat :=
  match l with
  | [] => 0
  | _ =>
      let base := pp_loop (length l) p l (length l) 0 in
      if p (nth base l 0) then base + 1 else base
  end.

(** src/sources.rs 728-733: [byte_to_rune]. *)
Definition byte_to_rune (char_indices : list nat) (sp : span) : span :=
  mk_span (sp_source sp)
    (partition_point (fun i => i <? sp_start sp) char_indices)
    (partition_point (fun i => i <? sp_end sp) char_indices).
