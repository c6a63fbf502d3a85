(** * Specification of the token stream *)
From Coq Require Import String Ascii.
From Coq Require Import List NArith Arith Bool.
From Verif Require Import Base Types Token.
Import ListNotations.
Local Open Scope nat_scope.

(** ** Lines

    A line is a run of ends of line and the tokens up to the next one. *)
Notation line := (list (token * (nat * nat)) * list (token * (nat * nat)))%type.

Definition joined (ls : list line) : list rtoken := flat_map (fun l => fst l ++ snd l) ls.

Record lines_of (l : list rtoken) (ls : list line) : Prop := {
  lo_all : l = joined ls;
  lo_runs : forall r t, In (r, t) ls ->
    r <> [] /\ Forall (fun x => is_eol (fst x) = true) r /\ Forall (fun x => is_eol (fst x) = false) t;
  (** only the last line may be without tokens *)
  lo_empty : forall a r t b, ls = a ++ (r, t) :: b -> b <> [] -> t <> []
}.

Definition starts_with_colon (ts : list rtoken) : Prop := exists r ts', ts = (T_Colon, r) :: ts'.

(** What remains of the ends of line before a line: one of them, and an indent
    if the last one is followed by space. *)
Definition break_of (run : list rtoken) : list rtoken :=
  match run with
  | [] => []
  | (_, (a, _)) :: _ =>
      match last run (T_Eol, (0, 0)) with
      | (T_EolThenIndent, (_, e)) => [(T_Eol, (a, e)); (T_Indent, (e - 1, e))]
      | (T_EolComment, _) => [(T_Eol, (a, a))]
      | (_, (_, e)) => [(T_Eol, (a, e))]
      end
  end.

(** An indented line starting with a colon counts as a comment. *)
Definition indented (run : list rtoken) : Prop := exists a r, run = a ++ [(T_EolThenIndent, r)].
Definition ignored (l : line) : Prop := indented (fst l) /\ starts_with_colon (snd l).

(** [kept ls ls']: [ls'] are the lines which are not ignored. *)
Inductive kept : list line -> list line -> Prop :=
| kept_nil : kept [] []
| kept_drop l ls ls' : ignored l -> kept ls ls' -> kept (l :: ls) ls'
| kept_keep l ls ls' : ~ ignored l -> kept ls ls' -> kept (l :: ls) (l :: ls').

(** Before the first line there need not be an end of line; lines without
    tokens or starting with a colon, indented or not, do not count. *)
Definition skipped_at_start (l : line) : Prop := snd l = [] \/ starts_with_colon (snd l).

(** [laid_out ls final out]: the tokens made of the lines [ls]. *)
Inductive laid_out (ls : list line) (final : option range) : list rtoken -> Prop :=
| laid_out_empty :
    Forall skipped_at_start ls -> laid_out ls final []
| laid_out_lines skipped run ts rest rest' :
    ls = skipped ++ (run, ts) :: rest ->
    Forall skipped_at_start skipped -> ~ skipped_at_start (run, ts) ->
    kept rest rest' ->
    laid_out ls final
      (ts ++ flat_map (fun l => break_of (fst l) ++ snd l) rest' ++
       match rest', final with
       | [], Some f => [(T_Eol, f)]
       | _, _ => []
       end).

(** ** Keys *)

(** [keyed l l']: each keyword directly followed by a colon is now a key. *)
Definition keyed (l l' : list rtoken) : Prop :=
  List.length l' = List.length l /\
  forall i t r, nth_error l i = Some (t, r) ->
    match t with
    | T_Keyword k =>
        (exists r', nth_error l (S i) = Some (T_Colon, r')) /\ nth_error l' i = Some (T_Key (keyword_text k), r) \/
        (forall r', nth_error l (S i) <> Some (T_Colon, r')) /\ nth_error l' i = Some (t, r)
    | _ => nth_error l' i = Some (t, r)
    end.
