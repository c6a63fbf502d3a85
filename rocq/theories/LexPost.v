(** * LexPost: what is done to the tokens of the generated lexer (src/lexer.rs 300-661) *)
From Coq Require Import String Ascii.
From Coq Require Import List NArith Arith Bool.
From Verif Require Import Base Types Token.
Import ListNotations.
Local Open Scope nat_scope.

(** [Iterator::next]: an item and the iterator afterwards, or the end. *)
Section Collect.
  Context {S A : Type} (next : S -> option (A * S)).

  (** [Iterator::collect]; [None] when [fuel] calls do not suffice.
      (std: an iterator run to its end, as at lib.rs 128-130.) *)
  Fixpoint collect (fuel : nat) (s : S) : option (list A) :=
    match fuel with
    | O => None
    | Datatypes.S n =>
        match next s with
        | None => Some []
        | Some (a, s') => option_map (cons a) (collect n s')
        end
    end.
End Collect.

(** [while cond(tok) { tok = iter.next() }], where the tokens still to come,
    [tok] included, are a list. (lexer.rs 523-525, 530-532, 549-551: the [while] loops.) *)
Fixpoint drop_while {A} (p : A -> bool) (l : list A) : list A :=
  match l with
  | [] => []
  | x :: l' => if p x then drop_while p l' else l
  end.

(** ** Recovery *)

Section Recovery.
  (** The whole source and the lexer generated for [RecoveryToken]
      (lexer.rs 266-298), whose tokens are given as [Token]s; it may panic. *)
  Context (source : str) (recover : str -> outcome (list (result token str * range))).

  (** lexer.rs 374-386: an item of the recovery lexer. *)
  Definition recovered (i : result token str * range) (o : nat) : rtoken :=
    let '(r, (a, b)) := i in
    (match r with Ok t => t | Err e => T_Error e end, (a + o, b + o)).

  (** lexer.rs 338. *)
  Notation recovery := (option (list (result token str * range) * nat)).

  (** lexer.rs 354-372: [create_recovery_lexer] and [next_primary_item], with
      the call of [next_recovery_item] on a fresh recovery lexer. [Panic] is
      the indexing of the source, or the recovery lexer, which is run to its
      end here although it is lazy. *)
  Fixpoint next_primary (prim : list (result token str * range))
    : outcome (option (rtoken * (list (result token str * range) * recovery))) :=
    match prim with
    | [] => Fine None
    | (Ok t, sp) :: p => Fine (Some ((t, sp), (p, None)))
    | (Err _, (a, b)) :: p =>
        match str_get source a b with
        | None => Panic
        | Some failed =>
            match recover failed with
            | Panic => Panic
            | Fine (i :: r) => Fine (Some (recovered i a, (p, Some (r, a))))
            | Fine [] => next_primary p
            end
        end
    end.

  (** lexer.rs 374-406: [next_recovery_item], [next]. *)
  Definition next_recovery (s : list (result token str * range) * recovery)
    : outcome (option (rtoken * (list (result token str * range) * recovery))) :=
    match snd s with
    | Some (i :: r, o) => Fine (Some (recovered i o, (fst s, Some (r, o))))
    | _ => next_primary (fst s)
    end.

  (** lexer.rs 397-406, run to its end. *)
  Fixpoint recovery_collect (fuel : nat) (s : list (result token str * range) * recovery) : outcome (option (list rtoken)) :=
    match fuel with
    | O => Fine None
    | S n =>
        match next_recovery s with
        | Panic => Panic
        | Fine None => Fine (Some [])
        | Fine (Some (a, s')) =>
            match recovery_collect n s' with
            | Panic => Panic
            | Fine r => Fine (option_map (cons a) r)
            end
        end
    end.

  (** Enough calls for any input. (no code of its own: a number of steps which suffices for lexer.rs 397-406.) *)
  Definition recovery_fuel (l : list (result token str * range)) : nat :=
    S (list_sum (map (fun '(r, (a, b)) =>
         match r with
         | Ok _ => 1
         | Err _ =>
             match str_get source a b with
             | Some f => match recover f with Fine r => List.length r | Panic => 0 end
             | None => 0
             end
         end) l)).

  (** lexer.rs 342-352, 408-412: [attempt_recovery], collected. *)
  Definition attempt_recovery (l : list (result token str * range)) : outcome (option (list rtoken)) :=
    recovery_collect (recovery_fuel l) (l, None).
End Recovery.

(** ** Keywords which are keys *)

(** lexer.rs 430-454: [potential_key]. *)
Definition potential_key (t : token) : option str :=
  match t with
  | T_Keyword K_Txn => Some (lit "txn")
  | T_Keyword K_Balance => Some (lit "balance")
  | T_Keyword K_Open => Some (lit "open")
  | T_Keyword K_Close => Some (lit "close")
  | T_Keyword K_Commodity => Some (lit "commodity")
  | T_Keyword K_Pad => Some (lit "pad")
  | T_Keyword K_Event => Some (lit "event")
  | T_Keyword K_Query => Some (lit "query")
  | T_Keyword K_Custom => Some (lit "custom")
  | T_Keyword K_Price => Some (lit "price")
  | T_Keyword K_Note => Some (lit "note")
  | T_Keyword K_Document => Some (lit "document")
  | T_Keyword K_Pushtag => Some (lit "pushtag")
  | T_Keyword K_Poptag => Some (lit "poptag")
  | T_Keyword K_Pushmeta => Some (lit "pushmeta")
  | T_Keyword K_Popmeta => Some (lit "popmeta")
  | T_Keyword K_Option => Some (lit "option")
  | T_Keyword K_Options => Some (lit "options")
  | T_Keyword K_Plugin => Some (lit "plugin")
  | T_Keyword K_Include => Some (lit "include")
  | _ => None
  end.

(** lexer.rs 416-419: [KeywordThenColonToKey]: the tokens to come and [pending_tok]. *)
Notation kw_state := (list (token * (nat * nat)) * option (token * (nat * nat) * option (list N)))%type.

(** lexer.rs 463-487: [next]. *)
Definition keyword_next (s : kw_state) : option (rtoken * kw_state) :=
  let '(iter, pending) :=
    match snd s with
    | None => match fst s with
              | tok :: iter => (iter, Some (tok, potential_key (fst tok)))
              | [] => ([], None)
              end
    | Some _ => s
    end in
  match pending with
  | Some (pending_tok, Some key) =>
      match iter with
      | [] => Some (pending_tok, ([], None))
      | (T_Colon, r) :: iter' => Some ((T_Key key, snd pending_tok), (iter', Some ((T_Colon, r), None)))
      | other :: iter' => Some (pending_tok, (iter', Some (other, potential_key (fst other))))
      end
  | Some (pending_tok, None) => Some (pending_tok, (iter, None))
  | None => None
  end.

(** lexer.rs 490-494: [keyword_then_colon_to_key], collected. *)
Definition keyword_then_colon_to_key (l : list rtoken) : option (list rtoken) :=
  collect keyword_next (S (List.length l)) (l, None).

(** ** Ends of lines and indents *)

(** lexer.rs 505-512: [EolIndentHandler]. *)
Record eol_state := mk_eol {
  eh_iter : list rtoken;
  eh_first : option rtoken;
  eh_pending : option rtoken * option rtoken;
  eh_final : option range;
  eh_previous_was_eol : bool;
  eh_any : bool
}.

(** lexer.rs 523, 561, 575. *)
Definition eol_tok (t : rtoken) : bool := is_eol (fst t).
(** lexer.rs 530, 549. *)
Definition not_eol (t : rtoken) : bool := negb (is_eol (fst t)).

(** lexer.rs 519-537: the outer loop of [new]; [l] is [first_tok] and the
    tokens after it.  [None] when [fuel] rounds do not suffice. *)
Fixpoint eol_start (fuel : nat) (l : list rtoken) : option (list rtoken) :=
  match drop_while eol_tok l with
  | (T_Colon, _) :: l' =>
      match fuel with
      | O => None
      | S n => eol_start n (drop_while not_eol l')
      end
  | l' => Some l'
  end.

(** [Iterator::next] of the underlying iterator. (lexer.rs 524, 528, 548, 569: [self.iter.next()].) *)
Definition pull (l : list rtoken) : option rtoken * list rtoken :=
  match l with [] => (None, []) | t :: l' => (Some t, l') end.

(** lexer.rs 518-545: [new]. *)
Definition eol_new (l : list rtoken) (final : option range) : option eol_state :=
  match eol_start (List.length l) ((T_Eol, (0, 0)) :: l) with
  | None => None
  | Some l' => let '(first, iter) := pull l' in Some (mk_eol iter first (None, None) final false false)
  end.

(** lexer.rs 547-554: [skip_to_end_of_line]. *)
Definition skip_to_end_of_line (iter : list rtoken) : option rtoken * list rtoken :=
  pull (drop_while not_eol iter).

(** lexer.rs 557-566: [get_second_tok_if_required]. *)
Definition second_if_required (first : option rtoken) (iter : list rtoken) : option rtoken * list rtoken :=
  match first with
  | Some t => if is_eol (fst t) then pull iter else (None, iter)
  | None => (None, iter)
  end.

(** lexer.rs 573-593: the loop of [merge]. *)
Fixpoint merge_loop (fuel : nat) (first second : option rtoken) (iter : list rtoken)
  : option (option rtoken * option rtoken * list rtoken) :=
  match first, second with
  | Some (f, (fs, fe)), Some (t, (ss, se)) =>
      if is_eol f && is_eol t then
        let end_ := match t with T_EolComment => ss | _ => se end in
        let '(second', iter') := pull iter in
        match fuel with
        | O => None
        | S n => merge_loop n (Some (t, (fs, end_))) second' iter'
        end
      else match f, t with
      | T_EolThenIndent, T_Colon =>
          let '(first', iter1) := skip_to_end_of_line iter in
          let '(second', iter2) := second_if_required first' iter1 in
          match fuel with
          | O => None
          | S n => merge_loop n first' second' iter2
          end
      | _, _ => Some (first, second, iter)
      end
  | _, _ => Some (first, second, iter)
  end.

(** lexer.rs 568-604: [merge]; the outer option is about [fuel]. *)
Definition merge (s : eol_state) : option (option (rtoken * eol_state)) :=
  let '(first, iter1) := pull (eh_iter s) in
  let '(second, iter2) := second_if_required first iter1 in
  match merge_loop (List.length (eh_iter s)) first second iter2 with
  | None => None
  | Some (first, second, iter) =>
      let with_pending p :=
        mk_eol iter (eh_first s) p (eh_final s) (eh_previous_was_eol s) (eh_any s) in
      Some (match first with
            | Some (T_EolThenIndent, (a, b)) =>
                Some ((T_Eol, (a, b)), with_pending (Some (T_Indent, (b - 1, b)), second))
            | Some tok => Some (tok, with_pending (second, None))
            | None => None
            end)
  end.

(** lexer.rs 606-614: [next_merged].  When there is nothing more the state is
    left as it is but for [eh_iter], which is then used up. *)
Definition next_merged (s : eol_state) : option (option (rtoken * eol_state)) :=
  match eh_pending s with
  | (Some first, second) =>
      Some (Some (first, mk_eol (eh_iter s) (eh_first s) (second, None) (eh_final s) (eh_previous_was_eol s) (eh_any s)))
  | (None, _) =>
      merge (mk_eol (eh_iter s) (eh_first s) (None, None) (eh_final s) (eh_previous_was_eol s) (eh_any s))
  end.

(** lexer.rs 633, 653, 656: the assignments. *)
Definition with_flags (s : eol_state) (previous_was_eol any : bool) : eol_state :=
  mk_eol (eh_iter s) (eh_first s) (eh_pending s) (eh_final s) previous_was_eol any.

(** lexer.rs 623-660: [next]. *)
Definition eol_next (s : eol_state) : option (option (rtoken * eol_state)) :=
  let next :=
    match eh_first s with
    | Some t => Some (Some (t, mk_eol (eh_iter s) None (eh_pending s) (eh_final s) (eh_previous_was_eol s) (eh_any s)))
    | None => next_merged s
    end in
  match next with
  | None => None
  | Some None =>
      Some (match eh_final s with
            | Some span =>
                if negb (eh_previous_was_eol s) then
                  if eh_any s then
                    Some ((T_Eol, span), mk_eol [] None (None, None) (eh_final s) true (eh_any s))
                  else None
                else None
            | None => None
            end)
  | Some (Some (it, s')) =>
      let it := match it with (T_EolComment, (a, _)) => (T_Eol, (a, a)) | _ => it end in
      Some (Some (it, with_flags s'
                        (match it with (T_Eol, _) => true | _ => eh_previous_was_eol s' end) true))
  end.

(** lexer.rs 617-661, run to its end. *)
Fixpoint eol_collect (fuel : nat) (s : eol_state) : option (list rtoken) :=
  match fuel with
  | O => None
  | S n =>
      match eol_next s with
      | None => None
      | Some None => Some []
      | Some (Some (t, s')) => option_map (cons t) (eol_collect n s')
      end
  end.

(** lexer.rs 663-667: [handle_eol_indent], collected.  An item of the input
    gives at most two. *)
Definition handle_eol_indent (l : list rtoken) (final : option range) : option (list rtoken) :=
  match eol_new l final with
  | None => None
  | Some s => eol_collect (2 * List.length l + 3) s
  end.
