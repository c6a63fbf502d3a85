(** * MissMessages: what the user is told of a syntax error

    parsers.rs 1323-1337: [Error::from] a [Rich] error.  [Display] of such an
    error, and of its reason, are chumsky's (0.12): its own text if it has one,
    else "found 'x' expected y", where x is the token as displayed; the message
    is that with the contexts. *)
From Coq Require Import String Ascii.
From Coq Require Import List NArith.
From Verif Require Import Base Types Token Display Report Messages Shown Miss MissParse.
Import ListNotations.

Section MissMessages.
  Context (M : message_env) (show_time : time -> str).
  (** What is listed as expected in the error of a source at a position, and its
      contexts, are arbitrary. *)
  Context (expected : nat -> nat -> str) (contexts : nat -> nat -> list (str * span)).

  (** chumsky's [write_token]. (chumsky: how [Display for Rich] shows what was found, at parsers.rs 1325-1329.) *)
  Definition display_found (ts : list rtoken) (at_ : nat) : str :=
    match nth_error ts at_ with
    | Some (t, _) => lit "'" ++ display_token (me_display M) show_time t ++ lit "'"
    | None => lit "end of input"
    end.

  (** chumsky's [Display] of [RichReason]. (chumsky: [Display for Rich] and [reason], at parsers.rs 1325-1329.) *)
  Definition display_miss (ts : list rtoken) (source position : nat) (x : miss) : str :=
    match ms_custom x with
    | Some text => text
    | None => lit "found " ++ display_found ts (ms_at x) ++ lit " expected " ++ expected source position
    end.

  (** parsers.rs 1323-1338, and lib.rs 299; [toks] are the tokens of the sources. *)
  Definition mnotice (toks : list (list rtoken)) (c : mcomplaint) : notice :=
    match c with
    | MC_Report r => notice_of M r
    | MC_Syntax source position x =>
        let text := display_miss (nth source toks []) source position x in
        in_explicitly_labelled_contexts
          (notice_new K_Error (me_message M text (contexts source position)) text (ms_span x)) (contexts source position)
    end.

  (** lib.rs 183-196: the errors which [parse] returns. *)
  Definition merrors_of (toks : list (list rtoken)) (r : mparsed_as) : list notice :=
    match r with MSuccess _ _ _ _ => [] | MFailure es _ => map (mnotice toks) es end.
End MissMessages.
