(** * MissParse: files, with what the syntax errors say (src/parsers.rs 41-162, src/lib.rs 225-302)

    The definitions of [Parse] once more, over those of [MissGrammar]. *)
From Coq Require Import String Ascii.
From Coq Require Import List NArith ZArith Arith Bool.
From Verif Require Import Base Text Path Sources Types SortM Options Pragma Read Token Lexer Peg Grammar Parse Miss MissGrammar.
Import ListNotations.
Local Open Scope nat_scope.

(** An error as in [complaint]; a syntax error has what was said.
    (parsers.rs 1321: [ParserError], for lib.rs 286-291.) *)
Inductive mcomplaint := MC_Report (r : report) | MC_Syntax (source position : nat) (m : miss).

(** As [Parse.sres], for either kind of errors. (chumsky: with the [ParserState] of parsers.rs 1342-1348.) *)
Inductive mres (A : Type) : Type :=
| MGot (a : A) (j : nat) (es : list mcomplaint) (st : pstate)
| MNot (st : pstate)
| MCrash
| MLoop.
Arguments MGot {A} a j es st.
Arguments MNot {A} st.
Arguments MCrash {A}.
Arguments MLoop {A}.
(** chumsky: a parser with [Extra], parsers.rs 1348. *)
Notation msparser A := (pstate -> nat -> mres A * misses).

(** parsers.rs 165-1232: all but [option] only read the options, 391-399 and 1203-1231. *)
Definition mlift {A} (p : parser_options -> mparser A) : msparser A := fun st i =>
  let (r, m) := p (ps_options st) i in
  (match r with
   | Got a j ws es => MGot a j (map MC_Report es) (pushed st ws)
   | Not ws => MNot (pushed st ws)
   | Crash => MCrash
   | Loop => MLoop
   end, m).

(** parsers.rs 135-138. *)
Definition msbind {A B} (p : msparser A) (f : A -> msparser B) : msparser B := fun st i =>
  let (r, m) := p st i in
  match r with
  | MGot a j es st1 =>
      let (r', m') := f a st1 j in
      (match r' with
       | MGot b k es' st2 => MGot b k (es ++ es') st2
       | MNot st2 => MNot st2
       | MCrash => MCrash
       | MLoop => MLoop
       end, further m m')
  | MNot st1 => (MNot st1, m)
  | MCrash => (MCrash, m)
  | MLoop => (MLoop, m)
  end.
(** parsers.rs 112. *)
Definition msret {A} (a : A) : msparser A := fun st i => (MGot a i [] st, None).
(** parsers.rs 59, 112. *)
Definition msmap {A B} (f : A -> B) (p : msparser A) : msparser B := msbind p (fun a => msret (f a)).
(** parsers.rs 59, 96. *)
Definition msalt {A} (p q : msparser A) : msparser A := fun st i =>
  let (r, m) := p st i in
  match r with
  | MNot st1 => let (r', m') := q st1 i in (r', further m m')
  | _ => (r, m)
  end.
(** parsers.rs 59, 96-122. *)
Fixpoint mschoice {A} (ps : list (msparser A)) : msparser A :=
  match ps with
  | [] => fun st _ => (MNot st, None)
  | [p] => p
  | p :: ps' => msalt p (mschoice ps')
  end.

Section File.
  Context (E : grammar_env) (I : input) (source_path : option path).

  (** types.rs 564-574, parsers.rs 60. *)
  Definition msspn {A} (p : msparser A) : msparser (spanned A) := fun st i =>
    let (r, m) := p st i in
    (match r with
     | MGot a j es st' => MGot (mk_spanned a (span_at (in_source I) (in_tokens I) (in_len I) i j)) j es st'
     | MNot st' => MNot st'
     | MCrash => MCrash
     | MLoop => MLoop
     end, m).

  (** The errors of [option_read] are not syntax errors.
      (no code of its own: an emitted error of [Parse], parsers.rs 158.) *)
  Definition reported (c : complaint) : list mcomplaint :=
    match c with C_Report r => [MC_Report r] | C_Syntax _ _ => [] end.

  (** parsers.rs 129-162: [option]. *)
  Definition q_option : msparser beancount_option := fun st i =>
    let (r, m) := mlift (q_option_tokens I) st i in
    (match r with
     | MGot (name, value) j es st1 =>
         match option_read E source_path (ps_options st1) name value with
         | Panic => MCrash
         | Fine (o, po, es') => MGot o j (es ++ flat_map reported es') (mk_pstate po (ps_warnings st1))
         end
     | MNot st1 => MNot st1
     | MCrash => MCrash
     | MLoop => MLoop
     end, m).

  (** parsers.rs 90-126: [pragma]. *)
  Definition q_pragma : msparser pragma :=
    msbind
      (mschoice
        [mlift (fun _ => q_pushtag E I); mlift (fun _ => q_poptag E I); mlift (q_pushmeta E I); mlift (fun _ => q_popmeta E I);
         mlift (q_include I); msmap P_Option q_option; mlift (q_plugin I)])
      (fun p => msbind (mlift (fun _ => meol I)) (fun _ => msret p)).

  (** parsers.rs 59-60: [declaration] without recovery. *)
  Definition q_once : msparser (spanned declaration) :=
    msspn (mschoice [msmap D_Directive (mlift (q_directive E I)); msmap D_Pragma q_pragma]).

  (** The end of the input was expected at a position.
      (chumsky: where [end] at parsers.rs 61 and [parse_with_state] at lib.rs 287 fail.) *)
  Definition not_end (i : nat) : misses := missed (in_source I) (in_tokens I) (in_len I) i.

  (** [skip_then_retry_until(any_ref().ignored(), end())]: what was said before
      is kept aside; what is said at the end of each attempt which is not accepted is
      forgotten. (parsers.rs 61.) *)
  Fixpoint mretry (fuel : nat) (st : pstate) (i : nat) : mres (spanned declaration) * misses :=
    match fuel with
    | O => (MLoop, None)
    | S fuel' =>
        match nth_error (in_tokens I) i with
        | None => (MNot st, None)
        | Some _ =>
            let (r, m) := q_once st (S i) in
            match r with
            | MGot d j [] st' => (MGot d j [] st', further (not_end i) m)
            | MGot _ _ _ st' => mretry fuel' st' (S i)
            | MNot st' => mretry fuel' st' (S i)
            | MCrash => (MCrash, None)
            | MLoop => (MLoop, None)
            end
        end
    end.

  (** parsers.rs 51-62: [declaration], given what was said before.  Where
      something is skipped, the error is the furthest of all so far; chumsky unwraps
      it.  It is kept if no declaration follows. *)
  Definition q_declaration (m0 : misses) : msparser (spanned declaration) := fun st i =>
    let (r, m1) := q_once st i in
    let m := further m0 m1 in
    match r with
    | MNot st1 =>
        match m with
        | None => (MCrash, None)
        | Some said =>
            let (r', m') := mretry (S (List.length (in_tokens I) - i)) st1 i in
            match r' with
            | MGot d j _ st2 => (MGot d j [MC_Syntax (in_source I) i said] st2, m')
            | _ => (r', m)
            end
        end
    | _ => (r, m)
    end.

  (** parsers.rs 41-48: [file]. *)
  Fixpoint q_declarations (fuel : nat) (m0 : misses) : msparser (list (spanned declaration)) := fun st i =>
    match fuel with
    | O => (MLoop, None)
    | S fuel' =>
        let (r, m) := q_declaration m0 st i in
        match r with
        | MGot d j es st1 =>
            let (r', m') := q_declarations fuel' m st1 j in
            (match r' with
             | MGot ds k es' st2 => MGot (d :: ds) k (es ++ es') st2
             | _ => r'
             end, m')
        | MNot st1 => (MGot [] i [] st1, m)
        | MCrash => (MCrash, None)
        | MLoop => (MLoop, None)
        end
    end.

  (** [parse_with_state]: the last error is the furthest of what was said, at
      the last with that the end was expected. (lib.rs 286-288, parsers.rs 41-48.) *)
  Definition mparse_file (st : pstate) : outcome (option (option (list (spanned declaration)) * list mcomplaint * pstate)) :=
    let (r, m) := q_declarations (S (List.length (in_tokens I))) None st 0 in
    match r with
    | MGot ds j es st' =>
        match nth_error (in_tokens I) j with
        | None => Fine (Some (Some ds, es, st'))
        | Some _ =>
            match further m (not_end j) with
            | Some said => Fine (Some (None, es ++ [MC_Syntax (in_source I) j said], st'))
            | None => Panic
            end
        end
    | MNot _ => Fine None
    | MCrash => Panic
    | MLoop => Fine None
    end.
End File.

(** lib.rs 273-302: [parse_declarations]. *)
Fixpoint mparse_all (E : grammar_env) (toks : list (list rtoken)) (cs : list (nat * option path * str))
    (outputs : list (option path * list (spanned declaration))) (errors : list mcomplaint) (st : pstate)
  : outcome (option (list (option path * list (spanned declaration)) * list mcomplaint * pstate)) :=
  match cs with
  | [] => Fine (Some (outputs, errors, st))
  | (id, file, content) :: cs' =>
      match nth_error toks id with
      | None => Panic
      | Some ts =>
          match mparse_file E (input_of id content ts) file st with
          | Panic => Panic
          | Fine None => Fine None
          | Fine (Some (out, es, st')) =>
              mparse_all E toks cs'
                (insert opt_path_eqb file (match out with Some ds => ds | None => [] end) outputs) (errors ++ es) st'
          end
      end
  end.
(** lib.rs 273-302. *)
Definition mparse_declarations (E : grammar_env) (s : sources) (toks : list (list rtoken)) :
    outcome (option (list (option path * list (spanned declaration)) * options * list mcomplaint * list report)) :=
  match mparse_all E toks (content_iter s) [] [] default_pstate with
  | Panic => Panic
  | Fine None => Fine None
  | Fine (Some (outputs, errors, st)) => Fine (Some (outputs, options_new (ps_options st), errors, ps_warnings st))
  end.

(** lib.rs 176-191 and 225-265: [parse]. *)
Inductive mparsed_as :=
| MSuccess (directives : list (spanned directive)) (opts : options) (plugins : list plugin) (warnings : list report)
| MFailure (errors : list mcomplaint) (warnings : list report).
(** lib.rs 225-265. *)
Definition mparse (E : grammar_env) (canonicalize : path -> option path) (s : sources) (toks : list (list rtoken))
  : outcome (option mparsed_as) :=
  match mparse_declarations E s toks with
  | Panic => Panic
  | Fine None => Fine None
  | Fine (Some (outputs, os, errors, warnings)) =>
      match pragma_pass canonicalize (included_globs s) (error_paths s) (root_path s) outputs os with
      | Panic => Panic
      | Fine None => Fine None
      | Fine (Some (ds, (os', plugins, pragma_errors))) =>
          match sort_directives ds with
          | Panic => Panic
          | Fine None => Fine None
          | Fine (Some directives) =>
              match errors ++ map MC_Report pragma_errors with
              | [] => Fine (Some (MSuccess directives os' plugins warnings))
              | errs => Fine (Some (MFailure errs warnings))
              end
          end
      end
  end.
