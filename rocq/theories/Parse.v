(** * Parse: files, and everything together (src/parsers.rs 24-162, src/lib.rs 103-302) *)
From Coq Require Import String Ascii.
From Coq Require Import List NArith ZArith Arith Bool.
From Verif Require Import Base Text Path Sources Types SortM Options Pragma Read Token Lexer Peg Grammar.
Import ListNotations.
Local Open Scope nat_scope.

(** ** Parsers with the whole state *)

(** parsers.rs 1340-1345: [ParserState]. *)
Record pstate := mk_pstate { ps_options : parser_options; ps_warnings : list report }.
(** parsers.rs 1341: [ParserState::default], as at lib.rs 276. *)
Definition default_pstate : pstate := mk_pstate default_parser_options [].
(** parsers.rs 1225, 1227. *)
Definition pushed (st : pstate) (ws : list report) : pstate := mk_pstate (ps_options st) (ps_warnings st ++ ws).

(** An error: one which a parser emits, or a syntax error, of which only the
    source and the position of the token where a declaration should have
    started are kept (its text is chumsky's). (parsers.rs 1321: [ParserError], for lib.rs 286-291.) *)
Inductive complaint := C_Report (r : report) | C_Syntax (source position : nat).

(** As [Peg.res], but with the state. (chumsky: with the [ParserState] of parsers.rs 1342-1348.) *)
Inductive sres (A : Type) : Type :=
| SGot (a : A) (j : nat) (es : list complaint) (st : pstate)
| SNot (st : pstate)
| SCrash
| SLoop.
Arguments SGot {A} a j es st.
Arguments SNot {A} st.
Arguments SCrash {A}.
Arguments SLoop {A}.
(** chumsky: a parser with [Extra], parsers.rs 1348. *)
Notation sparser A := (pstate -> nat -> sres A).

(** A parser which does not change the options.
    (parsers.rs 165-1232: all but [option] only read the options, 391-399 and 1203-1231.) *)
Definition lift {A} (p : parser_options -> parser A) : sparser A := fun st i =>
  match p (ps_options st) i with
  | Got a j ws es => SGot a j (map C_Report es) (pushed st ws)
  | Not ws => SNot (pushed st ws)
  | Crash => SCrash
  | Loop => SLoop
  end.

(** The combinators, as in [Peg]. (parsers.rs 135-138.) *)
Definition sbind {A B} (p : sparser A) (f : A -> sparser B) : sparser B := fun st i =>
  match p st i with
  | SGot a j es st1 =>
      match f a st1 j with
      | SGot b k es' st2 => SGot b k (es ++ es') st2
      | SNot st2 => SNot st2
      | SCrash => SCrash
      | SLoop => SLoop
      end
  | SNot st1 => SNot st1
  | SCrash => SCrash
  | SLoop => SLoop
  end.
(** parsers.rs 112. *)
Definition sret {A} (a : A) : sparser A := fun st i => SGot a i [] st.
(** parsers.rs 59, 112. *)
Definition smap {A B} (f : A -> B) (p : sparser A) : sparser B := sbind p (fun a => sret (f a)).
(** parsers.rs 59, 96. *)
Definition salt {A} (p q : sparser A) : sparser A := fun st i =>
  match p st i with
  | SNot st1 => q st1 i
  | r => r
  end.
(** parsers.rs 59, 96-122. *)
Fixpoint schoice {A} (ps : list (sparser A)) : sparser A :=
  match ps with
  | [] => fun st _ => SNot st
  | [p] => p
  | p :: ps' => salt p (schoice ps')
  end.

Section File.
  Context (E : grammar_env) (I : input) (source_path : option path).

  (** types.rs 564-574, parsers.rs 60. *)
  Definition sspn {A} (p : sparser A) : sparser (spanned A) := fun st i =>
    match p st i with
    | SGot a j es st' => SGot (mk_spanned a (span_at (in_source I) (in_tokens I) (in_len I) i j)) j es st'
    | SNot st' => SNot st'
    | SCrash => SCrash
    | SLoop => SLoop
    end.

  (** parsers.rs 138-161: the closure of [option], given the name and the value. *)
  Definition option_read (po : parser_options) (name value : spanned str)
    : outcome (beancount_option * parser_options * list complaint) :=
    match option_parse (g_unicode E) (g_decimal E) name value source_path with
    | Panic => Panic
    | Fine (Err OptUnknown) => Fine (option_ignored, po, [C_Report (mk_report UnknownOption (span_of name) [])])
    | Fine (Err (OptBad e)) => Fine (option_ignored, po, [C_Report (mk_report (BadOptionValue e) (span_of value) [])])
    | Fine (Ok o) =>
        match po_assimilate po o with
        | Panic => Panic
        | Fine (Err t) => Fine (option_ignored, po, [C_Report (mk_report (NameInUse t) (span_of value) [])])
        | Fine (Ok (o', po')) => Fine (o', po', [])
        end
    end.

  (** parsers.rs 129-162: [option]. *)
  Definition p_option : sparser beancount_option := fun st i =>
    match lift (p_option_tokens I) st i with
    | SGot (name, value) j es st1 =>
        match option_read (ps_options st1) name value with
        | Panic => SCrash
        | Fine (o, po, es') => SGot o j (es ++ es') (mk_pstate po (ps_warnings st1))
        end
    | SNot st1 => SNot st1
    | SCrash => SCrash
    | SLoop => SLoop
    end.

  (** parsers.rs 90-126: [pragma]. *)
  Definition p_pragma : sparser pragma :=
    sbind
      (schoice
        [lift (fun _ => p_pushtag E I); lift (fun _ => p_poptag E I); lift (p_pushmeta E I); lift (fun _ => p_popmeta E I);
         lift (p_include I); smap P_Option p_option; lift (p_plugin I)])
      (fun p => sbind (lift (fun _ => eol I)) (fun _ => sret p)).

  (** parsers.rs 59-60: [declaration] without recovery. *)
  Definition p_once : sparser (spanned declaration) :=
    sspn (schoice [smap D_Directive (lift (p_directive E I)); smap D_Pragma p_pragma]).

  (** [skip_then_retry_until(any_ref().ignored(), end())]: skip tokens until
      there is a declaration without errors. (parsers.rs 61.) *)
  Fixpoint retry (fuel : nat) (st : pstate) (i : nat) : sres (spanned declaration) :=
    match fuel with
    | O => SLoop
    | S fuel' =>
        match nth_error (in_tokens I) i with
        | None => SNot st
        | Some _ =>
            match p_once st (S i) with
            | SGot d j [] st' => SGot d j [] st'
            | SGot _ _ _ st' => retry fuel' st' (S i)
            | SNot st' => retry fuel' st' (S i)
            | SCrash => SCrash
            | SLoop => SLoop
            end
        end
    end.

  (** parsers.rs 51-62: [declaration]. *)
  Definition p_declaration : sparser (spanned declaration) := fun st i =>
    match p_once st i with
    | SNot st1 =>
        match retry (S (List.length (in_tokens I) - i)) st1 i with
        | SGot d j _ st2 => SGot d j [C_Syntax (in_source I) i] st2
        | r => r
        end
    | r => r
    end.

  (** parsers.rs 41-48: [file]: the declarations, and where they end. *)
  Fixpoint p_declarations (fuel : nat) : sparser (list (spanned declaration)) := fun st i =>
    match fuel with
    | O => SLoop
    | S fuel' =>
        match p_declaration st i with
        | SGot d j es st1 =>
            match p_declarations fuel' st1 j with
            | SGot ds k es' st2 => SGot (d :: ds) k (es ++ es') st2
            | r => r
            end
        | SNot st1 => SGot [] i [] st1
        | SCrash => SCrash
        | SLoop => SLoop
        end
    end.

  (** [parse_with_state]: the input has to end where the parser ends, else
      there is no output and one more error.  [None] is not coming to an end. (lib.rs 286-288, parsers.rs 41-48.) *)
  Definition parse_file (st : pstate) : outcome (option (option (list (spanned declaration)) * list complaint * pstate)) :=
    match p_declarations (S (List.length (in_tokens I))) st 0 with
    | SGot ds j es st' =>
        match nth_error (in_tokens I) j with
        | None => Fine (Some (Some ds, es, st'))
        | Some _ => Fine (Some (None, es ++ [C_Syntax (in_source I) j], st'))
        end
    | SNot _ => Fine None    (* [repeated] does not fail *)
    | SCrash => Panic
    | SLoop => Fine None
    end.
End File.

(** ** The includes of a file *)

(** lib.rs 670-672 and the input made at lib.rs 112-114, 282-284. *)
Definition input_of (id : nat) (content : str) (toks : list rtoken) : input := mk_input id toks (blen content).

(** lib.rs 104-125: [get_includes]; when the tokens are not all consumed
    there is no output. *)
Definition get_includes (L : lexer_env) (id : nat) (content : str) : outcome (option (list str)) :=
  match lex L content with
  | Panic => Panic
  | Fine None => Fine None
  | Fine (Some toks) =>
      match p_includes (input_of id content toks) default_parser_options 0 with
      | Got l j _ _ => Fine (Some (match nth_error toks j with None => l | Some _ => [] end))
      | Not _ => Fine (Some [])
      | Crash => Panic
      | Loop => Fine None
      end
  end.

(** What [Read] is given, where this does not panic. (lib.rs 104-125.) *)
Definition includes_of (L : lexer_env) (content : str) : list str :=
  match get_includes L 0 content with Fine (Some l) => l | _ => [] end.

(** ** The parser *)

(** lib.rs 208-222: [BeancountParser::new]; [Panic] is also an index out of range. *)
Fixpoint set_nth {A} (n : nat) (x : A) (l : list A) : outcome (list A) :=
  match l, n with
  | [], _ => Panic
  | _ :: l', O => Fine (x :: l')
  | y :: l', S n' => match set_nth n' x l' with Fine r => Fine (y :: r) | Panic => Panic end
  end.
(** lib.rs 213-216. *)
Fixpoint tokenize_all (L : lexer_env) (cs : list (nat * option path * str)) (acc : list (list rtoken))
  : outcome (option (list (list rtoken))) :=
  match cs with
  | [] => Fine (Some acc)
  | (id, _, content) :: cs' =>
      match lex L content with
      | Panic => Panic
      | Fine None => Fine None
      | Fine (Some toks) =>
          match set_nth id toks acc with
          | Panic => Panic
          | Fine acc' => tokenize_all L cs' acc'
          end
      end
  end.
(** lib.rs 208-222. *)
Definition parser_new (L : lexer_env) (s : sources) : outcome (option (list (list rtoken))) :=
  tokenize_all L (content_iter s) (repeat [] (num_sources s)).

(** lib.rs 273-302: [parse_declarations]; the order of [cs] is that of
    [content_iter]. *)
Fixpoint parse_all (E : grammar_env) (toks : list (list rtoken)) (cs : list (nat * option path * str))
    (outputs : list (option path * list (spanned declaration))) (errors : list complaint) (st : pstate)
  : outcome (option (list (option path * list (spanned declaration)) * list complaint * pstate)) :=
  match cs with
  | [] => Fine (Some (outputs, errors, st))
  | (id, file, content) :: cs' =>
      match nth_error toks id with
      | None => Panic
      | Some ts =>
          match parse_file E (input_of id content ts) file st with
          | Panic => Panic
          | Fine None => Fine None
          | Fine (Some (out, es, st')) =>
              parse_all E toks cs'
                (insert opt_path_eqb file (match out with Some ds => ds | None => [] end) outputs) (errors ++ es) st'
          end
      end
  end.
(** lib.rs 273-302. *)
Definition parse_declarations (E : grammar_env) (s : sources) (toks : list (list rtoken)) :
    outcome (option (list (option path * list (spanned declaration)) * options * list complaint * list report)) :=
  match parse_all E toks (content_iter s) [] [] default_pstate with
  | Panic => Panic
  | Fine None => Fine None
  | Fine (Some (outputs, errors, st)) => Fine (Some (outputs, options_new (ps_options st), errors, ps_warnings st))
  end.

(** lib.rs 176-191: [ParseSuccess] and [ParseError]. *)
Inductive parsed_as :=
| Success (directives : list (spanned directive)) (opts : options) (plugins : list plugin) (warnings : list report)
| Failure (errors : list complaint) (warnings : list report).

(** lib.rs 225-265: [parse]; the pragma pass has no warnings (lib.rs 319). *)
Definition parse (E : grammar_env) (canonicalize : path -> option path) (s : sources) (toks : list (list rtoken))
  : outcome (option parsed_as) :=
  match parse_declarations E s toks with
  | Panic => Panic
  | Fine None => Fine None
  | Fine (Some (outputs, os, errors, warnings)) =>
      match pragma_pass canonicalize (included_globs s) (error_paths s) (root_path s) outputs os with
      | Panic => Panic
      | Fine None => Fine None
      | Fine (Some (ds, (os', plugins, pragma_errors))) =>
          match sort_directives ds with
          | Panic => Panic
          | Fine None => Fine None
          | Fine (Some directives) =>
              match errors ++ map C_Report pragma_errors with
              | [] => Fine (Some (Success directives os' plugins warnings))
              | errs => Fine (Some (Failure errs warnings))
              end
          end
      end
  end.
