(** * Report: errors and warnings, and how they are written
    (src/types.rs 20-330 and 555-720, src/sources.rs 191-243, 330-349, 467-475,
    520-559 and 628-713)

    The drawing itself is done by the ariadne crate and is not modelled: the
    model ends with what ariadne is asked to draw, and from which texts.  The
    writer and its failures are arbitrary. *)
From Coq Require Import String Ascii.
From Coq Require Import List NArith Arith Bool DecimalString DecimalNat.
From Verif Require Import Base Text Path Sources Types.
Import ListNotations.

(** ** Errors and warnings *)

(** types.rs 52-63: the marker types [ErrorKind] and [WarningKind]. *)
Inductive kind := K_Error | K_Warning.

(** types.rs 37-49: [ErrorOrWarning], with its marker type as a field. *)
Record notice := mk_notice {
  nt_kind : kind;
  nt_message : str;
  nt_reason : str;
  nt_span : span;
  nt_contexts : option (list (str * span));
  nt_related : option (list (str * span))
}.

(** types.rs 79-93: [Report::contexts] and [Report::related], iterating over
    an [Option<Vec>] and flattening. *)
Definition or_none {A} (o : option (list A)) : list A := match o with Some l => l | None => [] end.
(** types.rs 79-85. *)
Definition contexts (n : notice) : list (str * span) := or_none (nt_contexts n).
(** types.rs 87-93. *)
Definition related (n : notice) : list (str * span) := or_none (nt_related n).

(** types.rs 101-111: [new]. *)
Definition notice_new (k : kind) (message reason : str) (sp : span) : notice :=
  mk_notice k message reason sp None None.

(** Anything [Spanned<T>] where [T: ElementType] (types.rs 684-720): all that
    matters here is the text [element_type()] gives, and the span. *)
Record element := mk_element { el_type : str; el_span : span }.
(** types.rs 120: what [related_to] and [in_context] push. *)
Definition labelled_span (e : element) : str * span := (el_type e, el_span e).

(** types.rs 114-122: [related_to]. *)
Definition related_to (n : notice) (e : element) : notice :=
  mk_notice (nt_kind n) (nt_message n) (nt_reason n) (nt_span n) (nt_contexts n)
    (Some (or_none (nt_related n) ++ [labelled_span e])).

(** types.rs 125-139: [related_to_all]. *)
Definition related_to_all (n : notice) (es : list element) : notice :=
  mk_notice (nt_kind n) (nt_message n) (nt_reason n) (nt_span n) (nt_contexts n)
    (Some (or_none (nt_related n) ++ map labelled_span es)).

(** types.rs 141-149: [related_to_named_span]. *)
Definition related_to_named_span (n : notice) (name : str) (sp : span) : notice :=
  mk_notice (nt_kind n) (nt_message n) (nt_reason n) (nt_span n) (nt_contexts n)
    (Some (or_none (nt_related n) ++ [(name, sp)])).

(** types.rs 153-161: [in_context]. *)
Definition in_context (n : notice) (e : element) : notice :=
  mk_notice (nt_kind n) (nt_message n) (nt_reason n) (nt_span n)
    (Some (or_none (nt_contexts n) ++ [labelled_span e])) (nt_related n).

(** types.rs 164-178: [in_contexts]. *)
Definition in_contexts (n : notice) (es : list element) : notice :=
  mk_notice (nt_kind n) (nt_message n) (nt_reason n) (nt_span n)
    (Some (or_none (nt_contexts n) ++ map labelled_span es)) (nt_related n).

(** types.rs 181-191: [in_explicitly_labelled_contexts]. *)
Definition in_explicitly_labelled_contexts (n : notice) (es : list (str * span)) : notice :=
  mk_notice (nt_kind n) (nt_message n) (nt_reason n) (nt_span n)
    (Some (or_none (nt_contexts n) ++ es)) (nt_related n).

(** types.rs 622-639: [Spanned::error] and [Spanned::warning]. *)
Definition spanned_error (e : element) (reason : str) : notice :=
  notice_new K_Error (lit "invalid " ++ el_type e) reason (el_span e).
(** types.rs 631-638. *)
Definition spanned_warning (e : element) (reason : str) : notice :=
  notice_new K_Warning (lit "questionable " ++ el_type e) reason (el_span e).

(** types.rs 750-768: [element_type] of a [Directive]. *)
Definition directive_type (v : variant) : str :=
  match v with
  | V_Transaction _ _ _ _ => lit "transaction"
  | V_Price _ _ => lit "price"
  | V_Balance _ _ => lit "balance"
  | V_Open _ _ _ => lit "open"
  | V_Close _ => lit "close"
  | V_Commodity _ => lit "commodity"
  | V_Pad _ _ => lit "pad"
  | V_Document _ _ => lit "document"
  | V_Note _ _ => lit "note"
  | V_Event _ _ => lit "event"
  | V_Query _ _ => lit "query"
  | V_Custom _ _ => lit "custom"
  end.
(** types.rs 750-769. *)
Definition directive_element (d : spanned directive) : element :=
  mk_element (directive_type (dir_variant (item d))) (span_of d).

(** types.rs 276-284: [AnnotatedErrorOrWarning]; 193-201: [with_annotation];
    286-296: [From]. *)
Record annotated := mk_annotated { an_notice : notice; an_annotation : option str }.
(** types.rs 193-201. *)
Definition with_annotation (n : notice) (a : str) : annotated := mk_annotated n (Some a).
(** types.rs 286-296. *)
Definition unannotated (n : notice) : annotated := mk_annotated n None.

(** *** [Display] of an error or warning *)

(** [Display] of a [usize]. (std; as at parsers.rs 1217-1219.) *)
Definition show_nat (n : nat) : str := lit (NilEmpty.string_of_uint (Nat.to_uint n)).

(** types.rs 492: the derived [Debug] of a [Span]. *)
Definition debug_span (sp : span) : str :=
  lit "Span { source: " ++ show_nat (sp_source sp) ++ lit ", start: " ++ show_nat (sp_start sp) ++
  lit ", end: " ++ show_nat (sp_end sp) ++ lit " }".

(** types.rs 217-233: [fmt_error_or_warning]. *)
Definition display_notice (n : notice) : str :=
  nt_message n ++ lit " (" ++ nt_reason n ++ lit ") " ++
  lit "at " ++ show_nat (sp_start (nt_span n)) ++ lit ".." ++ show_nat (sp_end (nt_span n)) ++
  lit " of source " ++ show_nat (sp_source (nt_span n)) ++
  match nt_contexts n with
  | Some cs => flat_map (fun c => lit " while parsing " ++ fst c ++ lit " at " ++ debug_span (snd c)) cs
  | None => []
  end.

(** ** Writing *)

(** types.rs 251-275: the colours. *)
Inductive color := Red | Yellow.
(** types.rs 261-263, 271-273. *)
Definition kind_color (k : kind) : color := match k with K_Error => Red | K_Warning => Yellow end.

(** What ariadne is given: a label is a source name with a range of
    characters, a text and a colour. (sources.rs 648-650.) *)
Record label := mk_label { lb_source : str; lb_start : nat; lb_end : nat; lb_text : str; lb_color : color }.
(** sources.rs 645-664: what ariadne is to draw. *)
Record drawing := mk_drawing {
  dr_kind : kind;
  dr_source : str; dr_start : nat; dr_end : nat;
  dr_message : str;
  dr_labels : list label
}.

(** sources.rs 704-713: [source_id_string_and_adjusted_rune_span]. *)
Definition name_and_runes (adjusted : span -> outcome (str * str * span * span)) (sp : span) : outcome (str * span) :=
  match adjusted sp with
  | Panic => Panic
  | Fine (_, name, _, runes) => Fine (name, runes)
  end.

(** One of the three closures making labels in sources.rs 645-664. *)
Definition make_label (adjusted : span -> outcome (str * str * span * span)) (c : color) (text : str) (sp : span) : outcome label :=
  match name_and_runes adjusted sp with
  | Panic => Panic
  | Fine (name, runes) => Fine (mk_label name (sp_start runes) (sp_end runes) text c)
  end.

(** sources.rs 652-663. *)
Fixpoint make_labels (adjusted : span -> outcome (str * str * span * span)) (c : color) (prefix : str) (l : list (str * span)) : outcome (list label) :=
  match l with
  | [] => Fine []
  | (text, sp) :: l' =>
      match make_label adjusted c (prefix ++ text) sp with
      | Panic => Panic
      | Fine x => match make_labels adjusted c prefix l' with Panic => Panic | Fine xs => Fine (x :: xs) end
      end
  end.

(** sources.rs 628-666: [write_report] up to the drawing. *)
Definition draw_report (adjusted : span -> outcome (str * str * span * span)) (n : notice) : outcome drawing :=
  match name_and_runes adjusted (nt_span n) with
  | Panic => Panic
  | Fine (name, runes) =>
      let primary := mk_label name (sp_start runes) (sp_end runes) (nt_reason n) (kind_color (nt_kind n)) in
      match make_labels adjusted Yellow (lit "in this ") (contexts n) with
      | Panic => Panic
      | Fine cs =>
          match make_labels adjusted Yellow [] (related n) with
          | Panic => Panic
          | Fine rs =>
              Fine (mk_drawing (nt_kind n) name (sp_start runes) (sp_end runes) (nt_message n) ([primary] ++ cs ++ rs))
          end
      end
  end.

(** sources.rs 330-350: [BeancountSources::sources]: the texts given to
    ariadne.  The table of included files is a [HashMap], in any order. *)
Fixpoint list_included (s : sources) (l : list (path * included_source)) : outcome (list (str * str)) :=
  match l with
  | [] => Fine []
  | (_, Content id content _) :: l' =>
      match source_id_string s id with
      | Panic => Panic
      | Fine name => match list_included s l' with Panic => Panic | Fine xs => Fine ((name, content) :: xs) end
      end
  | _ :: l' => list_included s l'
  end.
(** sources.rs 330-350. *)
Definition list_sources (s : sources) : outcome (list (str * str)) :=
  match source_id_string s root_source_id with
  | Panic => Panic
  | Fine name =>
      match list_included s (included_content s) with
      | Panic => Panic
      | Fine xs => Fine ((name, root_content s) :: xs)
      end
  end.

(** sources.rs 467-475: [SyntheticSources::sources]. *)
Definition sy_list_sources (sy : synthetic) : outcome (list (str * str)) :=
  match list_sources (sy_sources sy) with
  | Panic => Panic
  | Fine xs => Fine (xs ++ map (fun '(name, (_, content, _)) => (name, content)) (sy_content sy))
  end.

Section Writing.
  (** The writer [W], what ariadne does with a drawing and the texts, and
      [write_fmt]; each may fail with an [io::Error]. *)
  Context {W E : Type}.
  Context (draw : drawing -> list (str * str) -> W -> W * option E).
  Context (put : str -> W -> W * option E).

  (** sources.rs 228-243 with 628-668: [write_report]. *)
  Definition write_report_with (adjusted : span -> outcome (str * str * span * span)) (listing : outcome (list (str * str)))
      (w : W) (n : notice) : outcome (W * option E) :=
    match listing with
    | Panic => Panic
    | Fine texts => match draw_report adjusted n with Panic => Panic | Fine d => Fine (draw d texts w) end
    end.

  (** sources.rs 202-225 and 520-543: [write_errors_or_warnings], once for
      each kind of sources. *)
  Fixpoint write_all_with (adjusted : span -> outcome (str * str * span * span)) (listing : outcome (list (str * str)))
      (w : W) (l : list annotated) : outcome (W * option E) :=
    match l with
    | [] => Fine (w, None)
    | a :: l' =>
        match write_report_with adjusted listing w (an_notice a) with
        | Panic => Panic
        | Fine (w1, Some e) => Fine (w1, Some e)
        | Fine (w1, None) =>
            match an_annotation a with
            | None => write_all_with adjusted listing w1 l'
            | Some t =>
                match put (t ++ [newline]) w1 with
                | (w2, Some e) => Fine (w2, Some e)
                | (w2, None) => write_all_with adjusted listing w2 l'
                end
            end
        end
    end.

  (** sources.rs 202-243 *)
  Definition write_report (s : sources) : W -> notice -> outcome (W * option E) :=
    write_report_with (get_adjusted_source s) (list_sources s).
  (** sources.rs 202-226. *)
  Definition write_errors_or_warnings (s : sources) : W -> list annotated -> outcome (W * option E) :=
    write_all_with (get_adjusted_source s) (list_sources s).

  (** sources.rs 520-559 *)
  Definition sy_write_report (sy : synthetic) : W -> notice -> outcome (W * option E) :=
    write_report_with (sy_get_adjusted_source sy) (sy_list_sources sy).
  (** sources.rs 520-544. *)
  Definition sy_write_errors_or_warnings (sy : synthetic) : W -> list annotated -> outcome (W * option E) :=
    write_all_with (sy_get_adjusted_source sy) (sy_list_sources sy).
End Writing.
