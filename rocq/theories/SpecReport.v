(** * Specification of written reports *)
From Coq Require Import String Ascii.
From Coq Require Import List NArith Arith Bool.
From Verif Require Import Base Path Sources SpecSources Report.
Import ListNotations.

(** A text without the blanks at its end; one of blanks only is kept. *)
Inductive without_end_blanks : str -> str -> Prop :=
| web_blank t : blank t -> without_end_blanks t t
| web_text core c ws : is_whitespace c = false -> blank ws -> without_end_blanks (core ++ c :: ws) (core ++ [c]).

(** Where the label for a span has to be: in the source called [name], from
    character [a] up to character [b]. *)
Inductive label_for (s : sources) (sp : span) : str -> nat -> nat -> Prop :=
| lf_text name content pre t text post :
    source_text s (sp_source sp) name content -> designates content sp pre t post -> without_end_blanks t text ->
    label_for s sp name (length pre) (length pre + length text)
| lf_invalid name content :
    source_text s (sp_source sp) name content -> ~ valid_span content sp -> label_for s sp name 0 0
| lf_unknown name :
    length (source_id_strings s) <= sp_source sp -> nth_error (source_id_strings s) 0 = Some name -> label_for s sp name 0 0.

(** What has to be drawn for an error or warning, if labels for spans have to
    be where [where_] says: the reason at the span of the error, its contexts
    and then its related elements. *)
Section Asked.
  Context (where_ : span -> str -> nat -> nat -> Prop).

  Definition label_of (text : str) (c : color) (sp : span) (l : label) : Prop :=
    where_ sp (lb_source l) (lb_start l) (lb_end l) /\ lb_text l = text /\ lb_color l = c.

  Record asked (n : notice) (d : drawing) : Prop := {
    as_kind : dr_kind d = nt_kind n;
    as_message : dr_message d = nt_message n;
    as_where : where_ (nt_span n) (dr_source d) (dr_start d) (dr_end d);
    as_labels : exists primary cs rs,
      dr_labels d = primary :: cs ++ rs /\
      label_of (nt_reason n) (match nt_kind n with K_Error => Red | K_Warning => Yellow end) (nt_span n) primary /\
      Forall2 (fun '(name, sp) l => label_of (lit "in this " ++ name) Yellow sp l) (contexts n) cs /\
      Forall2 (fun '(name, sp) l => label_of name Yellow sp l) (related n) rs
  }.
End Asked.

(** Which text is drawn under a name: ariadne keeps the last one it is given
    (it collects them in a [HashMap]). *)
Definition shown (texts : list (str * str)) (name content : str) : Prop :=
  exists l1 l2, texts = l1 ++ (name, content) :: l2 /\ ~ In name (map fst l2).

(** The characters from [a] up to [b] of what is shown under [name]. *)
Definition points_at (texts : list (str * str)) (name : str) (a b : nat) (text : str) : Prop :=
  exists before after, shown texts name (before ++ text ++ after) /\ a = length before /\ b = length before + length text.

(** ** The order of writing *)

(** What is asked of the writer: to draw, or to put a text. *)
Inductive action := Draw (d : drawing) | Put (t : str).

(** For each error or warning its drawing, and its annotation on a line. *)
Definition actions_of (a : annotated) (d : drawing) : list action :=
  Draw d :: match an_annotation a with Some t => [Put (t ++ [10%N])] | None => [] end.
Fixpoint all_actions (l : list annotated) (ds : list drawing) : list action :=
  match l, ds with
  | a :: l', d :: ds' => actions_of a d ++ all_actions l' ds'
  | _, _ => []
  end.

(** Up to the first failure. *)
Section Perform.
  Context {W E : Type} (draw : drawing -> list (str * str) -> W -> W * option E) (put : str -> W -> W * option E).
  Context (texts : list (str * str)).
  Definition perform_one (a : action) (w : W) : W * option E :=
    match a with Draw d => draw d texts w | Put t => put t w end.
  Fixpoint perform (todo : list action) (w : W) : W * option E :=
    match todo with
    | [] => (w, None)
    | a :: rest => match perform_one a w with (w', None) => perform rest w' | failed => failed end
    end.
End Perform.

(** ** Building errors and warnings *)

(** The calls by which a user adds to an error or warning, and what each adds. *)
Inductive call := Related_to (e : element) | Related_to_all (es : list element) | In_context (e : element) | In_contexts (es : list element).
Definition called (n : notice) (c : call) : notice :=
  match c with
  | Related_to e => related_to n e
  | Related_to_all es => related_to_all n es
  | In_context e => in_context n e
  | In_contexts es => in_contexts n es
  end.
Definition related_by (c : call) : list element :=
  match c with Related_to e => [e] | Related_to_all es => es | _ => [] end.
Definition contexts_by (c : call) : list element :=
  match c with In_context e => [e] | In_contexts es => es | _ => [] end.
Definition named (e : element) : str * span := (el_type e, el_span e).

(** ** Synthetic texts *)

(** Where the label for a span has to be after the calls [calls] of
    [create_synthetic_span] have returned the spans [sps].  A span of a
    synthetic source is labelled in that source; its place is known if nothing
    before it under the same name is outside ASCII, and either it is the last
    under that name or all is in ASCII. *)
Definition synthetic_label_for (s : sources) (calls : list (str * str)) (sps : list span) (sp : span) (name : str) (a b : nat) : Prop :=
  ((forall sp', In sp' sps -> sp_source sp' <> sp_source sp) -> label_for s sp name a b) /\
  (forall before n f after, calls = before ++ (n, f) :: after -> nth_error sps (length before) = Some sp ->
     name = n /\
     (ascii_only (text_under n calls) \/ (ascii_only (text_under n before) /\ ~ In n (map fst after)) ->
      forall text, without_end_blanks f text ->
        a = length (text_under n before) /\ b = length (text_under n before) + length text)).

(** ** The text of an error or warning *)

(** Decimal digits, without zeros in front, which say how much [n] is. *)
Definition numeral (n : nat) (s : str) : Prop :=
  s <> [] /\ Forall (fun c => 48 <= N.to_nat c <= 57) s /\ (hd_error s = Some 48%N -> s = [48%N]) /\
  fold_left (fun value c => 10 * value + (N.to_nat c - 48)) s 0 = n.

(** How a span is told after each context. *)
Definition told_span (sp : span) (t : str) : Prop :=
  exists source start stop, numeral (sp_source sp) source /\ numeral (sp_start sp) start /\ numeral (sp_end sp) stop /\
    t = lit "Span { source: " ++ source ++ lit ", start: " ++ start ++ lit ", end: " ++ stop ++ lit " }".

(** The message, the reason, the place, and then each context. *)
Definition told (n : notice) (t : str) : Prop :=
  exists source start stop cs, numeral (sp_source (nt_span n)) source /\ numeral (sp_start (nt_span n)) start /\ numeral (sp_end (nt_span n)) stop /\
    Forall2 (fun '(name, sp) c => exists place, told_span sp place /\ c = lit " while parsing " ++ name ++ lit " at " ++ place) (contexts n) cs /\
    t = nt_message n ++ lit " (" ++ nt_reason n ++ lit ") at " ++ start ++ lit ".." ++ stop ++ lit " of source " ++ source ++ concat cs.
