(** * Specification of the errors and warnings of a parse, as written *)
From Coq Require Import String Ascii.
From Coq Require Import List NArith Arith Bool.
From Verif Require Import Base Types Lexer Sources SpecSources Report SpecReport SpecPlaces.
Import ListNotations.

(** What is marked of the texts shown: something of which [what] holds, but for
    the blanks at its end. *)
Definition marks (texts : list (str * str)) (what : str -> Prop) (name : str) (a b : nat) : Prop :=
  exists m text, what m /\ without_end_blanks m text /\ points_at texts name a b text.
Definition mark (texts : list (str * str)) (text : str) (c : color) (what : str -> Prop) (l : label) : Prop :=
  lb_text l = text /\ lb_color l = c /\ marks texts what (lb_source l) (lb_start l) (lb_end l).

(** The drawing for an error or warning [n] about [what], with whatever
    contexts chumsky gives it; what it is related to are strings. *)
Record drawn (L : lexer_env) (s : sources) (texts : list (str * str)) (what : str -> Prop) (n : notice) (d : drawing) : Prop := {
  dn_kind : dr_kind d = nt_kind n;
  dn_message : dr_message d = nt_message n;
  dn_where : marks texts what (dr_source d) (dr_start d) (dr_end d);
  dn_labels : exists primary cs rs, dr_labels d = primary :: cs ++ rs /\
    mark texts (nt_reason n) (match nt_kind n with K_Error => Red | K_Warning => Yellow end) what primary /\
    Forall2 (fun '(name, sp) l => label_of (label_for s) (lit "in this " ++ name) Yellow sp l) (contexts n) cs /\
    Forall2 (fun '(name, _) l => mark texts name Yellow (fun m => exists v, string_spelling L v m) l) (related n) rs
}.
