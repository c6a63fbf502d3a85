(** * Specification: the lines of one directive *)
From Coq Require Import List NArith Arith Bool.
From Verif Require Import Base Token Types.
Import ListNotations.

(** A line which starts with a date, and any number of indented lines after it,
    all of them ended. *)
Record entry (ts : list token) : Prop := {
  entry_date : exists d rest, ts = T_Date d :: rest;
  entry_ended : exists us, ts = us ++ [T_Eol];
  entry_lines : forall us vs, ts = us ++ T_Eol :: vs -> vs = [] \/ exists vs', vs = T_Indent :: vs'
}.

(** What follows starts with a line which is not indented, if there is one. *)
Definition afresh_next (ts : list token) : Prop := forall vs, ts <> T_Indent :: vs.
