(** * Specification of displaying a whole ledger *)
From Coq Require Import String Ascii.
From Coq Require Import List NArith.
From Verif Require Import Base Types Display SpecDisplay.
Import ListNotations.

(** The text of a ledger: its plugins, each of which ends its own line, and
    below them its directives. *)
Definition ledger (D : display_env) (plugins : list plugin) (ds : list directive) : str :=
  flat_map display_plugin plugins ++ document D ds.

(** The same plugin, wherever it was written. *)
Definition alike_plugin (p p' : plugin) : Prop :=
  same_item (pl_module p) (pl_module p') /\ same_option same_item (pl_config p) (pl_config p').

(** No quote and no backslash is in it. *)
Definition showable_plugin (p : plugin) : Prop :=
  clean (item (pl_module p)) /\ optional (fun c => clean (item c)) (pl_config p).
