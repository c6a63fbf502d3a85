(** * Specification vocabulary for spans and sources *)
From Coq Require Import List NArith Arith Bool.
From Verif Require Import Base Path Sources.
Import ListNotations.

(** The span designates exactly [mid] inside [content = pre ++ mid ++ post]. *)
Definition designates (content : str) (sp : span) (pre mid post : str) : Prop :=
  content = pre ++ mid ++ post /\
  sp_start sp = blen pre /\
  sp_end sp = blen pre + blen mid.

(** Some part of [content] is designated. *)
Definition valid_span (content : str) (sp : span) : Prop :=
  exists pre mid post, designates content sp pre mid post.

Definition blank (s : str) : Prop := Forall (fun c => is_whitespace c = true) s.

(** Number of line breaks in a text. *)
Fixpoint newlines (s : str) : nat :=
  match s with
  | [] => 0
  | c :: s' => (if N.eqb c 10 then 1 else 0) + newlines s'
  end.

(** Source number [id] of [s] is called [name] and has text [content].
    A file that could not be read counts as empty text. *)
Definition source_text (s : sources) (id : nat) (name content : str) : Prop :=
  nth_error (source_id_strings s) id = Some name /\
  match id with
  | 0 => content = root_content s
  | _ => match lookup path_eqb name (included_content s) with
         | Some (Content _ c _) => content = c
         | Some _ => content = []
         | None => False
         end
  end.

(** Consistency of the tables of [BeancountSources]; established for every
    file system by [P_Read.C05_tables_consistent]. *)
Record sources_wf (s : sources) : Prop := {
  wf_root_indices : root_char_indices s = char_offs 0 (root_content s);
  wf_included_indices : forall p id c ci,
      In (p, Content id c ci) (included_content s) -> ci = char_offs 0 c;
  wf_root_name : exists name ids, source_id_strings s = name :: ids;
  wf_names : forall id name, 0 < id ->
      nth_error (source_id_strings s) id = Some name ->
      lookup path_eqb name (included_content s) <> None
}.

(** What the reports call the source. *)
Definition reported_name (s : sources) (id : nat) (name : str) : option str :=
  match id, root_path s with
  | 0, None => None
  | _, _ => Some name
  end.

(** ** Synthetic spans *)

(** A history of calls of [create_synthetic_span name fragment], most recent
    last: the spans returned and the final table. *)
Fixpoint create_all (sy : synthetic) (calls : list (str * str)) : list span * synthetic :=
  match calls with
  | [] => ([], sy)
  | (name, fragment) :: rest =>
      let '(sp, sy1) := create_synthetic_span sy name fragment in
      let '(sps, sy2) := create_all sy1 rest in
      (sp :: sps, sy2)
  end.

(** Everything created under one name so far, in order of creation. *)
Fixpoint text_under (name : str) (calls : list (str * str)) : str :=
  match calls with
  | [] => []
  | (n, fragment) :: rest =>
      (if str_eqb n name then fragment else []) ++ text_under name rest
  end.

Definition ascii_only (s : str) : Prop := Forall (fun c => is_ascii c = true) s.
