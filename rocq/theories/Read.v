(** * Read: reading a file and everything it includes (src/sources.rs 51-190) *)
From Coq Require Import String Ascii.
From Coq Require Import List NArith Arith Bool Permutation.
From Verif Require Import Base Text Path Sources.
Import ListNotations.
Local Open Scope nat_scope.

(** An item of [glob::Paths]: a path, or a [GlobError] with its path and text.
    (crate glob; used at sources.rs 100-107.) *)
Inductive glob_item :=
| G_Ok (p : path)
| G_Err (p : path) (e : str).

(** The local variables of [read_with_includes]. (sources.rs 63-79.) *)
Record reading := mk_reading {
  rd_names : list str;
  rd_pending : list path;
  rd_globs : list (path * included_glob);
  rd_content : list (path * included_source);
  rd_canonical : list path
}.

Section Reading.
  (** lib.rs 104-125: [get_includes]; its argument [source_id] only ends up in
      spans which it discards. *)
  Context (get_includes : str -> list str).
  (** The file system, which does not change while it is read:
      [glob::glob_with], [Path::canonicalize] and [read] (sources.rs 616-622);
      errors are their [to_string()]. *)
  Context (glob_with : str -> result (list glob_item) str).
  Context (canonicalize : path -> option path).
  Context (read : path -> result str str).

  (** The includes of a text, resolved (sources.rs 67-70 and 145-154). *)
  Definition resolved_includes (file : option path) (content : str) : list path :=
    map (resolve_included_path file) (get_includes content).

  (** sources.rs 105-160: one item of a glob. *)
  Definition read_item (st : reading) (i : glob_item) : reading :=
    match i with
    | G_Err p e =>
        mk_reading (rd_names st) (rd_pending st) (rd_globs st)
          (insert path_eqb p (SourceError e) (rd_content st)) (rd_canonical st)
    | G_Ok p =>
        match canonicalize p with
        | None => st
        | Some c =>
            if mem path_eqb c (rd_canonical st) then
              mk_reading (rd_names st) (rd_pending st) (rd_globs st)
                (match lookup path_eqb p (rd_content st) with
                 | Some _ => rd_content st
                 | None => insert path_eqb p Duplicate (rd_content st)
                 end) (rd_canonical st)
            else
              let id := List.length (rd_names st) in
              let src := match read p with
                         | Err e => SourceError (p ++ lit ": " ++ e)
                         | Ok text => Content id text (char_offs 0 text)
                         end in
              mk_reading (rd_names st ++ [p])
                (rd_pending st ++ match src with Content _ text _ => resolved_includes (Some p) text | _ => [] end)
                (rd_globs st)
                (insert path_eqb p src (rd_content st))
                (rd_canonical st ++ [c])
        end
    end.

  (** The paths pushed to [glob_expansions] (sources.rs 109, 113). *)
  Definition item_path (i : glob_item) : path := match i with G_Ok p => p | G_Err p _ => p end.

  (** sources.rs 83-165: the body of the loop for the include [q]. *)
  Definition read_include (st : reading) (q : path) : reading :=
    match glob_with q with
    | Err e =>
        mk_reading (rd_names st) (rd_pending st) (insert path_eqb q (GlobError e) (rd_globs st))
          (rd_content st) (rd_canonical st)
    | Ok items =>
        let st' := fold_left read_item items st in
        mk_reading (rd_names st') (rd_pending st')
          (insert path_eqb q (Expanded (map item_path items)) (rd_globs st'))
          (rd_content st') (rd_canonical st')
    end.

  (** sources.rs 83: the loop, [None] when [fuel] rounds do not suffice. *)
  Fixpoint read_loop (fuel : nat) (st : reading) : option reading :=
    match rd_pending st with
    | [] => Some st
    | q :: rest =>
        match fuel with
        | O => None
        | S n => read_loop n (read_include (mk_reading (rd_names st) rest (rd_globs st) (rd_content st) (rd_canonical st)) q)
        end
    end.

  (** sources.rs 57-81. *)
  Definition read_start (root : option path) (content : str) : reading :=
    mk_reading [match root with Some p => p | None => lit "inline" end]
      (resolved_includes root content) [] []
      (match root with
       | Some p => match canonicalize p with Some c => [c] | None => [] end
       | None => []
       end).

  (** sources.rs 57-189: [read_with_includes]. *)
  Definition read_with_includes (fuel : nat) (root : option path) (content : str) : option sources :=
    match read_loop fuel (read_start root content) with
    | None => None
    | Some st =>
        Some (mk_sources root content (char_offs 0 content) (rd_globs st) (rd_content st) (rd_names st))
    end.

  (** The table of contents is a [HashMap], which may be in any order (the
      globs are one too, but they are only looked up). (sources.rs 40, 361: the order of the iteration.) *)
  Definition reads_to (fuel : nat) (root : option path) (content : str) (s : sources) : Prop :=
    exists s0, read_with_includes fuel root content = Some s0 /\
      root_path s = root_path s0 /\ root_content s = root_content s0 /\ root_char_indices s = root_char_indices s0 /\
      included_globs s = included_globs s0 /\ source_id_strings s = source_id_strings s0 /\
      Permutation (included_content s0) (included_content s).

  (** sources.rs 52-55: [try_read_with_includes]. *)
  Definition try_read_with_includes (fuel : nat) (root : path) : result (option sources) str :=
    match read root with
    | Err e => Err e
    | Ok content => Ok (read_with_includes fuel (Some root) content)
    end.
End Reading.

(** sources.rs 352-369: [content_iter]. *)
Definition content_iter (s : sources) : list (nat * option path * str) :=
  (root_source_id, root_path s, root_content s) ::
  flat_map (fun '(p, src) => match src with Content id c _ => [(id, Some p, c)] | _ => [] end) (included_content s).

(** sources.rs 384-395: [error_paths]. *)
Definition error_paths (s : sources) : list (option path * str) :=
  flat_map (fun '(p, src) => match src with SourceError e => [(Some p, e)] | _ => [] end) (included_content s).

(** sources.rs 372-374. *)
Definition num_sources (s : sources) : nat := List.length (source_id_strings s).
