(** * Sources: lookup of spans in sources (src/sources.rs) *)
From Coq Require Import List NArith Arith Bool.
From Verif Require Import Base Text Path.
Import ListNotations.

(** src/lib.rs 97-101: [IncludedGlob]. *)
Inductive included_glob :=
| Expanded (paths : list path)
| GlobError (e : str).

(** src/sources.rs 44-49: [IncludedSource]. *)
Inductive included_source :=
| Content (id : nat) (content : str) (char_indices : list nat)
| SourceError (e : str)
| Duplicate.

(** src/sources.rs 34-42: [BeancountSources].  [root_source_id] is always
    [SourceId::default()], i.e. 0.  [SourceId] wraps a u32 and
    [From<usize>] truncates (types.rs 470-474): the model uses unbounded
    identifiers, i.e. it covers fewer than 2^32 sources. *)
Record sources := mk_sources {
  root_path : option path;
  root_content : str;
  root_char_indices : list nat;
  included_globs : list (path * included_glob);
  included_content : list (path * included_source);
  source_id_strings : list str
}.

(** sources.rs 58, types.rs 467: [SourceId::default]. *)
Definition root_source_id : nat := 0.

(** types.rs: [SpannedSource]. (types.rs 321-328.) *)
Record spanned_source := mk_spanned_source {
  ss_file_name : option str;
  ss_start_line : nat;
  ss_end_line : nat;
  ss_content : str
}.

(** src/sources.rs 326-328: [source_id_string], an indexing operation. *)
Definition source_id_string (s : sources) (id : nat) : outcome str :=
  match nth_error (source_id_strings s) id with
  | Some x => Fine x
  | None => Panic
  end.

(** src/sources.rs 294-324: [get_adjusted_source]. *)
Definition get_adjusted_source (s : sources) (sp : span)
  : outcome (str * str * span * span) :=
  let safe_span :=
    if length (source_id_strings s) <=? sp_source sp
    then mk_span root_source_id 0 0
    else sp in
  let source_id := sp_source safe_span in
  match source_id_string s source_id with
  | Panic => Panic
  | Fine id_str =>
      let found :=
        if source_id =? root_source_id
        then Fine (root_content s, root_char_indices s)
        else match lookup path_eqb id_str (included_content s) with
             | None => Panic
             | Some (Content _ c ci) => Fine (c, ci)
             | Some _ => Fine ([], [])
             end in
      match found with
      | Panic => Panic
      | Fine (content, ci) =>
          match trimmed_span content safe_span with
          | Panic => Panic
          | Fine byte_span => Fine (content, id_str, byte_span, byte_to_rune ci byte_span)
          end
      end
  end.

(** [iter.filter(|c| *c == '\n').count()] (sources.rs 258-259, 264-265.) *)
Definition count_newlines (s : str) : nat :=
  length (filter (fun c => (c =? newline)%N) s).

(** Shared body of src/sources.rs 254-275 and 679-701: line numbers and
    content.  [Panic] on the subtraction [rune_span.end - rune_span.start]
    when it underflows. *)
Definition spanned_source_of (file_name : option str) (content : str)
    (byte_span rune_span : span) : outcome spanned_source :=
  if sp_end rune_span <? sp_start rune_span then Panic
  else
    let start_line := count_newlines (firstn (sp_start rune_span) content) + 1 in
    let rest := skipn (sp_start rune_span) content in
    let lines_spanned := count_newlines (firstn (sp_end rune_span - sp_start rune_span) rest) in
    Fine (mk_spanned_source file_name start_line (start_line + lines_spanned)
            (match str_get content (sp_start byte_span) (sp_end byte_span) with
             | Some m => m
             | None => []
             end)).

(** src/sources.rs 245-276: [BeancountSources::resolve_span]. *)
Definition resolve_span (s : sources) (sp : span) : outcome spanned_source :=
  match get_adjusted_source s sp with
  | Panic => Panic
  | Fine (content, id_str, byte_span, rune_span) =>
      let file_name :=
        if sp_source sp =? root_source_id
        then match root_path s with Some _ => Some id_str | None => None end
        else Some id_str in
      spanned_source_of file_name content byte_span rune_span
  end.

(** src/sources.rs 285-292: [error_source_text], given the span of the error. *)
Definition error_source_text (s : sources) (sp : span) : outcome str :=
  match get_adjusted_source s sp with
  | Panic => Panic
  | Fine (content, _, byte_span, _) =>
      match str_get content (sp_start byte_span) (sp_end byte_span) with
      | Some m => Fine m
      | None => Panic
      end
  end.

(** ** Synthetic sources *)

(** src/sources.rs 448-453: [SyntheticSources]. *)
Record synthetic := mk_synthetic {
  sy_sources : sources;
  sy_base_id : nat;
  sy_content : list (str * (nat * str * list nat));
  sy_id_strings : list str
}.

(** src/sources.rs 456-463: [SyntheticSources::new]; [num_sources] is 372-374. *)
Definition synthetic_new (s : sources) : synthetic :=
  mk_synthetic s (length (source_id_strings s)) [] [].

(** src/sources.rs 479-517: [create_synthetic_span].  Note [original_len] is a
    number of characters, added to byte offsets. *)
Definition create_synthetic_span (sy : synthetic) (name fragment : str) : span * synthetic :=
  match lookup str_eqb name (sy_content sy) with
  | Some (id, content, ci) =>
      let start := blen content in
      let sp := mk_span id start (start + blen fragment) in
      let ci' := ci ++ char_offs (length ci) fragment in
      (sp, mk_synthetic (sy_sources sy) (sy_base_id sy)
             (insert str_eqb name (id, content ++ fragment, ci') (sy_content sy))
             (sy_id_strings sy))
  | None =>
      let source := length (sy_id_strings sy) + sy_base_id sy in
      (mk_span source 0 (blen fragment),
       mk_synthetic (sy_sources sy) (sy_base_id sy)
         (insert str_eqb name (source, fragment, char_offs 0 fragment) (sy_content sy))
         (sy_id_strings sy ++ [name]))
  end.

(** src/sources.rs 576-591: [SyntheticSources::get_adjusted_source]. *)
Definition sy_get_adjusted_source (sy : synthetic) (sp : span)
  : outcome (str * str * span * span) :=
  if (sy_base_id sy <=? sp_source sp) &&
     (sp_source sp <? sy_base_id sy + length (sy_id_strings sy))
  then
    match nth_error (sy_id_strings sy) (sp_source sp - sy_base_id sy) with
    | None => Panic
    | Some name =>
        match lookup str_eqb name (sy_content sy) with
        | None => Panic
        | Some (_, content, ci) =>
            match trimmed_span content sp with
            | Panic => Panic
            | Fine byte_span => Fine (content, name, byte_span, byte_to_rune ci byte_span)
            end
        end
    end
  else get_adjusted_source (sy_sources sy) sp.

(** src/sources.rs 561-563 with the free function 670-702, called with
    [source_id_is_file_name = true]. *)
Definition sy_resolve_span (sy : synthetic) (sp : span) : outcome spanned_source :=
  match sy_get_adjusted_source sy sp with
  | Panic => Panic
  | Fine (content, id_str, byte_span, rune_span) =>
      spanned_source_of (Some id_str) content byte_span rune_span
  end.

(** src/sources.rs 565-574: [SyntheticSources::error_source_text]. *)
Definition sy_error_source_text (sy : synthetic) (sp : span) : outcome str :=
  match sy_get_adjusted_source sy sp with
  | Panic => Panic
  | Fine (content, _, byte_span, _) =>
      match str_get content (sp_start byte_span) (sp_end byte_span) with
      | Some m => Fine m
      | None => Panic
      end
  end.
