(** * Specification of reading *)
From Coq Require Import String Ascii.
From Coq Require Import List NArith Arith Bool.
From Verif Require Import Base Text Path Sources SpecPragma Read.
Import ListNotations.
Local Open Scope nat_scope.

Section SpecRead.
  Context (get_includes : str -> list str).
  Context (glob_with : str -> result (list glob_item) str).
  Context (canonicalize : path -> option path).
  Context (read : path -> result str str).
  Context (root : option path) (content : str).

  (** [q] is an include of the root or of one of the files [log], resolved. *)
  Inductive wanted (log : list path) : path -> Prop :=
  | wanted_root text :
      In text (get_includes content) -> wanted log (resolve_included_path root text)
  | wanted_read p c text :
      In p log -> read p = Ok c -> In text (get_includes c) ->
      wanted log (resolve_included_path (Some p) text).

  (** Some glob of [log]'s includes gives the item [i]. *)
  Definition matched (log : list path) (i : glob_item) : Prop :=
    exists q items, wanted log q /\ glob_with q = Ok items /\ In i items.

  Definition root_canonical : list path :=
    match root with Some p => match canonicalize p with Some c => [c] | None => [] end | None => [] end.

  Definition glob_result (q : path) : included_glob :=
    match glob_with q with
    | Ok items => Expanded (map item_path items)
    | Err e => GlobError e
    end.

  (** [s] is what reading the files [log], in this order, should give. *)
  Record read_as (log : list path) (s : sources) : Prop := {
    ra_root : root_path s = root;
    ra_root_content : root_content s = content;
    ra_root_indices : root_char_indices s = char_offs 0 content;
    (** sources are numbered in the order they are read, from the root *)
    ra_names : source_id_strings s = match root with Some p => p | None => lit "inline" end :: log;
    (** no file is read twice, and the root not again *)
    ra_once : exists cs, Forall2 (fun p c => canonicalize p = Some c) log cs /\
                ForallOrdPairs (fun c c' => ~ same_path c c') (root_canonical ++ cs);
    (** a file is read because something read before it includes it *)
    ra_why : forall l1 p l2, log = l1 ++ p :: l2 -> matched l1 (G_Ok p);
    (** whatever is included has been globbed *)
    ra_globbed : forall q, wanted log q -> lookup path_eqb q (included_globs s) <> None;
    ra_globs : forall q g, lookup path_eqb q (included_globs s) = Some g ->
                 exists q', same_path q q' /\ wanted log q' /\ g = glob_result q';
    (** whatever has been matched is the root or read, if it exists *)
    ra_all : forall p c, matched log (G_Ok p) -> canonicalize p = Some c ->
               exists c', same_path c c' /\ (In c' root_canonical \/ exists p', In p' log /\ canonicalize p' = Some c');
    (** the table of contents *)
    ra_content : forall p src, lookup path_eqb p (included_content s) = Some src ->
        match src with
        | Content id c ci =>
            ci = char_offs 0 c /\ 0 < id /\
            exists p', nth_error (source_id_strings s) id = Some p' /\ same_path p p' /\ read p' = Ok c
        | SourceError e =>
            exists p', same_path p p' /\
              ((In p' log /\ exists e', read p' = Err e' /\ e = p' ++ lit ": " ++ e') \/ matched log (G_Err p' e))
        | Duplicate => exists p', same_path p p' /\ matched log (G_Ok p') /\ canonicalize p' <> None
        end;
    ra_distinct : ForallOrdPairs (fun a b => ~ same_path (fst a) (fst b)) (included_content s);
    ra_known : forall i, matched log i -> (forall p, i = G_Ok p -> canonicalize p <> None) ->
        lookup path_eqb (item_path i) (included_content s) <> None;
    (** each file read is found under its name, unless some glob gave an error for it *)
    ra_entries : (forall p q c d, same_path p q -> canonicalize p = Some c -> canonicalize q = Some d -> same_path c d) ->
        forall id p, 0 < id -> nth_error (source_id_strings s) id = Some p ->
        match lookup path_eqb p (included_content s) with
        | Some (Content id' c _) => id' = id /\ read p = Ok c
        | Some (SourceError e) =>
            (exists e', read p = Err e' /\ e = p ++ lit ": " ++ e') \/
            exists p', same_path p p' /\ matched log (G_Err p' e)
        | _ => False
        end
  }.

  (** Only finitely many files can be named. *)
  Definition finite_fs : Prop :=
    exists all, forall p c, canonicalize p = Some c -> exists c', In c' all /\ same_path c c'.
End SpecRead.
