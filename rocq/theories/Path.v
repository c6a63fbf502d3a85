(** * Path: std::path on Unix, and include path resolution (src/sources.rs)

    A path is its text.  [Path::eq] and hashing compare components, so tables
    keyed by paths use [path_eqb]. *)
From Coq Require Import List NArith Arith Bool.
From Verif Require Import Base.
Import ListNotations.

(** std: [Path] on Unix, as held at sources.rs 35, 39-40. *)
Notation path := (list N) (only parsing).

(** std: the separator, for sources.rs 595-614. *)
Definition slash : char := 47%N.
(** std: the current directory, for sources.rs 595-614. *)
Definition dot : char := 46%N.

(** [str::split(sep)] for a single separator char: always at least one piece.
    (std; used at types.rs 1216-1224, 1330-1345, options.rs 191 and behind [Path::components].) *)
Fixpoint split_on (sep : char) (s : str) : list str :=
  match s with
  | [] => [[]]
  | c :: s' =>
      if (c =? sep)%N then [] :: split_on sep s'
      else match split_on sep s' with
           | [] => [[c]]
           | w :: ws => (c :: w) :: ws
           end
  end.

(** std::path::Component on Unix. (std: behind sources.rs 600, 607.) *)
Inductive component :=
| RootDir
| CurDir
| ParentDir
| Normal (name : str).

(** std: behind the keys at lib.rs 526, 540, sources.rs 39-40. *)
Definition component_eqb (a b : component) : bool :=
  match a, b with
  | RootDir, RootDir | CurDir, CurDir | ParentDir, ParentDir => true
  | Normal x, Normal y => str_eqb x y
  | _, _ => false
  end.

(** One piece between separators; empty pieces and "." vanish. (std: behind sources.rs 607.) *)
Definition body_component (w : str) : list component :=
  if str_eqb w [] then []
  else if str_eqb w [dot] then []
  else if str_eqb w [dot; dot] then [ParentDir]
  else [Normal w].

(** std: behind sources.rs 600. *)
Definition is_absolute (p : path) : bool :=
  match p with
  | c :: _ => (c =? slash)%N
  | [] => false
  end.

(** A leading "." is the only one that is kept. (std: behind sources.rs 607.) *)
Definition leading (p : path) : list component :=
  if is_absolute p then [RootDir]
  else match split_on slash p with
       | w :: _ => if str_eqb w [dot] then [CurDir] else []
       | [] => []
       end.

(** [Path::components]. (std: behind sources.rs 607 and the keys at sources.rs 39-40.) *)
Definition components (p : path) : list component :=
  leading p ++ flat_map body_component (split_on slash p).

(** std: behind the keys at lib.rs 526, 540, sources.rs 39-40. *)
Fixpoint components_eqb (a b : list component) : bool :=
  match a, b with
  | [], [] => true
  | x :: a', y :: b' => component_eqb x y && components_eqb a' b'
  | _, _ => false
  end.

(** [PartialEq for Path]. (std: behind the keys at lib.rs 526, 540, 577, sources.rs 39-40.) *)
Definition path_eqb (p q : path) : bool := components_eqb (components p) (components q).

(** Pieces joined back with separators. (std: behind sources.rs 607.) *)
Fixpoint unsplit (ws : list str) : str :=
  match ws with
  | [] => []
  | [w] => w
  | w :: ws' => w ++ slash :: unsplit ws'
  end.

(** Drop the pieces at the end which denote no component, up to the first one
    which does. (std: behind sources.rs 607.) *)
Fixpoint drop_vanishing (rev_pieces : list str) : list str :=
  match rev_pieces with
  | w :: ws => match body_component w with [] => drop_vanishing ws | _ => w :: ws end
  | [] => []
  end.

(** [Path::parent]: [components().next_back()] then [as_path()]; the text is
    the prefix of the original without its last component and without the
    separators and "." pieces left at its end.  The part before the body (a
    root or a leading ".") is only removed as a component of its own.
    (std; used at sources.rs 607, options.rs 129.) *)
Definition parent (p : path) : option path :=
  let '(prefix, body) :=
    match leading p, split_on slash p with
    | [RootDir], _ :: ws => (Some [], ws)
    | [CurDir], _ :: ws => (Some [dot], ws)
    | _, ws => (None, ws)
    end in
  match drop_vanishing (rev body), prefix with
  | _ :: ws, None => Some (unsplit (rev (drop_vanishing ws)))
  | _ :: ws, Some pre =>
      match rev (drop_vanishing ws) with
      | [] => Some (if str_eqb pre [] then [slash] else pre)
      | ws' => Some (pre ++ slash :: unsplit ws')
      end
  | [], Some pre => if str_eqb pre [] then None else Some []
  | [], None => None
  end.

(** [Path::join]. (std; used at sources.rs 600, options.rs 130.) *)
Definition join (p q : path) : path :=
  if is_absolute q then q
  else match rev p with
       | [] => q
       | c :: _ => if (c =? slash)%N then p ++ q else p ++ slash :: q
       end.

(** src/sources.rs 606-614: [path_dir]. *)
Definition path_dir (p : path) : option path :=
  match parent p with
  | Some d => if str_eqb d [] then None else Some d
  | None => None
  end.

(** src/sources.rs 595-603: [resolve_included_path]. *)
Definition resolve_included_path (including : option path) (included : path) : path :=
  match including with
  | None => included
  | Some p =>
      match path_dir p with
      | Some d => join d included
      | None => included
      end
  end.
