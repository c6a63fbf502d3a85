(** * Specification of the pragma pass

    The declarations are processed in one linear order, described by [walk].
    What is pushed, included and set at some point of that order is a function
    of the events before it. *)
From Coq Require Import String Ascii.
From Coq Require Import List NArith ZArith Arith Bool Permutation.
From Verif Require Import Base Path Sources Types Options SpecOptions Pragma.
Import ListNotations.
Local Open Scope nat_scope.

Definition same_path (p q : path) : Prop := components p = components q.

(** Files by the name they have been read under ([None]: inline text). *)
Notation table := (list (option (list N) * list (spanned declaration))).

Inductive event :=
| Declared (file : option path) (d : spanned declaration)
    (** a declaration of [file] is processed *)
| Offered (sp : span) (p : path) (entered : option path).
    (** the include at [sp] comes to its file [p]; [Some k]: it is entered now, it is called [k] in the table *)

(** ** The order of processing *)

(** [p] is in the table, under the name [k]. *)
Definition takes (t : table) (p k : path) (ds : list (spanned declaration)) (t' : table) : Prop :=
  exists a b, t = a ++ (Some k, ds) :: b /\ t' = a ++ b /\ same_path p k.

Definition absent (t : table) (p : path) : Prop :=
  forall k ds, In (Some k, ds) t -> ~ same_path p k.

(** The files of one include, in the order of the glob: each one still in the
    table is taken out of it. *)
Inductive offers (sp : span) : table -> list path -> list event -> table -> table -> Prop :=
| offers_nil t : offers sp t [] [] [] t
| offers_enter t p ps k ds t1 es fs t2 :
    takes t p k ds t1 -> offers sp t1 ps es fs t2 ->
    offers sp t (p :: ps) (Offered sp p (Some k) :: es) ((Some k, ds) :: fs) t2
| offers_skip t p ps es fs t1 :
    absent t p -> offers sp t ps es fs t1 ->
    offers sp t (p :: ps) (Offered sp p None :: es) fs t1.

Definition glob_of (globs : list (path * included_glob)) (file : option path) (text : str) : option included_glob :=
  lookup path_eqb (resolve_included_path file text) globs.

Definition expansion (g : included_glob) : list path :=
  match g with Expanded ps => ps | GlobError _ => [] end.

Definition is_include (d : declaration) : bool :=
  match d with D_Pragma (P_Include _) => true | _ => false end.

(** [walk t f ds es t']: processing the declarations [ds] of the file [f],
    when [t] are the files not yet entered, is the sequence [es] of events and
    leaves [t'].  The files of an include are processed at that point, before
    the rest of the including file, the last one of the glob first. *)
Inductive walk (globs : list (path * included_glob)) :
  table -> option path -> list (spanned declaration) -> list event -> table -> Prop :=
| walk_nil t f : walk globs t f [] [] t
| walk_plain t f d ds es t' :
    is_include (item d) = false -> walk globs t f ds es t' ->
    walk globs t f (d :: ds) (Declared f d :: es) t'
| walk_include t f d text ds g offered fs t1 es1 t2 es2 t3 :
    item d = D_Pragma (P_Include text) ->
    glob_of globs f (item text) = Some g ->
    offers (span_of text) t (expansion g) offered fs t1 ->
    walks globs t1 (rev fs) es1 t2 ->
    walk globs t2 f ds es2 t3 ->
    walk globs t f (d :: ds) (Declared f d :: offered ++ es1 ++ es2) t3
with walks (globs : list (path * included_glob)) : table -> table -> list event -> table -> Prop :=
| walks_nil t : walks globs t [] [] t
| walks_cons t f ds fs es1 t1 es2 t2 :
    walk globs t f ds es1 t1 -> walks globs t1 fs es2 t2 ->
    walks globs t ((f, ds) :: fs) (es1 ++ es2) t2.

(** ** What is pushed *)

Definition tag_effect (t : str) (stack : list (spanned str)) (e : event) : list (spanned str) :=
  match e with
  | Declared _ d =>
      match item d with
      | D_Pragma (P_Pushtag x) => if str_eqb (item x) t then x :: stack else stack
      | D_Pragma (P_Poptag x) => if str_eqb (item x) t then tl stack else stack
      | _ => stack
      end
  | _ => stack
  end.

(** The pushes of tag [t] in force after [seen], the latest first. *)
Definition tag_stack (t : str) (seen : list event) : list (spanned str) := fold_left (tag_effect t) seen [].

Definition meta_effect (k : str) (stack : list (span * spanned meta_value)) (e : event) : list (span * spanned meta_value) :=
  match e with
  | Declared _ d =>
      match item d with
      | D_Pragma (P_Pushmeta x) =>
          if str_eqb (item (mkv_key x)) k then (span_of (mkv_key x), mkv_value x) :: stack else stack
      | D_Pragma (P_Popmeta x) => if str_eqb (item x) k then tl stack else stack
      | _ => stack
      end
  | _ => stack
  end.

(** The pushes of key [k] in force after [seen], each as where its key was
    written and its value, the latest first. *)
Definition meta_stack (k : str) (seen : list event) : list (span * spanned meta_value) := fold_left (meta_effect k) seen [].

(** ** The directives *)

(** [d'] is [d] with what is pushed after [seen], except where [d] has its own. *)
Record augmented (seen : list event) (d d' : directive) : Prop := {
  aug_date : dir_date d' = dir_date d;
  aug_variant : dir_variant d' = dir_variant d;
  aug_md_span : span_of (dir_metadata d') = span_of (dir_metadata d);
  aug_links : md_links (item (dir_metadata d')) = md_links (item (dir_metadata d));
  aug_tags : forall t,
    In t (md_tags (item (dir_metadata d'))) <->
    In t (md_tags (item (dir_metadata d))) \/
    (~ In (item t) (map item (md_tags (item (dir_metadata d)))) /\ hd_error (tag_stack (item t) seen) = Some t);
  aug_keys : forall k v,
    In (k, v) (md_key_values (item (dir_metadata d'))) <->
    In (k, v) (md_key_values (item (dir_metadata d))) \/
    (~ In (item k) (map (fun e => item (fst e)) (md_key_values (item (dir_metadata d)))) /\
     hd_error (meta_stack (item k) seen) = Some (span_of k, v));
  aug_tags_once :
    NoDup (map item (md_tags (item (dir_metadata d)))) -> NoDup (map item (md_tags (item (dir_metadata d'))));
  aug_keys_once :
    NoDup (map (fun e => item (fst e)) (md_key_values (item (dir_metadata d)))) ->
    NoDup (map (fun e => item (fst e)) (md_key_values (item (dir_metadata d'))))
}.

Definition as_directive (e : event) : option (spanned directive) :=
  match e with
  | Declared _ d => match item d with D_Directive x => Some (mk_spanned x (span_of d)) | _ => None end
  | _ => None
  end.

(** The directives produced by [es] after [seen], in order. *)
Inductive yields : list event -> list event -> list (spanned directive) -> Prop :=
| yields_nil seen : yields seen [] []
| yields_directive seen e es d d' ds :
    as_directive e = Some d -> augmented seen (item d) (item d') -> span_of d' = span_of d ->
    yields (seen ++ [e]) es ds -> yields seen (e :: es) (d' :: ds)
| yields_other seen e es ds :
    as_directive e = None -> yields (seen ++ [e]) es ds -> yields seen (e :: es) ds.

(** ** Options and plugins *)

Definition as_option (e : event) : list beancount_option :=
  match e with
  | Declared _ d => match item d with D_Pragma (P_Option o) => [o] | _ => [] end
  | _ => []
  end.
Definition options_of (es : list event) : list beancount_option := flat_map as_option es.

Definition as_plugin (e : event) : list plugin :=
  match e with
  | Declared _ d => match item d with D_Pragma (P_Plugin p) => [p] | _ => [] end
  | _ => []
  end.
Definition plugins_of (es : list event) : list plugin := flat_map as_plugin es.

(** ** Sameness of contexts *)

Definition same_number (a b : decimal) : Prop :=
  (dec_signed a * 10 ^ Z.of_nat (dec_scale b) = dec_signed b * 10 ^ Z.of_nat (dec_scale a))%Z.

Inductive same_expr : expr -> expr -> Prop :=
| same_value x y : same_number x y -> same_expr (E_Value x) (E_Value y)
| same_add a b c d : same_expr a c -> same_expr b d -> same_expr (E_Add a b) (E_Add c d)
| same_sub a b c d : same_expr a c -> same_expr b d -> same_expr (E_Sub a b) (E_Sub c d)
| same_mul a b c d : same_expr a c -> same_expr b d -> same_expr (E_Mul a b) (E_Mul c d)
| same_div a b c d : same_expr a c -> same_expr b d -> same_expr (E_Div a b) (E_Div c d)
| same_neg a b : same_expr a b -> same_expr (E_Neg a) (E_Neg b)
| same_paren a b : same_expr a b -> same_expr (E_Paren a) (E_Paren b).

Definition same_expr_value (a b : expr_value) : Prop :=
  same_number (ev_value a) (ev_value b) /\ same_expr (ev_expr a) (ev_expr b).

Inductive same_meta_value : meta_value -> meta_value -> Prop :=
| same_number_value x y : same_expr_value x y -> same_meta_value (MV_Simple (SV_Expr x)) (MV_Simple (SV_Expr y))
| same_amount m n a b c d e : same_expr_value m n ->
    same_meta_value (MV_Amount (mk_amount (mk_spanned m a) (mk_spanned c b)))
                    (MV_Amount (mk_amount (mk_spanned n d) (mk_spanned c e)))
| same_other v : (forall x, v <> SV_Expr x) -> same_meta_value (MV_Simple v) (MV_Simple v).

(** The pushes of tags agree in number, those of metadata are the same ones
    (at the same places) with the same values. *)
Definition same_context (a b : list event) : Prop :=
  (forall t, List.length (tag_stack t a) = List.length (tag_stack t b)) /\
  (forall k, Forall2 (fun x y => fst x = fst y /\ same_meta_value (item (snd x)) (item (snd y)))
               (meta_stack k a) (meta_stack k b)).

(** ** The reports *)

(** [l] shows the tags and the metadata in force after [seen], the keys with
    all their values, the latest last.  The order of the tags and of the keys
    is not determined. *)
Record lists (seen : list event) (l : listing) : Prop := {
  lists_tags : forall t, In t (ls_tags l) <-> tag_stack t seen <> [];
  lists_tags_once : NoDup (ls_tags l);
  lists_meta : forall k vs, In (k, vs) (ls_meta l) <->
    meta_stack k seen <> [] /\ vs = map (fun x => item (snd x)) (rev (meta_stack k seen));
  lists_meta_once : NoDup (map fst (ls_meta l))
}.

Section Due.
  Context (canonicalize : path -> option path).
  Context (globs : list (path * included_glob)).
  Context (error_paths : list (option path * str)).

  Definition is_file (k : path) (c : path) : Prop :=
    exists c', canonicalize k = Some c' /\ same_path c' c.

  (** The file [c] was last entered by the include at [sp], after [before]. *)
  Definition last_entered (c : path) (seen : list event) (sp : span) (before : list event) : Prop :=
    exists p k after,
      seen = before ++ Offered sp p (Some k) :: after /\ is_file k c /\
      forall sp' p' k', In (Offered sp' p' (Some k')) after -> ~ is_file k' c.

  (** The file [c] has not been entered through an include. *)
  Definition never_entered (c : path) (seen : list event) : Prop :=
    forall sp p k, In (Offered sp p (Some k)) seen -> ~ is_file k c.

  (** The reports due when the include at [sp] comes to [p] which is not
      entered: it could not be read, or it has been entered before. *)
  Inductive due_not_entered (seen : list event) (sp : span) (p : path) : list report -> Prop :=
  | due_unreadable e :
      lookup opt_path_eqb (Some p) error_paths = Some e ->
      due_not_entered seen sp p [mk_report (IncludeUnreadable e) sp []]
  | due_harmless c sp0 before :
      lookup opt_path_eqb (Some p) error_paths = None ->
      canonicalize p = Some c -> last_entered c seen sp0 before -> same_context before seen ->
      due_not_entered seen sp p []
  | due_other_context c sp0 before here first :
      lookup opt_path_eqb (Some p) error_paths = None ->
      canonicalize p = Some c -> last_entered c seen sp0 before -> ~ same_context before seen ->
      lists seen here -> lists before first ->
      due_not_entered seen sp p [mk_report (DuplicateInclude here (Some first)) sp [sp0]]
  | due_root here :
      lookup opt_path_eqb (Some p) error_paths = None ->
      (forall c, canonicalize p = Some c -> never_entered c seen) ->
      lists seen here ->
      due_not_entered seen sp p [mk_report (DuplicateInclude here None) sp []].

  (** The reports due for one event after [seen]. *)
  Definition due (seen : list event) (e : event) (rs : list report) : Prop :=
    match e with
    | Declared f d =>
        match item d with
        | D_Directive _ | D_Pragma (P_Pushtag _) | D_Pragma (P_Pushmeta _) | D_Pragma (P_Plugin _) => rs = []
        | D_Pragma (P_Poptag t) =>
            rs = match tag_stack (item t) seen with [] => [mk_report InvalidPoptag (span_of t) []] | _ => [] end
        | D_Pragma (P_Popmeta k) =>
            rs = match meta_stack (item k) seen with [] => [mk_report InvalidPopmeta (span_of k) []] | _ => [] end
        | D_Pragma (P_Include g) =>
            rs = match glob_of globs f (item g) with
                 | Some (Expanded []) => [mk_report IncludeNoSuchFile (span_of g) []]
                 | Some (GlobError e) => [mk_report (IncludeGlobError e) (span_of g) []]
                 | _ => []
                 end
        | D_Pragma (P_Option o) =>
            rs = match due_report (options_of seen) o with Some r => [r] | None => [] end
        end
    | Offered sp p (Some _) => rs = []
    | Offered sp p None => due_not_entered seen sp p rs
    end.

  (** The reports due for [es] after [seen], in order. *)
  Inductive dues : list event -> list event -> list report -> Prop :=
  | dues_nil seen : dues seen [] []
  | dues_cons seen e es rs rs' :
      due seen e rs -> dues (seen ++ [e]) es rs' -> dues seen (e :: es) (rs ++ rs').
End Due.

(** The same reports, up to the order in which tags and keys are shown. *)
Definition alike_listing (l l' : listing) : Prop :=
  Permutation (ls_tags l) (ls_tags l') /\ Permutation (ls_meta l) (ls_meta l').
Inductive alike_report : report -> report -> Prop :=
| alike_same r : alike_report r r
| alike_first here here' sp : alike_listing here here' ->
    alike_report (mk_report (DuplicateInclude here None) sp []) (mk_report (DuplicateInclude here' None) sp [])
| alike_other here here' first first' sp sp0 : alike_listing here here' -> alike_listing first first' ->
    alike_report (mk_report (DuplicateInclude here (Some first)) sp [sp0]) (mk_report (DuplicateInclude here' (Some first')) sp [sp0]).

(** Pushes which are never popped: for each such key one report, where it was
    first pushed; for each such tag one report per push.  The order of the
    keys and of the tags is not determined. *)
Definition leftover (es : list event) (rs : list report) : Prop :=
  exists ks ts,
    NoDup ks /\ (forall k, In k ks <-> meta_stack k es <> []) /\
    NoDup ts /\ (forall t, In t ts <-> tag_stack t es <> []) /\
    rs = flat_map (fun k => match rev (meta_stack k es) with
                            | (sp, _) :: _ => [mk_report InvalidPushmeta sp []]
                            | [] => []
                            end) ks ++
         flat_map (fun t => map (fun x => mk_report InvalidPushtag (span_of x) []) (rev (tag_stack t es))) ts.

(** ** Which files are entered *)

Definition same_file (a b : option path) : Prop :=
  match a, b with
  | Some p, Some q => same_path p q
  | None, None => True
  | _, _ => False
  end.

Definition names_distinct (t : table) : Prop :=
  ForallOrdPairs (fun a b => ~ same_file (fst a) (fst b)) t.

(** The files which the root leads to, over any number of includes. *)
Inductive reached (globs : list (path * included_glob)) (t : table) (root : option path) : option path -> Prop :=
| reached_root : reached globs t root root
| reached_include f ds d text g p k ds' :
    reached globs t root f -> In (f, ds) t -> In d ds ->
    item d = D_Pragma (P_Include text) -> glob_of globs f (item text) = Some g ->
    In p (expansion g) -> In (Some k, ds') t -> same_path p k ->
    reached globs t root (Some k).

Definition directives_in (ds : list (spanned declaration)) : list (spanned directive) :=
  flat_map (fun d => match item d with D_Directive x => [mk_spanned x (span_of d)] | _ => [] end) ds.

(** A directive without its tags and metadata, the parts which may be added to. *)
Definition core (d : spanned directive) : spanned directive :=
  mk_spanned (mk_directive (dir_date (item d))
                (mk_spanned (mk_metadata [] [] (md_links (item (dir_metadata (item d))))) (span_of (dir_metadata (item d))))
                (dir_variant (item d)))
             (span_of d).

Definition directives_of (es : list event) : list (spanned directive) :=
  flat_map (fun e => match as_directive e with Some d => [d] | None => [] end) es.

(** The pops with nothing to pop in [es] after [seen], in order. *)
Definition stray_pop (seen : list event) (e : event) : list report :=
  match e with
  | Declared _ d =>
      match item d with
      | D_Pragma (P_Poptag t) => match tag_stack (item t) seen with [] => [mk_report InvalidPoptag (span_of t) []] | _ => [] end
      | D_Pragma (P_Popmeta k) => match meta_stack (item k) seen with [] => [mk_report InvalidPopmeta (span_of k) []] | _ => [] end
      | _ => []
      end
  | _ => []
  end.
Fixpoint stray_pops (seen es : list event) : list report :=
  match es with
  | [] => []
  | e :: es' => stray_pop seen e ++ stray_pops (seen ++ [e]) es'
  end.

Definition about_pops (r : report) : bool :=
  match rp_problem r with InvalidPoptag | InvalidPopmeta => true | _ => false end.
Definition about_pushes (r : report) : bool :=
  match rp_problem r with InvalidPushtag | InvalidPushmeta => true | _ => false end.
