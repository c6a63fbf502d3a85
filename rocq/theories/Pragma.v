(** * Pragma: the second pass over the declarations (src/lib.rs 304-667) *)
From Coq Require Import String Ascii.
From Coq Require Import List NArith ZArith Arith Bool.
From Verif Require Import Base Path Sources Types Options.
Import ListNotations.
Local Open Scope nat_scope.

(** ** Equality of metadata values, as derived in types.rs *)

(** types.rs 492-497: [PartialEq for Span]. *)
Definition span_eqb (a b : span) : bool :=
  (sp_source a =? sp_source b) && (sp_start a =? sp_start b) && (sp_end a =? sp_end b).

(** types.rs 2251-2260. *)
Fixpoint expr_eqb (a b : expr) : bool :=
  match a, b with
  | E_Value x, E_Value y => dec_eqb x y
  | E_Add a1 a2, E_Add b1 b2 | E_Sub a1 a2, E_Sub b1 b2
  | E_Mul a1 a2, E_Mul b1 b2 | E_Div a1 a2, E_Div b1 b2 => expr_eqb a1 b1 && expr_eqb a2 b2
  | E_Neg x, E_Neg y => expr_eqb x y
  | E_Paren x, E_Paren y => expr_eqb x y
  | _, _ => false
  end.

(** types.rs 2201-2208. *)
Definition ev_eqb (a b : expr_value) : bool :=
  dec_eqb (ev_value a) (ev_value b) && expr_eqb (ev_expr a) (ev_expr b).

(** types.rs 1210-1214. *)
Definition account_eqb (a b : account) : bool :=
  account_type_eqb (acc_type a) (acc_type b) && str_eqb (acc_name a) (acc_name b).

(** types.rs 1912-1923. *)
Definition simple_value_eqb (a b : simple_value) : bool :=
  match a, b with
  | SV_String x, SV_String y | SV_Currency x, SV_Currency y
  | SV_Tag x, SV_Tag y | SV_Link x, SV_Link y => str_eqb x y
  | SV_Account x, SV_Account y => account_eqb x y
  | SV_Date x, SV_Date y => date_eqb x y
  | SV_Bool x, SV_Bool y => Bool.eqb x y
  | SV_Null, SV_Null => true
  | SV_Expr x, SV_Expr y => ev_eqb x y
  | _, _ => false
  end.

(** types.rs 2367-2371; the spans of the parts are ignored. *)
Definition amount_eqb (a b : amount) : bool :=
  spanned_eqb ev_eqb (am_number a) (am_number b) && spanned_eqb str_eqb (am_currency a) (am_currency b).

(** types.rs 1894-1898. *)
Definition meta_value_eqb (a b : meta_value) : bool :=
  match a, b with
  | MV_Simple x, MV_Simple y => simple_value_eqb x y
  | MV_Amount x, MV_Amount y => amount_eqb x y
  | _, _ => false
  end.

(** ** The push/pop tables *)

(** lib.rs 318-319. *)
Notation tag_map := (list (spanned (list N) * list (spanned (list N)))).
(** lib.rs 319. *)
Notation meta_map := (list (spanned (list N) * list (span * spanned meta_value))).

(** lib.rs 449-456: pushtag. *)
Definition push_tag (t : spanned str) (m : tag_map) : tag_map :=
  match lookup spanned_str_eqb t m with
  | Some others => replace_val spanned_str_eqb t (others ++ [t]) m
  | None => insert spanned_str_eqb t [] m
  end.

(** lib.rs 457-483: poptag; [None] is the error. *)
Definition pop_tag (t : spanned str) (m : tag_map) : option tag_map :=
  match lookup spanned_str_eqb t m with
  | Some [] => Some (remove_key spanned_str_eqb t m)
  | Some others => Some (replace_val spanned_str_eqb t (removelast others) m)
  | None => None
  end.

(** lib.rs 484-492: pushmeta. *)
Definition push_meta (kv : meta_key_value) (m : meta_map) : meta_map :=
  let entry := (span_of (mkv_key kv), mkv_value kv) in
  match lookup spanned_str_eqb (mkv_key kv) m with
  | Some values => replace_val spanned_str_eqb (mkv_key kv) (values ++ [entry]) m
  | None => insert spanned_str_eqb (mkv_key kv) [entry] m
  end.

(** lib.rs 493-518: popmeta; [None] is the error. *)
Definition pop_meta (k : spanned str) (m : meta_map) : option meta_map :=
  match lookup spanned_str_eqb k m with
  | Some values =>
      match removelast values with
      | [] => Some (remove_key spanned_str_eqb k m)
      | values' => Some (replace_val spanned_str_eqb k values' m)
      end
  | None => None
  end.

(** parsers.rs 1263-1270: [Metadata::augment_tags]. *)
Definition augment_tags (md : metadata) (m : tag_map) : metadata :=
  fold_left (fun md '(tag, others) =>
    if mem spanned_str_eqb tag (md_tags md) then md
    else mk_metadata (md_key_values md) (md_tags md ++ [last others tag]) (md_links md)) m md.

(** parsers.rs 1302-1318: [Metadata::augment_key_values]; [Panic] is
    [values.last().unwrap()]. *)
Definition augment_key_value (md : metadata) (e : spanned str * list (span * spanned meta_value)) : outcome metadata :=
  let '(key, values) := e in
  match lookup spanned_str_eqb key (md_key_values md) with
  | Some _ => Fine md
  | None =>
      match rev values with
      | [] => Panic
      | (key_span, value) :: _ =>
          Fine (mk_metadata
                  (insert spanned_str_eqb (mk_spanned (item key) key_span) value (md_key_values md))
                  (md_tags md) (md_links md))
      end
  end.

(** parsers.rs 1302-1318. *)
Definition augment_key_values (md : metadata) (m : meta_map) : outcome metadata :=
  fold_left (fun md e => match md with Panic => Panic | Fine md => augment_key_value md e end) m (Fine md).

(** [PartialEq for HashMap]. (std; used at lib.rs 608-611.) *)
Definition map_eqb {K V} (keqb : K -> K -> bool) (veqb : V -> V -> bool) (a b : list (K * V)) : bool :=
  (List.length a =? List.length b) &&
  forallb (fun '(k, v) => match lookup keqb k b with Some w => veqb v w | None => false end) a.

(** [PartialEq for Vec]. (std; used at lib.rs 608-611.) *)
Fixpoint list_eqb {A} (eqb : A -> A -> bool) (a b : list A) : bool :=
  match a, b with
  | [], [] => true
  | x :: a', y :: b' => eqb x y && list_eqb eqb a' b'
  | _, _ => false
  end.

(** lib.rs 608. *)
Definition tags_eqb : tag_map -> tag_map -> bool := map_eqb spanned_str_eqb (list_eqb spanned_str_eqb).
(** lib.rs 609-611. *)
Definition metas_eqb : meta_map -> meta_map -> bool :=
  map_eqb spanned_str_eqb
    (list_eqb (fun a b => span_eqb (fst a) (fst b) && spanned_eqb meta_value_eqb (snd a) (snd b))).

(** ** The processor *)

(** std: the keys at lib.rs 313, 315. *)
Definition opt_path_eqb (a b : option path) : bool :=
  match a, b with
  | None, None => true
  | Some p, Some q => path_eqb p q
  | _, _ => false
  end.

(** lib.rs 327-332: [IncludeContext]. *)
Record include_context := mk_ic { ic_tags : tag_map; ic_meta : meta_map; ic_span : span }.

(** lib.rs 308-325: [PragmaProcessor]; [warnings] is never added to and is
    left out; the two tables that never change are parameters below. *)
Record processor := mk_pp {
  pp_path : option path;
  pp_decls : list (spanned declaration);
  pp_stacked : list (option path * list (spanned declaration));
  pp_remaining : list (option path * list (spanned declaration));
  pp_includes : list (path * include_context);
  pp_tags : tag_map;
  pp_meta : meta_map;
  pp_options : options;
  pp_plugins : list plugin;
  pp_errors : list report
}.

(** [HashMap::remove_entry]: the stored key, its value, the rest. (lib.rs 540.) *)
Fixpoint remove_entry {K V} (keqb : K -> K -> bool) (k : K) (m : list (K * V)) : option (K * V * list (K * V)) :=
  match m with
  | [] => None
  | (k', v) :: m' =>
      if keqb k k' then Some (k', v, m')
      else match remove_entry keqb k m' with
           | Some (e, r) => Some (e, (k', v) :: r)
           | None => None
           end
  end.

(** What one step of the iterator does. (lib.rs 434-667.) *)
Inductive step_result :=
| Yield (d : spanned directive) (s : processor)
| Continue (s : processor)
| Done.

(** lib.rs 435: [pop_front]. *)
Definition with_decls (s : processor) ds : processor :=
  mk_pp (pp_path s) ds (pp_stacked s) (pp_remaining s) (pp_includes s) (pp_tags s) (pp_meta s) (pp_options s) (pp_plugins s) (pp_errors s).
(** lib.rs 449-482: the changes to [self.tags]. *)
Definition with_tags (s : processor) m : processor :=
  mk_pp (pp_path s) (pp_decls s) (pp_stacked s) (pp_remaining s) (pp_includes s) m (pp_meta s) (pp_options s) (pp_plugins s) (pp_errors s).
(** lib.rs 483-516: the changes to [self.meta_key_values]. *)
Definition with_meta (s : processor) m : processor :=
  mk_pp (pp_path s) (pp_decls s) (pp_stacked s) (pp_remaining s) (pp_includes s) (pp_tags s) m (pp_options s) (pp_plugins s) (pp_errors s).
(** lib.rs 475, 509, 534, 579, 630, 639, 646: [self.errors.push]. *)
Definition with_error (s : processor) e : processor :=
  mk_pp (pp_path s) (pp_decls s) (pp_stacked s) (pp_remaining s) (pp_includes s) (pp_tags s) (pp_meta s) (pp_options s) (pp_plugins s) (pp_errors s ++ [e]).
(** lib.rs 645. *)
Definition with_options (s : processor) o : processor :=
  mk_pp (pp_path s) (pp_decls s) (pp_stacked s) (pp_remaining s) (pp_includes s) (pp_tags s) (pp_meta s) o (pp_plugins s) (pp_errors s).
(** lib.rs 650. *)
Definition with_plugin (s : processor) p : processor :=
  mk_pp (pp_path s) (pp_decls s) (pp_stacked s) (pp_remaining s) (pp_includes s) (pp_tags s) (pp_meta s) (pp_options s) (pp_plugins s ++ [p]) (pp_errors s).

Section Processor.
  (** [Path::canonicalize(..).ok()] at the time of parsing. *)
  Context (canonicalize : path -> option path).
  Context (globs : list (path * included_glob)).
  Context (error_paths : list (option path * str)).

  (** lib.rs 334-359: [fmt_include_context], up to the writing of the text. *)
  Definition listing_of (tags : tag_map) (meta : meta_map) : listing :=
    mk_listing (map (fun e => item (fst e)) tags)
      (map (fun e => (item (fst e), map (fun v => item (snd v)) (snd e))) meta).

  (** lib.rs 594-638: an included path which is not (any longer) to be entered. *)
  Definition not_entered (s : processor) (p : path) (sp : span) : option report :=
    let here := listing_of (pp_tags s) (pp_meta s) in
    match lookup opt_path_eqb (Some p) error_paths with
    | Some e => Some (mk_report (IncludeUnreadable e) sp [])
    | None =>
        match canonicalize p with
        | None => Some (mk_report (DuplicateInclude here None) sp [])
        | Some c =>
            match lookup path_eqb c (pp_includes s) with
            | None => Some (mk_report (DuplicateInclude here None) sp [])
            | Some ic =>
                if tags_eqb (ic_tags ic) (pp_tags s) && metas_eqb (ic_meta ic) (pp_meta s)
                then None
                else Some (mk_report (DuplicateInclude here (Some (listing_of (ic_tags ic) (ic_meta ic)))) sp [ic_span ic])
            end
        end
    end.

  (** lib.rs 542-640: the body of the loop over the expansions of a glob. *)
  Definition offer (sp : span) (s : processor) (p : path) : processor :=
    match remove_entry opt_path_eqb (Some p) (pp_remaining s) with
    | Some (k, ds, rest) =>
        let includes :=
          match k with
          | Some kp =>
              match canonicalize kp with
              | Some c => insert path_eqb c (mk_ic (pp_tags s) (pp_meta s) sp) (pp_includes s)
              | None => pp_includes s
              end
          | None => pp_includes s   (* unwrap() of lib.rs 570: unreachable, [Some p] equals no [None] *)
          end in
        mk_pp k ds ((pp_path s, pp_decls s) :: pp_stacked s) rest includes
          (pp_tags s) (pp_meta s) (pp_options s) (pp_plugins s) (pp_errors s)
    | None =>
        match not_entered s p sp with
        | Some e => with_error s e
        | None => s
        end
    end.

  (** lib.rs 519-646: include. *)
  Definition do_include (s : processor) (g : spanned str) : outcome processor :=
    match lookup path_eqb (resolve_included_path (pp_path s) (item g)) globs with
    | None => Panic
    | Some (Expanded paths) =>
        let s := match paths with
                 | [] => with_error s (mk_report IncludeNoSuchFile (span_of g) [])
                 | _ => s
                 end in
        Fine (fold_left (offer (span_of g)) paths s)
    | Some (GlobError e) => Fine (with_error s (mk_report (IncludeGlobError e) (span_of g) []))
    end.

  (** lib.rs 445-655: a pragma. *)
  Definition do_pragma (s : processor) (p : pragma) : outcome processor :=
    match p with
    | P_Pushtag t => Fine (with_tags s (push_tag t (pp_tags s)))
    | P_Poptag t =>
        Fine (match pop_tag t (pp_tags s) with
              | Some m => with_tags s m
              | None => with_error s (mk_report InvalidPoptag (span_of t) [])
              end)
    | P_Pushmeta kv => Fine (with_meta s (push_meta kv (pp_meta s)))
    | P_Popmeta k =>
        Fine (match pop_meta k (pp_meta s) with
              | Some m => with_meta s m
              | None => with_error s (mk_report InvalidPopmeta (span_of k) [])
              end)
    | P_Include g => do_include s g
    | P_Option o =>
        let '(os, e) := options_assimilate (pp_options s) o in
        Fine (match e with
              | Some r => with_error (with_options s os) r
              | None => with_options s os
              end)
    | P_Plugin p => Fine (with_plugin s p)
    end.

  (** lib.rs 437-443: a directive takes the pushed tags and metadata. *)
  Definition do_directive (s : processor) (d : directive) : outcome directive :=
    let md := augment_tags (item (dir_metadata d)) (pp_tags s) in
    match augment_key_values md (pp_meta s) with
    | Panic => Panic
    | Fine md => Fine (mk_directive (dir_date d) (mk_spanned md (span_of (dir_metadata d))) (dir_variant d))
    end.

  (** lib.rs 434-667: one call of [next], up to its recursive calls. *)
  Definition pp_step (s : processor) : outcome step_result :=
    match pp_decls s with
    | d :: ds =>
        let s1 := with_decls s ds in
        match item d with
        | D_Directive dir =>
            match do_directive s1 dir with
            | Panic => Panic
            | Fine dir' => Fine (Yield (mk_spanned dir' (span_of d)) s1)
            end
        | D_Pragma p =>
            match do_pragma s1 p with
            | Panic => Panic
            | Fine s2 => Fine (Continue s2)
            end
        end
    | [] =>
        match pp_stacked s with
        | (p, ds) :: rest =>
            Fine (Continue (mk_pp p ds rest (pp_remaining s) (pp_includes s) (pp_tags s) (pp_meta s) (pp_options s) (pp_plugins s) (pp_errors s)))
        | [] => Fine Done
        end
    end.

  (** The iterator run to its end, [None] when [fuel] steps do not suffice. (lib.rs 238-240, sort.rs 21.) *)
  Fixpoint pp_run (fuel : nat) (s : processor) : outcome (option (list (spanned directive) * processor)) :=
    match fuel with
    | O => Fine None
    | S n =>
        match pp_step s with
        | Panic => Panic
        | Fine Done => Fine (Some ([], s))
        | Fine (Continue s') => pp_run n s'
        | Fine (Yield d s') =>
            match pp_run n s' with
            | Panic => Panic
            | Fine None => Fine None
            | Fine (Some (ds, s'')) => Fine (Some (d :: ds, s''))
            end
        end
    end.
End Processor.

(** lib.rs 362-398: [PragmaProcessor::new]; [Panic] is the [unwrap()]. *)
Definition pp_new (root : option path) (parsed : list (option path * list (spanned declaration)))
    (os : options) : outcome processor :=
  match lookup opt_path_eqb root parsed with
  | None => Panic
  | Some ds => Fine (mk_pp root ds [] (remove_key opt_path_eqb root parsed) [] [] [] os [] [])
  end.

(** lib.rs 400-428: [PragmaProcessor::result]. *)
Definition pp_result (s : processor) : options * list plugin * list report :=
  (pp_options s, pp_plugins s,
   pp_errors s ++
   map (fun '(key, _) => mk_report InvalidPushmeta (span_of key) []) (pp_meta s) ++
   flat_map (fun '(tag, others) =>
     mk_report InvalidPushtag (span_of tag) [] ::
     map (fun other => mk_report InvalidPushtag (span_of other) []) others) (pp_tags s)).

(** The number of steps that always suffices. (no code of its own: for [pp_fuel].) *)
Definition decl_count (fs : list (option path * list (spanned declaration))) : nat :=
  list_sum (map (fun f => S (List.length (snd f))) fs).
(** No code of its own: a number of steps which suffices for lib.rs 431-668. *)
Definition pp_fuel (s : processor) : nat :=
  S (List.length (pp_decls s) + decl_count (pp_stacked s) + decl_count (pp_remaining s)).

(** lib.rs 225-265: the use of the processor in [parse]: it is made, iterated
    to its end and asked for its result.  The inner [None] stands for not
    coming to an end. *)
Definition pragma_pass (canonicalize : path -> option path) (globs : list (path * included_glob))
    (error_paths : list (option path * str)) (root : option path)
    (parsed : list (option path * list (spanned declaration))) (os : options) :
    outcome (option (list (spanned directive) * (options * list plugin * list report))) :=
  match pp_new root parsed os with
  | Panic => Panic
  | Fine s =>
      match pp_run canonicalize globs error_paths (pp_fuel s) s with
      | Panic => Panic
      | Fine None => Fine None
      | Fine (Some (ds, s')) => Fine (Some (ds, pp_result s'))
      end
  end.
