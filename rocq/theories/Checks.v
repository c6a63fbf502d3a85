(** * Checks: the programs in examples/ and in the documentation, which check
    and print what has been parsed

    - src/lib.rs 34-83 and examples/check-postings-balance.rs 34-87, which are
      the same program;
    - examples/check.rs 35-200;
    - examples/dump.rs 42-105 (allocations are not counted).

    In each, [write_errors_or_warnings(..).unwrap()] panics when the writer
    fails. *)
From Coq Require Import String Ascii.
From Coq Require Import List NArith Arith Bool.
From Verif Require Import Base Types Sources Display Report Grammar Parse Messages.
Import ListNotations.

(** types.rs 1298, 1778, 2240: [element_type]. *)
Definition account_element (a : spanned account) : element := mk_element (lit "account") (span_of a).
(** types.rs 1776-1780. *)
Definition posting_element (p : spanned posting) : element := mk_element (lit "posting") (span_of p).
(** types.rs 2238-2242. *)
Definition amount_element (a : spanned expr_value) : element := mk_element (lit "amount") (span_of a).

Section Checks.
  (** rust_decimal: [+], which panics on overflow, and [Display]. *)
  Context (add : decimal -> decimal -> outcome decimal) (show : decimal -> str).

  (** rust_decimal: [Sum for Decimal]: each is added to what there is.
      (used at check.rs 142, check-postings-balance.rs 60-61.) *)
  Fixpoint sum_from (total : decimal) (l : list decimal) : outcome decimal :=
    match l with
    | [] => Fine total
    | x :: l' => match add total x with Panic => Panic | Fine t => sum_from t l' end
    end.
  (** rust_decimal: [Decimal::ZERO], check.rs 144. *)
  Definition dec_zero : decimal := mk_dec false 0 0.
  (** check.rs 142, check-postings-balance.rs 60-61. *)
  Definition sum (l : list decimal) : outcome decimal := sum_from dec_zero l.

  (** rust_decimal: [total != Decimal::ZERO] compares numbers: neither sign
      nor scale of a zero matters. (check.rs 144, check-postings-balance.rs 63.) *)
  Definition is_zero (d : decimal) : bool := (dec_mant d =? 0)%N.

  (** The text [format!("sum is {}, expected zero", total)]. (check.rs 149, check-postings-balance.rs 69.) *)
  Definition sum_text (total : decimal) : str := lit "sum is " ++ show total ++ lit ", expected zero".

  (** [amounts.pop().unwrap()], with what is left. (check.rs 145, check-postings-balance.rs 64.) *)
  Fixpoint pop {A} (l : list A) : option (A * list A) :=
    match l with
    | [] => None
    | [x] => Some (x, [])
    | x :: l' => match pop l' with None => None | Some (y, r) => Some (y, x :: r) end
    end.

  (** ** examples/check-postings-balance.rs *)

  (** [p.amount().unwrap()] for each. (check-postings-balance.rs 60-65.) *)
  Fixpoint unwrap_amounts (l : list (spanned posting)) : outcome (list (spanned expr_value)) :=
    match l with
    | [] => Fine []
    | p :: l' =>
        match po_amount (item p) with
        | None => Panic
        | Some a => match unwrap_amounts l' with Panic => Panic | Fine r => Fine (a :: r) end
        end
    end.

  (** [itertools::partition(&mut postings, |p| p.amount().is_some())]: the
      postings rearranged, and how many have an amount. *)
  Context (partition : list (spanned posting) -> list (spanned posting) * nat).

  (** 48-76: one directive; what is pushed to errors and to warnings.
      [postings[n_amounts..]] panics beyond the end. *)
  Definition check_balance (d : spanned directive) : outcome (list notice * list notice) :=
    match dir_variant (item d) with
    | V_Transaction _ _ _ ps =>
        let n_postings := List.length ps in
        let (postings, n_amounts) := partition ps in
        if match postings with [] => true | _ => false end then
          Fine ([], [spanned_warning (directive_element d) (lit "no postings")])
        else if n_amounts + 1 <? n_postings then
          if n_amounts <=? List.length postings then
            Fine ([related_to_all (spanned_error (directive_element d) (lit "multiple postings without amount specified"))
                     (map posting_element (skipn n_amounts postings))], [])
          else Panic
        else if n_amounts =? n_postings then
          match unwrap_amounts postings with
          | Panic => Panic
          | Fine amounts =>
              match sum (map (fun a => ev_value (item a)) amounts) with
              | Panic => Panic
              | Fine total =>
                  if is_zero total then Fine ([], [])
                  else
                    match pop amounts with
                    | None => Panic
                    | Some (last_amount, other_amounts) =>
                        Fine ([in_context (related_to_all (spanned_error (amount_element last_amount) (sum_text total))
                                 (map amount_element other_amounts)) (directive_element d)], [])
                    end
              end
          end
        else Fine ([], [])
    | _ => Fine ([], [])
    end.

  (** 45-77: the loop. *)
  Fixpoint check_balances (ds : list (spanned directive)) : outcome (list notice * list notice) :=
    match ds with
    | [] => Fine ([], [])
    | d :: ds' =>
        match check_balance d with
        | Panic => Panic
        | Fine (es, ws) =>
            match check_balances ds' with Panic => Panic | Fine (es', ws') => Fine (es ++ es', ws ++ ws') end
        end
    end.

  (** ** examples/check.rs *)

  (** 122-135: [AccountStatus]. *)
  Record account_status := mk_status { st_opened : spanned directive; st_closed : option (spanned directive) }.

  (** A [HashMap] from names of accounts. (check.rs 46, 160.) *)
  Definition status_map := list (str * account_status).
  (** [HashMap::get], check.rs 61, 84, 167. *)
  Fixpoint find_status (k : str) (m : status_map) : option account_status :=
    match m with
    | [] => None
    | (k', st) :: m' => if str_eqb k k' then Some st else find_status k m'
    end.
  (** [get_mut] and the assignment, check.rs 89-90. *)
  Fixpoint set_closed (k : str) (c : spanned directive) (m : status_map) : status_map :=
    match m with
    | [] => []
    | (k', st) :: m' =>
        if str_eqb k k' then (k', mk_status (st_opened st) (Some c)) :: m' else (k', st) :: set_closed k c m'
    end.

  (** [postings.filter_map(|p| p.amount())] (check.rs 139.) *)
  Definition given_amounts (ps : list (spanned posting)) : list (spanned expr_value) :=
    flat_map (fun p => match po_amount (item p) with Some a => [a] | None => [] end) ps.

  (** 137-160: [check_postings_amounts]. *)
  Definition check_postings_amounts (d : spanned directive) (ps : list (spanned posting)) : outcome (list notice) :=
    let n_postings := List.length ps in
    let amounts := given_amounts ps in
    if (0 <? n_postings) && (List.length amounts =? n_postings) then
      match sum (map (fun a => ev_value (item a)) amounts) with
      | Panic => Panic
      | Fine total =>
          if is_zero total then Fine []
          else
            match pop amounts with
            | None => Panic
            | Some (last_amount, other_amounts) =>
                Fine [in_context (related_to_all (spanned_error (amount_element last_amount) (sum_text total))
                        (map amount_element other_amounts)) (directive_element d)]
            end
      end
    else Fine [].

  (** 162-200: [check_postings_accounts]. *)
  Definition check_posting_account (d : spanned directive) (m : status_map) (p : spanned posting) : list notice :=
    let a := po_account (item p) in
    match find_status (display_account (item a)) m with
    | None => [in_context (in_context (spanned_error (account_element a) (lit "no such account")) (posting_element p)) (directive_element d)]
    | Some (mk_status _ (Some closed)) =>
        [related_to (in_context (in_context (spanned_error (account_element a) (lit "account is closed")) (posting_element p)) (directive_element d))
           (directive_element closed)]
    | Some (mk_status _ None) => []
    end.
  (** The loop, check.rs 163-190. *)
  Definition check_postings_accounts (d : spanned directive) (ps : list (spanned posting)) (m : status_map) : list notice :=
    flat_map (check_posting_account d m) ps.

  (** 50-105: one directive: what is pushed to errors and to warnings, and the
      accounts afterwards. *)
  Definition check_directive (m : status_map) (d : spanned directive) : outcome (list notice * list notice * status_map) :=
    match dir_variant (item d) with
    | V_Transaction _ _ _ ps =>
        match check_postings_amounts d ps with
        | Panic => Panic
        | Fine es => Fine (es ++ check_postings_accounts d ps m, [], m)
        end
    | V_Open a _ _ =>
        let k := display_account (item a) in
        match find_status k m with
        | None => Fine ([], [], (k, mk_status d None) :: m)
        | Some (mk_status opened None) =>
            Fine ([], [related_to (spanned_warning (directive_element d) (lit "duplicate open")) (directive_element opened)], m)
        | Some (mk_status _ (Some closed)) =>
            Fine ([related_to (spanned_error (directive_element d) (lit "account was closed")) (directive_element closed)], [], m)
        end
    | V_Close a =>
        let k := display_account (item a) in
        match find_status k m with
        | None => Fine ([in_context (spanned_error (account_element a) (lit "no such account")) (directive_element d)], [], m)
        | Some (mk_status _ None) => Fine ([], [], set_closed k d m)
        | Some (mk_status _ (Some closed)) =>
            Fine ([related_to (spanned_error (directive_element d) (lit "account already closed")) (directive_element closed)], [], m)
        end
    | _ => Fine ([], [], m)
    end.

  (** 47-106: the loop. *)
  Fixpoint check_directives (m : status_map) (ds : list (spanned directive)) : outcome (list notice * list notice) :=
    match ds with
    | [] => Fine ([], [])
    | d :: ds' =>
        match check_directive m d with
        | Panic => Panic
        | Fine (es, ws, m') =>
            match check_directives m' ds' with Panic => Panic | Fine (es', ws') => Fine (es ++ es', ws ++ ws') end
        end
    end.

  (** ** What is written

      The writer may be any, as in Report.v; [msgs] as in Messages.v. *)
  Context {W Er : Type} (draw : drawing -> list (str * str) -> W -> W * option Er) (put : str -> W -> W * option Er).
  Context (msgs : message_env) (s : sources).

  (** [sources.write_errors_or_warnings(error_w, l).unwrap()]
      (check.rs 105-114, check-postings-balance.rs 78-84, dump.rs 95-99.) *)
  Definition write_unwrap (w : W) (l : list notice) : outcome W :=
    match write_errors_or_warnings draw put s w (map unannotated l) with
    | Fine (w', None) => Fine w'
    | _ => Panic
    end.
  (** check.rs 113-114, check-postings-balance.rs 78-79, 83-84, dump.rs 98-99. *)
  Definition write_both (w : W) (first second : list notice) : outcome W :=
    match write_unwrap w first with Panic => Panic | Fine w' => write_unwrap w' second end.

  (** examples/check-postings-balance.rs 32-87: [parse], given what
      [parser.parse()] returned: errors first. *)
  Definition balance_program (p : parsed_as) (w : W) : outcome W :=
    match p with
    | Success ds _ _ _ =>
        match check_balances ds with
        | Panic => Panic
        | Fine (es, ws) => write_both w es (warnings_of msgs p ++ ws)
        end
    | Failure _ _ => write_both w (errors_of msgs p) (warnings_of msgs p)
    end.

  (** examples/check.rs 35-117: [parse]: warnings first, and then errors, if
      there are any. *)
  Definition check_program (p : parsed_as) (w : W) : outcome W :=
    match p with
    | Success ds _ _ _ =>
        match check_directives [] ds with
        | Panic => Panic
        | Fine (es, ws) =>
            match write_unwrap w (warnings_of msgs p ++ ws) with
            | Panic => Panic
            | Fine w' => match es with [] => Fine w' | _ => write_unwrap w' es end
            end
        end
    | Failure _ _ => write_both w (errors_of msgs p) (warnings_of msgs p)
    end.

  (** examples/dump.rs 41-102: [parse]: what is printed, and what is written
      to the writer.  Printing fails with a panic, which is not modelled. *)
  Definition dump_text (D : display_env) (ds : list (spanned directive)) : str :=
    flat_map (fun d => display_directive D (item d) ++ [newline; newline]) ds.
  (** dump.rs 41-102. *)
  Definition dump_program (D : display_env) (p : parsed_as) (w : W) : outcome (str * W) :=
    match p with
    | Success ds _ _ _ =>
        match write_unwrap w (warnings_of msgs p) with Panic => Panic | Fine w' => Fine (dump_text D ds, w') end
    | Failure _ _ =>
        match write_both w (errors_of msgs p) (warnings_of msgs p) with Panic => Panic | Fine w' => Fine ([], w') end
    end.
End Checks.
