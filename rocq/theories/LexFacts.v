(** * Facts about the treatment of tokens *)
From Coq Require Import String Ascii.
From Coq Require Import List NArith Arith Bool Lia.
From Verif Require Import Base BaseFacts Types Token LexPost SpecLex.
Import ListNotations.
Local Open Scope nat_scope.

(** ** Keys *)

Fixpoint keyed_list (l : list rtoken) : list rtoken :=
  match l with
  | [] => []
  | (t, r) :: l' =>
      (match potential_key t, l' with
       | Some k, (T_Colon, _) :: _ => T_Key k
       | _, _ => t
       end, r) :: keyed_list l'
  end.

Lemma potential_key_spec t : potential_key t = match t with T_Keyword k => Some (keyword_text k) | _ => None end.
Proof. destruct t as [| | | | | | | | | | | | | | | | | | | | | |[]| | | | | | | | | | | | |]; reflexivity. Qed.

(** The tokens still to be given out. *)
Definition kw_todo (s : kw_state) : list rtoken :=
  match snd s with Some (t, _) => t :: fst s | None => fst s end.
Definition kw_wf (s : kw_state) : Prop :=
  match snd s with Some (t, k) => k = potential_key (fst t) | None => True end.

Lemma keyword_next_spec s : kw_wf s ->
  match kw_todo s with
  | [] => keyword_next s = None
  | l => exists s', keyword_next s = Some (hd (T_Eol, (0, 0)) (keyed_list l), s') /\ kw_wf s' /\ kw_todo s' = tl l
  end.
Proof.
  assert (GO : forall iter t r k, k = potential_key t ->
    exists s', match (iter, Some ((t, r), k)) with
      | (iter, pending) =>
        match pending with
        | Some (pending_tok, Some key) =>
            match iter with
            | [] => Some (pending_tok, ([], None))
            | (T_Colon, r) :: iter' => Some ((T_Key key, snd pending_tok), (iter', Some ((T_Colon, r), None)))
            | other :: iter' => Some (pending_tok, (iter', Some (other, potential_key (fst other))))
            end
        | Some (pending_tok, None) => Some (pending_tok, (iter, None))
        | None => None
        end end = Some (hd (T_Eol, (0, 0)) (keyed_list ((t, r) :: iter)), s') /\ kw_wf s' /\ kw_todo s' = iter).
  { intros iter t r k ->. simpl. destruct (potential_key t) as [k|] eqn:K.
    - destruct iter as [|[t2 r2] iter']; [eexists; split; [reflexivity|split; [exact I|reflexivity]]|].
      destruct t2; eexists; (split; [reflexivity|split; reflexivity]).
    - eexists. split; [destruct iter as [|[[] ?]]; reflexivity|]. split; [exact I|reflexivity]. }
  intros W. destruct s as [iter [[[t r] k]|]]; simpl in W.
  - change (kw_todo (iter, Some ((t, r), k))) with ((t, r) :: iter). apply (GO iter t r k W).
  - change (kw_todo (iter, None)) with iter. destruct iter as [|[t r] iter]; [reflexivity|]. apply (GO iter t r _ eq_refl).
Qed.

Lemma keyword_collect s : forall fuel, kw_wf s -> List.length (kw_todo s) < fuel ->
  collect keyword_next fuel s = Some (keyed_list (kw_todo s)).
Proof.
  intros fuel. revert s. induction fuel as [|n IH]; intros s W L; [lia|].
  simpl. pose proof (keyword_next_spec s W) as X. destruct (kw_todo s) as [|t l] eqn:T.
  - now rewrite X.
  - destruct X as (s' & -> & W' & T'). simpl in T', L. rewrite (IH s' W'), T' by (rewrite T'; lia).
    destruct t as [t r]. reflexivity.
Qed.

Lemma keyed_list_length l : List.length (keyed_list l) = List.length l.
Proof. induction l as [|[t r] l IH]; simpl; auto. Qed.

Lemma keyed_list_spec l : keyed l (keyed_list l).
Proof.
  split; [apply keyed_list_length|]. induction l as [|[t r] l IH]; intros [|i] t' r' E; try discriminate.
  - simpl in E. injection E as -> ->.
    assert (X : forall k, potential_key t' = None -> (match potential_key t', l with Some k, (T_Colon, _) :: _ => T_Key k | _, _ => k end) = k).
    { intros k ->. reflexivity. }
    assert (Y := potential_key_spec t'). destruct t'; try (cbn -[potential_key]; now rewrite (X _ Y)).
    cbn -[potential_key]. rewrite Y. destruct l as [|[t2 r2] l].
    + right. split; [intros; discriminate|reflexivity].
    + destruct t2; ((left; split; [eexists; reflexivity|reflexivity]) || (right; split; [intros; discriminate|reflexivity])).
  - simpl in E. apply IH in E. exact E.
Qed.

(** ** Recovery *)

Section Recovery.
  Context (source : str) (recover : str -> outcome (list (result token str * range))).

  Definition recovered_at (i : result token str * range) : list rtoken :=
    match i with
    | (Ok t, sp) => [(t, sp)]
    | (Err _, (a, b)) =>
        match str_get source a b with
        | Some f => match recover f with Fine r => map (fun x => recovered x a) r | Panic => [] end
        | None => []
        end
    end.

  Definition recoverable (l : list (result token str * range)) : Prop :=
    forall e a b, In (Err e, (a, b)) l -> exists f its, str_get source a b = Some f /\ recover f = Fine its.

  Definition rec_todo (s : list (result token str * range) * option (list (result token str * range) * nat)) : list rtoken :=
    match snd s with Some (r, o) => map (fun x => recovered x o) r | None => [] end ++ flat_map recovered_at (fst s).

  Lemma recoverable_tail x l : recoverable (x :: l) -> recoverable l.
  Proof. intros H e a b I. apply (H e). now right. Qed.

  Lemma recoverable_ok t sp l : recoverable l -> recoverable ((Ok t, sp) :: l).
  Proof. intros H e a b [I|I]; [discriminate|]. now apply (H e). Qed.

  Lemma recoverable_err e a b f its l : str_get source a b = Some f -> recover f = Fine its ->
    recoverable l -> recoverable ((Err e, (a, b)) :: l).
  Proof. intros E1 E2 H e' a' b' [I|I]; [inversion I; subst; eauto|]. now apply (H e'). Qed.

  (** One step: the first of the tokens to come, or none, or a panic. *)
  Lemma next_primary_spec l :
    match next_primary source recover l with
    | Panic => ~ recoverable l
    | Fine None => flat_map recovered_at l = [] /\ recoverable l
    | Fine (Some (x, s')) => flat_map recovered_at l = x :: rec_todo s' /\ (recoverable (fst s') <-> recoverable l)
    end.
  Proof.
    induction l as [|[[t|e] [a b]] l IH].
    - split; [reflexivity|]. intros e a b [].
    - cbn. split; [reflexivity|]. split; [apply recoverable_ok|apply recoverable_tail].
    - cbn [flat_map recovered_at next_primary]. destruct (str_get source a b) as [f|] eqn:Eg.
      + destruct (recover f) as [[|i r]|] eqn:Er.
        * cbn [map app]. destruct (next_primary source recover l) as [[[x s']|]|].
          -- destruct IH as [A B]. split; [exact A|]. rewrite B. split; [intro H; eapply recoverable_err; eauto|apply recoverable_tail].
          -- destruct IH as [A B]. split; [exact A|]. eapply recoverable_err; eauto.
          -- intro H. apply IH. eapply recoverable_tail; eauto.
        * split; [reflexivity|]. cbn [fst]. split; [intro H; eapply recoverable_err; eauto|apply recoverable_tail].
        * intro H. destruct (H e a b) as (f' & its & E1 & E2); [now left|]. congruence.
      + intro H. destruct (H e a b) as (f' & its & E1 & E2); [now left|]. congruence.
  Qed.

  Lemma next_recovery_spec s :
    match next_recovery source recover s with
    | Panic => ~ recoverable (fst s)
    | Fine None => rec_todo s = [] /\ recoverable (fst s)
    | Fine (Some (x, s')) => rec_todo s = x :: rec_todo s' /\ (recoverable (fst s') <-> recoverable (fst s))
    end.
  Proof.
    destruct s as [l [[[|i r] o]|]].
    - exact (next_primary_spec l).
    - unfold rec_todo. simpl. split; reflexivity.
    - exact (next_primary_spec l).
  Qed.

  Lemma recovery_collect_spec n : forall s, List.length (rec_todo s) < n ->
    match recovery_collect source recover n s with
    | Panic => ~ recoverable (fst s)
    | Fine None => False
    | Fine (Some l) => l = rec_todo s /\ recoverable (fst s)
    end.
  Proof.
    induction n as [|n IH]; intros s L; [lia|]. cbn [recovery_collect]. pose proof (next_recovery_spec s) as X.
    destruct (next_recovery source recover s) as [[[x s']|]|].
    - destruct X as [A B]. rewrite A in L. cbn in L. assert (L' : List.length (rec_todo s') < n) by lia.
      specialize (IH s' L'). destruct (recovery_collect source recover n s') as [[l|]|]; cbn [option_map].
      + destruct IH as [-> R]. split; [symmetry; exact A|]. apply B. exact R.
      + exact IH.
      + intro H. apply IH. apply B. exact H.
    - destruct X as [A B]. split; [symmetry; exact A|exact B].
    - exact X.
  Qed.

  Lemma recovery_fuel_enough l : List.length (flat_map recovered_at l) < recovery_fuel source recover l.
  Proof.
    unfold recovery_fuel. induction l as [|[[t|e] [a b]] l IH]; simpl in *; [lia|lia|].
    rewrite app_length. destruct (str_get source a b) as [f|]; [|simpl; lia].
    destruct (recover f); simpl; [rewrite map_length|]; lia.
  Qed.

  Lemma attempt_recovery_spec l :
    match attempt_recovery source recover l with
    | Panic => ~ recoverable l
    | Fine None => False
    | Fine (Some l') => l' = flat_map recovered_at l /\ recoverable l
    end.
  Proof. apply (recovery_collect_spec _ (l, None)). apply recovery_fuel_enough. Qed.
End Recovery.

(** ** Lines *)

Lemma drop_while_all {A} (p : A -> bool) a b : Forall (fun x => p x = true) a ->
  drop_while p (a ++ b) = drop_while p b.
Proof. induction 1 as [|x a P _ IH]; simpl; [reflexivity|]. now rewrite P. Qed.

Lemma drop_while_stop {A} (p : A -> bool) x l : p x = false -> drop_while p (x :: l) = x :: l.
Proof. simpl. now intros ->. Qed.

Lemma lines_tail l ls x : lines_of l (x :: ls) -> lines_of (joined ls) ls.
Proof.
  intros [A B C]. constructor; [reflexivity| |].
  - intros r t I. apply B. now right.
  - intros a r t b E N. apply (C (x :: a) r t b); auto. now rewrite E.
Qed.

Lemma lines_head l r t ls : lines_of l ((r, t) :: ls) ->
  r <> [] /\ Forall (fun x => eol_tok x = true) r /\ Forall (fun x => not_eol x = true) t /\ (ls <> [] -> t <> []).
Proof.
  intros [A B C]. destruct (B r t (or_introl eq_refl)) as (X & Y & Z).
  split; auto. split; [exact Y|]. split.
  - eapply Forall_impl; [|exact Z]. intros a. unfold not_eol. now intros ->.
  - intros N. apply (C [] r t ls); auto.
Qed.

Lemma not_eol_false t : Forall (fun x => not_eol x = true) t -> Forall (fun x => eol_tok x = false) t.
Proof. apply Forall_impl. intros a. unfold not_eol, eol_tok. now destruct (is_eol (fst a)). Qed.

Lemma eol_not_false t : Forall (fun x => eol_tok x = true) t -> Forall (fun x => not_eol x = false) t.
Proof. apply Forall_impl. intros a. unfold not_eol, eol_tok. now intros ->. Qed.

(** Dropping the rest of a line. *)
Lemma drop_line l ls ts : lines_of l ls -> Forall (fun x => not_eol x = true) ts ->
  drop_while not_eol (ts ++ joined ls) = joined ls.
Proof.
  intros L T. rewrite drop_while_all by auto. destruct ls as [|[r t] ls]; [reflexivity|].
  apply lines_head in L as (N & R & _). destruct r as [|x r]; [congruence|].
  inversion R as [|? ? X _]; subst. simpl. unfold not_eol at 1. unfold eol_tok in X. now rewrite X.
Qed.

Fixpoint start_lines (ls : list line) : list rtoken :=
  match ls with
  | [] => []
  | (_, t) :: ls' =>
      match t with
      | [] => start_lines ls'
      | (T_Colon, _) :: _ => start_lines ls'
      | _ => t ++ joined ls'
      end
  end.

Lemma eol_start_spec ls : forall n l, lines_of l ls -> List.length (flat_map snd ls) <= n -> eol_start n l = Some (start_lines ls).
Proof.
  induction ls as [|[r t] ls IH]; intros n l L F.
  - destruct L as [-> _ _]. destruct n; reflexivity.
  - assert (T := lines_tail _ _ _ L). assert (H := lines_head _ _ _ _ L). destruct H as (N & R & NT & NE).
    assert (D : drop_while eol_tok l = drop_while eol_tok (t ++ joined ls)).
    { rewrite (lo_all _ _ L). simpl. rewrite <- app_assoc. now apply drop_while_all. }
    destruct t as [|[t1 r1] t].
    + destruct ls as [|x ls]; [|exfalso; now apply NE].
      assert (E : drop_while eol_tok l = []) by (now rewrite D). destruct n; simpl; rewrite E; reflexivity.
    + inversion NT as [|? ? NT1 NT2]; subst.
      assert (D1 : drop_while eol_tok l = (t1, r1) :: t ++ joined ls).
      { rewrite D. apply (drop_while_stop eol_tok (t1, r1)). unfold not_eol, eol_tok in *. now destruct (is_eol (fst (t1, r1))). }
      assert (CASE : t1 = T_Colon \/ t1 <> T_Colon) by (destruct t1; (now left) || (right; discriminate)).
      destruct CASE as [->|NC].
      * assert (ST : eol_start n l = match n with O => None | S n => eol_start n (drop_while not_eol (t ++ joined ls)) end).
        { destruct n; simpl; rewrite D1; reflexivity. }
        assert (SL : start_lines ((r, (T_Colon, r1) :: t) :: ls) = start_lines ls) by reflexivity.
        rewrite ST, SL. clear ST SL. rewrite (drop_line _ _ _ T NT2).
        destruct n; [simpl in F; lia|]. apply IH; auto. simpl in F. rewrite app_length in F. lia.
      * destruct n; simpl; rewrite D1; destruct t1; congruence || reflexivity.
Qed.

(** *** Merging *)

Definition merge_two (f t : rtoken) : rtoken :=
  (fst t, (fst (snd f), match fst t with T_EolComment => fst (snd t) | _ => snd (snd t) end)).

Definition merged (f : rtoken) (run : list rtoken) : rtoken := fold_left merge_two run f.

Lemma merge_run run : forall n f rest, is_eol (fst f) = true -> Forall (fun x => eol_tok x = true) run ->
  merge_loop (List.length run + n) (Some f) (fst (pull (run ++ rest))) (snd (pull (run ++ rest)))
  = merge_loop n (Some (merged f run)) (fst (pull rest)) (snd (pull rest)).
Proof.
  induction run as [|[t [a b]] run IH]; intros n f rest E F; [reflexivity|].
  inversion F as [|? ? E2 F2]; subst. destruct f as [f [fa fb]]. simpl in E. unfold eol_tok in E2. simpl in E2.
  cbn [List.length plus pull app fst snd]. cbn [merge_loop]. rewrite E, E2. cbn [andb].
  destruct (pull (run ++ rest)) as [s2 i2] eqn:P.
  specialize (IH n (merge_two (f, (fa, fb)) (t, (a, b))) rest E2 F2). rewrite P in IH. cbn [fst snd] in IH. exact IH.
Qed.

Lemma merged_last f run : run <> [] \/ True ->
  merged f run =
  match run with
  | [] => f
  | _ => let l := last run f in
         (fst l, (fst (snd f), match fst l with T_EolComment => fst (snd l) | _ => snd (snd l) end))
  end.
Proof.
  intros _. unfold merged. destruct run as [|x run] using rev_ind; [reflexivity|]. clear IHrun.
  rewrite fold_left_app. simpl.
  assert (G : forall run f, fst (snd (fold_left merge_two run f)) = fst (snd f)).
  { clear. induction run as [|y run IH]; intros f; simpl; [reflexivity|]. now rewrite IH. }
  unfold merge_two at 1. rewrite G. rewrite last_last. destruct (run ++ [x]) eqn:E; [now destruct run|reflexivity].
Qed.

(** The first line that is not ignored. *)
Definition ignored_b (l : line) : bool :=
  match last (fst l) (T_Eol, (0, 0)), snd l with
  | (T_EolThenIndent, _), (T_Colon, _) :: _ => true
  | _, _ => false
  end.

Lemma ignored_b_spec l : fst l <> [] -> (ignored_b l = true <-> ignored l).
Proof.
  intros N. unfold ignored_b, ignored, indented, starts_with_colon. destruct l as [run ts]. simpl in *.
  destruct run as [|x run] using rev_ind; [congruence|]. clear IHrun. rewrite last_last. split.
  - destruct x as [[] r]; try discriminate. destruct ts as [|[[] r'] ts]; try discriminate. intros _. eauto 6.
  - intros ((a & r & E) & r' & ts' & ->). apply app_inj_tail in E as [-> ->]. reflexivity.
Qed.

Fixpoint first_kept (ls : list line) : option (rtoken * list rtoken * list line) :=
  match ls with
  | [] => None
  | l :: ls' =>
      if ignored_b l then first_kept ls'
      else match fst l with
           | [] => None
           | f :: run => Some (merged f run, snd l, ls')
           end
  end.

Lemma pull_pair l : pull l = (fst (pull l), snd (pull l)).
Proof. now destruct (pull l). Qed.

(** [merge_loop] at the start of a line break. *)
Lemma merge_lines ls : forall n f rest, lines_of (f :: rest) ls -> List.length (joined ls) <= n ->
  merge_loop n (Some f) (fst (pull rest)) (snd (pull rest)) =
  match first_kept ls with
  | None => Some (None, None, [])
  | Some (b, ts, ls') => Some (Some b, fst (pull (ts ++ joined ls')), snd (pull (ts ++ joined ls')))
  end.
Proof.
  induction ls as [|[run ts] ls IH]; intros n f rest L F.
  - destruct L as [E _ _]. discriminate E.
  - assert (T := lines_tail _ _ _ L). destruct (lines_head _ _ _ _ L) as (N & R & NT & NE).
    destruct run as [|f' run]; [congruence|]. inversion R as [|? ? Rf Rr]; subst.
    assert (E := lo_all _ _ L). simpl in E. injection E as <- ->. rewrite <- app_assoc.
    simpl in F. rewrite !app_length in F.
    replace n with (List.length run + (n - List.length run)) by lia.
    rewrite merge_run by auto. remember (n - List.length run) as k.
    assert (LASTK : fst (merged f run) = fst (last (f :: run) (T_Eol, (0, 0)))).
    { rewrite merged_last by auto. destruct run as [|x run] using rev_ind; [reflexivity|]. clear IHrun.
      rewrite app_comm_cons, !last_last. destruct (run ++ [x]) eqn:Q; [now destruct run|]. reflexivity. }
    assert (EK : is_eol (fst (merged f run)) = true).
    { rewrite LASTK. destruct run as [|x run] using rev_ind; [exact Rf|]. rewrite app_comm_cons, last_last.
      apply Forall_app in Rr as [_ Rx]. now inversion Rx. }
    cbn [first_kept]. unfold ignored_b. cbn [fst snd].
    destruct ts as [|[t1 r1] ts].
    + destruct ls as [|x ls]; [|exfalso; now apply NE].
      assert (X : (let (t, _) := last (f :: run) (T_Eol, (0, 0)) in match t with T_EolThenIndent => false | _ => false end) = false)
        by (destruct (last (f :: run) (T_Eol, (0, 0))) as [[] ?]; reflexivity).
      destruct (last (f :: run) (T_Eol, (0, 0))) as [lt lr].
      replace (match lt with T_EolThenIndent => false | _ => false end) with false by (now destruct lt).
      simpl. destruct (merged f run) as [m [ma mb]]. destruct k; reflexivity.
    + inversion NT as [|? ? NT1 NT2]; subst x l. unfold not_eol in NT1. cbn [fst] in NT1.
      cbn [app pull fst snd].
      destruct (merged f run) as [m [ma mb]] eqn:ME. cbn [fst] in LASTK, EK.
      destruct (last (f :: run) (T_Eol, (0, 0))) as [lt lr]. cbn [fst] in LASTK. subst lt.
      destruct r1 as [ra rb].
      assert (STEP : merge_loop k (Some (m, (ma, mb))) (Some (t1, (ra, rb))) (ts ++ joined ls)
        = match m, t1 with
          | T_EolThenIndent, T_Colon =>
            let '(first', iter1) := skip_to_end_of_line (ts ++ joined ls) in
            let '(second', iter2) := second_if_required first' iter1 in
            match k with
            | O => None
            | S n => merge_loop n first' second' iter2
            end
          | _, _ => Some (Some (m, (ma, mb)), Some (t1, (ra, rb)), ts ++ joined ls)
          end).
      { destruct (is_eol t1) eqn:E1; [discriminate|]. destruct k; cbn [merge_loop]; rewrite E1, Bool.andb_false_r; reflexivity. }
      rewrite STEP. clear STEP.
      assert (CASE : (m = T_EolThenIndent /\ t1 = T_Colon) \/
        (match m, t1 with T_EolThenIndent, T_Colon => true | _, _ => false end = false /\
         forall A (x y : A), match m, t1 with T_EolThenIndent, T_Colon => x | _, _ => y end = y)).
      { destruct m; try (right; split; reflexivity). destruct t1; try (right; split; reflexivity). now left. }
      destruct CASE as [[-> ->]|[CB CA]].
      * unfold skip_to_end_of_line. rewrite (drop_line _ _ _ T NT2).
        destruct ls as [|[run2 ts2] ls2].
        { simpl. destruct k; [simpl in F; lia|]. destruct k; reflexivity. }
        destruct (lines_head _ _ _ _ T) as (N2 & R2 & _). destruct run2 as [|f2 run2]; [congruence|].
        inversion R2 as [|? ? Rf2 _]; subst x l.
        assert (J : joined ((f2 :: run2, ts2) :: ls2) = f2 :: run2 ++ ts2 ++ joined ls2) by (simpl; now rewrite app_assoc).
        rewrite J in T, F |- *. cbn [pull]. unfold second_if_required. unfold eol_tok in Rf2. rewrite Rf2.
        rewrite (pull_pair (run2 ++ ts2 ++ joined ls2)). destruct k; [simpl in F; lia|].
        rewrite IH; auto. rewrite J. simpl in *. lia.
      * rewrite CA.
        replace (match m with T_EolThenIndent => match t1 with T_Colon => true | _ => false end | _ => false end) with false
          by (symmetry; exact CB). reflexivity.
Qed.

(** *** Giving out *)

Inductive emits : eol_state -> list rtoken -> Prop :=
| emits_nil s : eol_next s = Some None -> emits s []
| emits_cons s t s' out : eol_next s = Some (Some (t, s')) -> emits s' out -> emits s (t :: out).

Lemma emits_collect s out : emits s out -> forall n, List.length out < n -> eol_collect n s = Some out.
Proof.
  induction 1 as [s E|s t s' out E _ IH]; intros n L; (destruct n; [simpl in L; lia|]); simpl; rewrite E; [reflexivity|].
  simpl in L. rewrite IH by lia. reflexivity.
Qed.

Definition emit (l : line) : list rtoken := break_of (fst l) ++ snd l.
Definition kept_list (ls : list line) : list line := filter (fun l => negb (ignored_b l)) ls.
Definition ending (ls : list line) (fin : option range) (prev : bool) : list rtoken :=
  match kept_list ls, fin with
  | [], Some f => if prev then [] else [(T_Eol, f)]
  | _, _ => []
  end.

Lemma merge_loop_none n f iter : merge_loop n f None iter = Some (f, None, iter).
Proof. destruct n, f as [[? [? ?]]|]; reflexivity. Qed.

Lemma eol_next_plain t iter fin prev any : not_eol t = true ->
  eol_next (mk_eol (t :: iter) None (None, None) fin prev any)
  = Some (Some (t, mk_eol iter None (None, None) fin prev true)).
Proof.
  intros E. unfold not_eol in E. unfold eol_next, next_merged, merge. cbn [eh_first eh_pending eh_iter pull fst snd].
  unfold second_if_required. destruct (is_eol (fst t)) eqn:Q; [discriminate|]. rewrite merge_loop_none.
  destruct t as [t [a b]]. simpl in Q |- *. destruct t; try discriminate; reflexivity.
Qed.

Lemma eol_next_first t iter fin prev any : not_eol t = true ->
  eol_next (mk_eol iter (Some t) (None, None) fin prev any)
  = Some (Some (t, mk_eol iter None (None, None) fin prev true)).
Proof.
  intros E. unfold not_eol in E. destruct t as [t [a b]]. simpl in *. destruct t; try discriminate; reflexivity.
Qed.

Lemma eol_next_pending t second iter fin prev any : not_eol t = true ->
  eol_next (mk_eol iter None (Some t, second) fin prev any)
  = Some (Some (t, mk_eol iter None (second, None) fin prev true)).
Proof.
  intros E. unfold not_eol in E. destruct t as [t [a b]]. simpl in *. destruct t; try discriminate; reflexivity.
Qed.

Definition next_is_plain (l : list rtoken) : Prop := match l with [] => True | t :: _ => not_eol t = true end.

Lemma emits_pending l fin prev out : next_is_plain l ->
  emits (mk_eol l None (None, None) fin prev true) out ->
  emits (mk_eol (snd (pull l)) None (fst (pull l), None) fin prev true) out.
Proof.
  intros P E. destruct l as [|t l]; [exact E|]. simpl in *.
  assert (Q : eol_next (mk_eol l None (Some t, None) fin prev true) = eol_next (mk_eol (t :: l) None (None, None) fin prev true)).
  { now rewrite eol_next_pending, eol_next_plain. }
  inversion E as [? N|? t' s' o N X]; subst; rewrite <- Q in N; [now constructor|econstructor; eauto].
Qed.

Lemma emits_line ts l fin prev out : Forall (fun x => not_eol x = true) ts ->
  emits (mk_eol l None (None, None) fin prev true) out ->
  emits (mk_eol (ts ++ l) None (None, None) fin prev true) (ts ++ out).
Proof.
  induction 1 as [|t ts P _ IH]; intros E; [exact E|]. simpl. econstructor; [apply eol_next_plain; auto|]. auto.
Qed.

(** The end of the tokens. *)
Lemma emits_end iter fin prev : 
  eol_next (mk_eol iter None (None, None) fin prev true)
  = Some match fin with
         | Some f => if prev then None else Some ((T_Eol, f), mk_eol [] None (None, None) fin true true)
         | None => None
         end ->
  emits (mk_eol iter None (None, None) fin prev true)
    match fin with Some f => if prev then [] else [(T_Eol, f)] | None => [] end.
Proof.
  intros E. destruct fin as [f|]; [destruct prev|]; try (constructor; exact E).
  econstructor; [exact E|]. constructor. reflexivity.
Qed.

Lemma emit_spec f run ts : is_eol (fst f) = true -> Forall (fun x => eol_tok x = true) run ->
  emit (f :: run, ts) =
  match merged f run with
  | (T_EolThenIndent, (a, b)) => (T_Eol, (a, b)) :: (T_Indent, (b - 1, b)) :: ts
  | (T_EolComment, (a, _)) => (T_Eol, (a, a)) :: ts
  | (_, r) => (T_Eol, r) :: ts
  end.
Proof.
  intros E R. unfold emit, break_of. cbn [fst snd]. destruct f as [f [fa fb]].
  destruct run as [|x run] using rev_ind; [unfold merged; simpl; destruct f; try discriminate E; reflexivity|].
  clear IHrun. rewrite merged_last by auto. rewrite app_comm_cons, !last_last.
  apply Forall_app in R as [_ R].
  destruct (run ++ [x]) eqn:Q; [now destruct run|]. inversion R as [|? ? Rx _]; subst. unfold eol_tok in Rx.
  destruct x as [x [xa xb]]. simpl in Rx |- *. destruct x; try discriminate Rx; reflexivity.
Qed.

Lemma first_kept_spec ls : (forall l, In l ls -> fst l <> []) ->
  match first_kept ls with
  | None => kept_list ls = []
  | Some (b, ts, ls') => exists a f run, ls = a ++ (f :: run, ts) :: ls' /\ b = merged f run /\ kept_list ls = (f :: run, ts) :: kept_list ls'
  end.
Proof.
  induction ls as [|l ls IH]; intros N; simpl; [reflexivity|].
  unfold kept_list in *. cbn [filter]. destruct (ignored_b l) eqn:I; simpl.
  - assert (X : forall l, In l ls -> fst l <> []) by (intros; apply N; now right). specialize (IH X).
    destruct (first_kept ls) as [[[b ts] ls']|]; auto. destruct IH as (a & f & run & -> & -> & K). exists (l :: a), f, run. now rewrite K.
  - destruct l as [[|f run] ts]; [exfalso; now apply (N _ (or_introl eq_refl))|]. exists [], f, run. auto.
Qed.

Lemma lines_app l a b : lines_of l (a ++ b) -> lines_of (joined b) b.
Proof.
  revert l. induction a as [|x a IH]; intros l H.
  - constructor; [reflexivity|apply (lo_runs _ _ H)|apply (lo_empty _ _ H)].
  - apply lines_tail in H. eauto.
Qed.

Lemma emits_lines n : forall ls fin prev, List.length ls <= n -> lines_of (joined ls) ls ->
  emits (mk_eol (joined ls) None (None, None) fin prev true)
    (flat_map emit (kept_list ls) ++ ending ls fin prev).
Proof.
  induction n as [|n IH]; intros ls fin prev LE L.
  - destruct ls; [|simpl in LE; lia]. apply (emits_end [] fin prev). destruct fin; [destruct prev|]; reflexivity.
  - destruct ls as [|[run ts] ls]; [apply (emits_end [] fin prev); destruct fin; [destruct prev|]; reflexivity|].
    set (all := (run, ts) :: ls) in *.
    destruct (lines_head _ _ _ _ L) as (N & R & _). destruct run as [|f0 run]; [congruence|].
    inversion R as [|? ? Rf _]; subst x l. unfold eol_tok in Rf.
    assert (J : joined all = f0 :: run ++ ts ++ joined ls) by (unfold all; simpl; now rewrite app_assoc).
    assert (NX : merge (mk_eol (joined all) None (None, None) fin prev true) =
      Some match first_kept all with
           | None => None
           | Some (b, ts', ls') =>
               let P := pull (ts' ++ joined ls') in
               match b with
               | (T_EolThenIndent, (x, y)) => Some ((T_Eol, (x, y)), mk_eol (snd P) None (Some (T_Indent, (y - 1, y)), fst P) fin prev true)
               | _ => Some (b, mk_eol (snd P) None (fst P, None) fin prev true)
               end
           end).
    { unfold merge. cbn [eh_iter]. rewrite J. cbn [pull]. unfold second_if_required. rewrite Rf.
      rewrite (pull_pair (run ++ ts ++ joined ls)). rewrite (merge_lines all); [|now rewrite <- J|rewrite J; auto].
      destruct (first_kept all) as [[[b ts'] ls']|]; [|reflexivity].
      destruct b as [[] [? ?]]; reflexivity. }
    assert (FK := first_kept_spec all). destruct (first_kept all) as [[[b ts'] ls']|].
    + destruct FK as (a & f & run' & EA & -> & KL); [intros [r' t'] I; now apply (lo_runs _ _ L) in I|].
      assert (L1 := L). rewrite EA in L1. apply lines_app in L1. destruct (lines_head _ _ _ _ L1) as (_ & R1 & NT & NE).
      assert (L2 := lines_tail _ _ _ L1). inversion R1 as [|? ? R1f R1r]; subst x l. unfold eol_tok in R1f.
      assert (LEN : List.length ls' <= n).
      { apply (f_equal (@List.length _)) in EA. rewrite app_length in EA. unfold all in EA. simpl in *. lia. }
      unfold ending. rewrite KL. cbn [flat_map]. rewrite (emit_spec _ _ _ R1f R1r). rewrite app_nil_r.
      assert (REST : emits (mk_eol (ts' ++ joined ls') None (None, None) fin true true) (ts' ++ flat_map emit (kept_list ls'))).
      { apply emits_line; auto. specialize (IH ls' fin true LEN L2). unfold ending in IH.
        destruct (kept_list ls'), fin; rewrite app_nil_r in IH; exact IH. }
      assert (PL : next_is_plain (ts' ++ joined ls')).
      { destruct ts' as [|t ts']; [destruct ls' as [|x ls']; [exact I|exfalso; now apply NE]|]. now inversion NT. }
      apply emits_pending in REST; auto.
      assert (EK : is_eol (fst (merged f run')) = true).
      { rewrite merged_last by auto. destruct run' as [|x run'] using rev_ind; [exact R1f|].
        apply Forall_app in R1r as [_ Rx]. inversion Rx as [|? ? Ry _]; subst. rewrite last_last. destruct (run' ++ [x]) eqn:Q; [now destruct run'|exact Ry]. }
      destruct (merged f run') as [k [x y]]. simpl in EK. destruct k; try discriminate EK.
      * econstructor; [unfold eol_next; cbn [eh_first next_merged eh_pending eh_iter eh_final eh_previous_was_eol eh_any]; rewrite NX; reflexivity|].
        econstructor; [apply eol_next_pending; reflexivity|]. exact REST.
      * econstructor; [unfold eol_next; cbn [eh_first next_merged eh_pending eh_iter eh_final eh_previous_was_eol eh_any]; rewrite NX; reflexivity|]. exact REST.
      * econstructor; [unfold eol_next; cbn [eh_first next_merged eh_pending eh_iter eh_final eh_previous_was_eol eh_any]; rewrite NX; reflexivity|]. exact REST.
    + assert (K : kept_list all = []) by (apply FK; intros [r' t'] I; now apply (lo_runs _ _ L) in I).
      unfold ending. rewrite K. cbn [flat_map app].
      apply emits_end. unfold eol_next. unfold next_merged; cbn [eh_first eh_pending eh_iter eh_final eh_previous_was_eol eh_any].
      rewrite NX. destruct fin; [destruct prev|]; reflexivity.
Qed.

(** The whole. *)
Fixpoint strip (ls : list line) : option (list rtoken * list line) :=
  match ls with
  | [] => None
  | (_, t) :: ls' =>
      match t with
      | [] => strip ls'
      | (T_Colon, _) :: _ => strip ls'
      | _ => Some (t, ls')
      end
  end.

Definition layout (ls : list line) (fin : option range) : list rtoken :=
  match strip ls with
  | None => []
  | Some (t, ls') => t ++ flat_map emit (kept_list ls') ++ ending ls' fin false
  end.

Lemma strip_spec ls : match strip ls with
  | None => Forall skipped_at_start ls
  | Some (t, ls') => exists skipped r, ls = skipped ++ (r, t) :: ls' /\ Forall skipped_at_start skipped /\ ~ skipped_at_start (r, t)
  end.
Proof.
  induction ls as [|[r t] ls IH]; simpl; [constructor|].
  assert (SK : skipped_at_start (r, t) -> match strip ls with
    | None => Forall skipped_at_start ((r, t) :: ls)
    | Some (t', ls') => exists skipped r', (r, t) :: ls = skipped ++ (r', t') :: ls' /\ Forall skipped_at_start skipped /\ ~ skipped_at_start (r', t')
    end).
  { intros S. destruct (strip ls) as [[t' ls']|]; [|now constructor].
    destruct IH as (sk & r' & -> & F & NS). exists ((r, t) :: sk), r'. split; [reflexivity|]. split; auto. }
  destruct t as [|[t1 r1] t]; [apply SK; now left|].
  assert (CASE : t1 = T_Colon \/ t1 <> T_Colon) by (destruct t1; (now left) || (right; discriminate)).
  destruct CASE as [->|NC]; [apply SK; right; eexists _, _; reflexivity|].
  assert (X : match t1 with T_Colon => strip ls | _ => Some ((t1, r1) :: t, ls) end = Some ((t1, r1) :: t, ls)) by (destruct t1; congruence || reflexivity).
  rewrite X. exists [], r. split; [reflexivity|]. split; [constructor|].
  intros [E|(r' & ts & E)]; simpl in E; [discriminate|]. injection E as -> _ _. congruence.
Qed.

Lemma start_lines_strip ls : start_lines ls = match strip ls with None => [] | Some (t, ls') => t ++ joined ls' end.
Proof.
  induction ls as [|[r t] ls IH]; simpl; [reflexivity|]. destruct t as [|[t1 r1] t]; auto. destruct t1; auto.
Qed.

Lemma emit_length l : List.length (emit l) <= 2 + List.length (snd l).
Proof.
  unfold emit. rewrite app_length. apply Nat.add_le_mono_r. unfold break_of. destruct (fst l) as [|[t [x y]] rr]; [simpl; lia|].
  destruct (last _ _) as [[] [? ?]]; simpl; lia.
Qed.

Lemma emit_all_length ls : (forall l, In l ls -> fst l <> []) ->
  List.length (flat_map emit (kept_list ls)) <= 2 * List.length (joined ls).
Proof.
  induction ls as [|l ls IH]; intros N; [simpl; lia|].
  assert (X : forall l, In l ls -> fst l <> []) by (intros; apply N; now right). specialize (IH X).
  unfold kept_list in *. cbn [filter]. simpl joined. rewrite !app_length.
  assert (NL : List.length (fst l) <> 0) by (destruct l as [[|? ?] ?]; [exfalso; now apply (N _ (or_introl eq_refl))|discriminate]).
  pose proof (emit_length l). destruct (negb (ignored_b l)); simpl; rewrite ?app_length; lia.
Qed.

Lemma handle_eol_indent_layout l fin ls : lines_of ((T_Eol, (0, 0)) :: l) ls ->
  handle_eol_indent l fin = Some (layout ls fin).
Proof.
  intros L. unfold handle_eol_indent, eol_new.
  assert (LEN : List.length (flat_map snd ls) <= List.length l).
  { assert (E := f_equal (@List.length _) (lo_all _ _ L)). simpl in E.
    destruct ls as [|[r t] ls]; [simpl; lia|]. destruct (lines_head _ _ _ _ L) as (NR & _).
    assert (G : forall ls : list line, List.length (flat_map snd ls) <= List.length (joined ls)).
    { clear. induction ls as [|[r t] ls IH]; simpl; [lia|]. rewrite !app_length. lia. }
    specialize (G ls). simpl in *. rewrite !app_length in *. destruct r; [congruence|]. simpl in E. lia. }
  rewrite (eol_start_spec ls); auto. rewrite start_lines_strip. unfold layout.
  pose proof (strip_spec ls) as SP. destruct (strip ls) as [[t ls']|].
  - destruct SP as (sk & r & E & _ & NS).
    assert (L1 := L). rewrite E in L1. apply lines_app in L1. destruct (lines_head _ _ _ _ L1) as (_ & _ & NT & _).
    assert (L2 := lines_tail _ _ _ L1). destruct t as [|t ts]; [exfalso; apply NS; now left|].
    inversion NT as [|? ? NT1 NT2]; subst x l0. simpl pull. cbv iota beta.
    apply emits_collect.
    + rewrite <- app_comm_cons. econstructor; [apply eol_next_first; auto|]. apply emits_line; auto.
      apply (emits_lines (List.length ls')); auto.
    + assert (T := f_equal (@List.length _) (lo_all _ _ L)). rewrite E in T.
      unfold joined in T. rewrite flat_map_app in T. fold (joined sk) in T. cbn [flat_map] in T. fold (joined ls') in T.
      cbn [fst snd] in T. rewrite !app_length in T. simpl in T.
      assert (NR : r <> []). { destruct (lines_head _ _ _ _ L1) as (X & _). exact X. }
      destruct r; [congruence|]. simpl in T.
      assert (EAL := emit_all_length ls'). simpl app. cbn [List.length]. rewrite !app_length.
      assert (EN : List.length (ending ls' fin false) <= 1) by (unfold ending; destruct (kept_list ls'), fin; simpl; lia).
      specialize (EAL ltac:(intros [r' t'] I; now apply (lo_runs _ _ L2) in I)). lia.
  - cbn [pull]. apply emits_collect; [|simpl; lia]. constructor. destruct fin; reflexivity.
Qed.

Lemma kept_list_spec ls : (forall l, In l ls -> fst l <> []) -> kept ls (kept_list ls).
Proof.
  induction ls as [|l ls IH]; intros N; [constructor|].
  assert (X : forall l, In l ls -> fst l <> []) by (intros; apply N; now right).
  assert (NL := N _ (or_introl eq_refl)). unfold kept_list in *. cbn [filter].
  destruct (ignored_b l) eqn:I; simpl.
  - apply kept_drop; auto. now apply ignored_b_spec.
  - apply kept_keep; auto. rewrite <- ignored_b_spec by auto. congruence.
Qed.

Lemma layout_laid_out l ls fin : lines_of l ls -> laid_out ls fin (layout ls fin).
Proof.
  intros L. unfold layout. pose proof (strip_spec ls) as SP. destruct (strip ls) as [[t ls']|]; [|now constructor].
  destruct SP as (sk & r & E & F & NS). assert (L1 := L). rewrite E in L1. apply lines_app, lines_tail in L1.
  unfold ending. apply (laid_out_lines ls fin sk r t ls' (kept_list ls')); auto.
  apply kept_list_spec. intros [r' t'] I. now apply (lo_runs _ _ L1) in I.
Qed.

(** *** There is exactly one way to see lines *)

Lemma lines_cons r t ls : r <> [] -> Forall (fun x => is_eol (fst x) = true) r -> Forall (fun x => is_eol (fst x) = false) t ->
  (ls <> [] -> t <> []) -> lines_of (joined ls) ls -> lines_of (joined ((r, t) :: ls)) ((r, t) :: ls).
Proof.
  intros N R T E L. constructor; [reflexivity| |].
  - intros r' t' [I|I]; [injection I as <- <-; auto|now apply (lo_runs _ _ L)].
  - intros a r' t' b Q NB. destruct a as [|x a]; simpl in Q; [injection Q as -> -> ->; auto|injection Q as _ Q].
    apply (lo_empty _ _ L a r' t' b); auto.
Qed.

Lemma lines_exist_aux l : exists t ls, l = t ++ joined ls /\ Forall (fun x => is_eol (fst x) = false) t /\ lines_of (joined ls) ls.
Proof.
  induction l as [|x l (t & ls & -> & T & L)].
  - exists [], []. split; [reflexivity|]. split; [constructor|]. constructor; [reflexivity|intros ? ? []|]. intros [|? ?]; discriminate.
  - destruct (is_eol (fst x)) eqn:E.
    + destruct t as [|y t].
      * destruct ls as [|[r t] ls].
        -- exists [], [([x], [])]. split; [reflexivity|]. split; [constructor|].
           apply lines_cons; auto; discriminate.
        -- exists [], ((x :: r, t) :: ls). split; [reflexivity|]. split; [constructor|].
           destruct (lo_runs _ _ L r t (or_introl eq_refl)) as (A & B & C).
           apply lines_cons; auto; [discriminate|intros N; apply (lo_empty _ _ L [] r t ls); auto|now apply lines_tail in L].
      * exists [], (([x], y :: t) :: ls). split; [reflexivity|]. split; [constructor|].
        apply lines_cons; auto; discriminate.
    + exists (x :: t), ls. split; [reflexivity|]. split; [now constructor|exact L].
Qed.

Lemma lines_exist l x : is_eol (fst x) = true -> exists ls, lines_of (x :: l) ls.
Proof.
  intros E. destruct (lines_exist_aux (x :: l)) as (t & ls & Q & T & L). exists ls.
  destruct t as [|y t]; simpl in Q; [now rewrite Q|]. injection Q as <- _. inversion T; congruence.
Qed.

Lemma split_prefix {A} (p : A -> bool) a b x y :
  Forall (fun z => p z = true) a -> Forall (fun z => p z = true) x ->
  match b with z :: _ => p z = false | [] => True end -> match y with z :: _ => p z = false | [] => True end ->
  a ++ b = x ++ y -> a = x /\ b = y.
Proof.
  intros FA. revert x. induction FA as [|z a Z FA IH]; intros x FX B Y E.
  - destruct FX as [|w x W FX]; [auto|]. simpl in E. subst b. congruence.
  - destruct FX as [|w x W FX]; simpl in E; [subst y; congruence|]. injection E as -> E. destruct (IH x FX B Y E) as [-> ->]. auto.
Qed.

Lemma joined_starts_eol ls : lines_of (joined ls) ls -> match joined ls with z :: _ => negb (is_eol (fst z)) = false | [] => True end.
Proof.
  destruct ls as [|[r t] ls]; intros L; [exact I|]. destruct (lines_head _ _ _ _ L) as (N & R & _).
  destruct r as [|x r]; [congruence|]. inversion R as [|? ? X _]; subst. simpl. unfold eol_tok in X. now rewrite X.
Qed.

Lemma lines_unique ls : forall l ls', lines_of l ls -> lines_of l ls' -> ls = ls'.
Proof.
  induction ls as [|[r t] ls IH]; intros l ls' L L'.
  - destruct ls' as [|[r' t'] ls']; [reflexivity|]. exfalso.
    destruct (lines_head _ _ _ _ L') as (N & _). assert (A := lo_all _ _ L). assert (B := lo_all _ _ L'). rewrite A in B.
    simpl in B. destruct r'; [congruence|discriminate].
  - destruct ls' as [|[r' t'] ls'].
    { exfalso. destruct (lines_head _ _ _ _ L) as (N & _). assert (A := lo_all _ _ L). assert (B := lo_all _ _ L'). rewrite A in B.
      simpl in B. destruct r; [congruence|discriminate]. }
    destruct (lo_runs _ _ L r t (or_introl eq_refl)) as (N1 & R1 & T1).
    destruct (lo_runs _ _ L' r' t' (or_introl eq_refl)) as (N2 & R2 & T2).
    assert (TL := lines_tail _ _ _ L). assert (TL' := lines_tail _ _ _ L').
    assert (A := lo_all _ _ L). assert (B := lo_all _ _ L'). rewrite A in B. simpl in B. rewrite <- !app_assoc in B.
    assert (H1 : forall (t : list rtoken) ls0, Forall (fun x => is_eol (fst x) = false) t -> (ls0 <> [] -> t <> []) ->
       match t ++ joined ls0 with z :: _ => is_eol (fst z) = false | [] => True end).
    { intros t0 ls0 F NE. destruct F as [|z t0 Z F]; simpl; auto. destruct ls0 as [|x ls0]; [exact I|]. exfalso. now apply NE. }
    destruct (split_prefix (fun z => is_eol (fst z)) r (t ++ joined ls) r' (t' ++ joined ls')) as [-> E]; auto.
    { apply H1; auto. intros X. apply (lo_empty _ _ L [] r t ls); auto. }
    { apply H1; auto. intros X. apply (lo_empty _ _ L' [] r' t' ls'); auto. }
    destruct (split_prefix (fun z => negb (is_eol (fst z))) t (joined ls) t' (joined ls')) as [-> J]; auto.
    { eapply Forall_impl; [|exact T1]. simpl. now intros ? ->. }
    { eapply Forall_impl; [|exact T2]. simpl. now intros ? ->. }
    { now apply joined_starts_eol. }
    { now apply joined_starts_eol. }
    f_equal. apply (IH (joined ls) ls'); auto. now rewrite J.
Qed.

Lemma kept_unique ls a : kept ls a -> forall b, kept ls b -> a = b.
Proof.
  induction 1 as [|l ls ls' I K IH|l ls ls' I K IH]; intros b H; inversion H; subst; auto; try contradiction. f_equal. auto.
Qed.

Lemma laid_out_unique ls fin a b : laid_out ls fin a -> laid_out ls fin b -> a = b.
Proof.
  intros [F|sk run ts rest rest' E F N K] [F2|sk2 run2 ts2 rest2 rest2' E2 F2' N2 K2]; auto.
  - exfalso. rewrite E2 in F. rewrite Forall_app in F. destruct F as [_ F]. inversion F; contradiction.
  - exfalso. rewrite E in F2. rewrite Forall_app in F2. destruct F2 as [_ F2]. inversion F2; contradiction.
  - assert (X : sk = sk2 /\ (run, ts) = (run2, ts2) /\ rest = rest2).
    { clear K K2. rewrite E in E2. clear E. revert sk2 F2' E2. induction F as [|x sk X F IH]; intros sk2 F2' E2.
      - destruct sk2 as [|y sk2]; simpl in E2; [injection E2 as -> -> ->; auto|]. injection E2 as <- _. inversion F2'; contradiction.
      - destruct sk2 as [|y sk2]; simpl in E2; [injection E2 as -> _; contradiction|]. injection E2 as <- E2.
        inversion F2'; subst. destruct (IH sk2) as (-> & Q1 & Q2); auto. }
    destruct X as (-> & Q & ->). injection Q as -> ->. rewrite (kept_unique _ _ K _ K2). reflexivity.
Qed.
