(** * Spans, source texts and include paths: C31-C35

    Statements use [SpecSources] and [SpecPath].  The consistency hypothesis
    [sources_wf] is discharged for every source tree that can be read in
    [P_Read]. *)
From Coq Require Import String Ascii.
From Coq Require Import List NArith Arith Bool Lia.
From Verif Require Import Base BaseFacts Text TextFacts Path SpecPath PathFacts
  Sources SpecSources SourcesFacts SyntheticFacts.
Import ListNotations.

(** A root file including one file; "é" is U+E9. *)
Definition ex_root : str := lit "include ""b""
" ++ [233; 233; 10; 32; 9]%N ++ lit "x
".
Definition ex_inc : str := lit "y
".
Definition ex_sources : sources :=
  mk_sources (Some (lit "/a")) ex_root (char_offs 0 ex_root)
    [(lit "/b", Expanded [lit "/b"])]
    [(lit "/b", Content 1 ex_inc (char_offs 0 ex_inc))]
    [lit "/a"; lit "/b"].
Definition ex_inline : sources := mk_sources None ex_root (char_offs 0 ex_root) [] [] [lit "inline"].

Example ex_sources_wf : sources_wf ex_sources.
Proof.
  constructor.
  - reflexivity.
  - simpl. intros p id c ci [H|[]]. now inversion H.
  - eexists _, _. reflexivity.
  - intros [|[|id]] name L H; [lia| |destruct id; discriminate]. inversion H. discriminate.
Qed.
Example ex_inline_wf : sources_wf ex_inline.
Proof.
  constructor.
  - reflexivity.
  - simpl. intros p id c ci [].
  - eexists _, _. reflexivity.
  - intros [|id] name L H; [lia|destruct id; discriminate].
Qed.

(** ** C31: resolve_span *)

(** White space is what Unicode calls so, a list of 25 characters. *)
Theorem C31_white_space : forall c, is_whitespace c = true <->
  In c [9; 10; 11; 12; 13; 32; 133; 160; 5760; 8192; 8193; 8194; 8195; 8196; 8197; 8198; 8199; 8200; 8201; 8202;
        8232; 8233; 8239; 8287; 12288]%N.
Proof.
  intro c. split; intro H.
  - unfold is_whitespace in H. rewrite !orb_true_iff, !andb_true_iff, !N.leb_le, !N.eqb_eq in H.
    repeat destruct H as [H|H]; try (subst c; cbn [In]; repeat (first [left; reflexivity | right]); fail).
    + assert (X : (c = 9 \/ c = 10 \/ c = 11 \/ c = 12 \/ c = 13)%N) by lia. clear H.
      repeat destruct X as [X|X]; subst c; cbn [In]; repeat (first [left; reflexivity | right]).
    + assert (X : (c = 8192 \/ c = 8193 \/ c = 8194 \/ c = 8195 \/ c = 8196 \/ c = 8197 \/ c = 8198 \/ c = 8199 \/ c = 8200 \/ c = 8201 \/ c = 8202)%N) by lia. clear H.
      repeat destruct X as [X|X]; subst c; cbn [In]; repeat (first [left; reflexivity | right]).
  - cbn [In] in H. repeat destruct H as [<-|H]; try reflexivity. destruct H.
Qed.
Print Assumptions C31_white_space.

(** A span whose text ends (before trailing white space) in an ASCII
    character: name, first and last line, and exactly the text without its
    trailing white space. *)
Theorem C31_resolve_span_text : forall s sp name content pre core c ws post,
  sources_wf s -> source_text s (sp_source sp) name content ->
  designates content sp pre (core ++ c :: ws) post ->
  is_whitespace c = false -> blank ws -> is_ascii c = true ->
  resolve_span s sp = Fine (mk_spanned_source (reported_name s (sp_source sp) name)
     (1 + newlines pre) (1 + newlines pre + newlines (core ++ [c])) (core ++ [c])).
Proof.
  intros s sp name content pre core c ws post W T D Hc Hw A.
  pose proof (resolve_span_text s sp name content pre core c ws post W T D Hc Hw) as R.
  now rewrite A in R.
Qed.
Print Assumptions C31_resolve_span_text.
Example C31_resolve_span_text_ex :
  resolve_span ex_sources (mk_span 0 8 12) =
  Fine (mk_spanned_source (Some (lit "/a")) 1 1 (lit """b""")).
Proof. reflexivity. Qed.

(** If it ends in a non-ASCII character the lines are still right, but the
    text comes out empty. *)
Theorem C31_resolve_span_text_nonascii : forall s sp name content pre core c ws post,
  sources_wf s -> source_text s (sp_source sp) name content ->
  designates content sp pre (core ++ c :: ws) post ->
  is_whitespace c = false -> blank ws -> is_ascii c = false ->
  resolve_span s sp = Fine (mk_spanned_source (reported_name s (sp_source sp) name)
     (1 + newlines pre) (1 + newlines pre + newlines (core ++ [c])) []).
Proof.
  intros s sp name content pre core c ws post W T D Hc Hw A.
  pose proof (resolve_span_text s sp name content pre core c ws post W T D Hc Hw) as R.
  now rewrite A in R.
Qed.
Print Assumptions C31_resolve_span_text_nonascii.
Example C31_resolve_span_text_nonascii_ex :
  resolve_span ex_sources (mk_span 0 12 17) = Fine (mk_spanned_source (Some (lit "/a")) 2 2 []).
Proof. reflexivity. Qed.

(** So "the text of a span is its source text" is false in general. *)
Theorem C31_resolve_span_nonascii_refuted :
  exists s sp name content pre mid post,
    sources_wf s /\ source_text s (sp_source sp) name content /\
    designates content sp pre mid post /\ ~ blank mid /\
    exists r, resolve_span s sp = Fine r /\ ss_content r = [].
Proof.
  exists ex_sources, (mk_span 0 12 16), (lit "/a"), ex_root,
    (lit "include ""b""
"), [233; 233]%N, ([10; 32; 9]%N ++ lit "x
").
  split; [apply ex_sources_wf|]. split; [split; reflexivity|].
  split; [repeat split; reflexivity|]. split.
  - intros B. inversion B as [|? ? H]. discriminate H.
  - eexists. split; reflexivity.
Qed.
Print Assumptions C31_resolve_span_nonascii_refuted.

(** A span over nothing but white space is left alone. *)
Theorem C31_resolve_span_blank : forall s sp name content pre ws post,
  sources_wf s -> source_text s (sp_source sp) name content ->
  designates content sp pre ws post -> blank ws ->
  resolve_span s sp = Fine (mk_spanned_source (reported_name s (sp_source sp) name)
     (1 + newlines pre) (1 + newlines pre + newlines ws) ws).
Proof. exact resolve_span_blank. Qed.
Print Assumptions C31_resolve_span_blank.
Example C31_resolve_span_blank_ex :
  resolve_span ex_sources (mk_span 0 16 19) =
  Fine (mk_spanned_source (Some (lit "/a")) 2 3 [10; 32; 9]%N).
Proof. reflexivity. Qed.

(** A span which does not fit the text (out of range, inverted, or cutting a
    character) gives an empty extract of line 1. *)
Theorem C31_resolve_span_invalid : forall s sp name content,
  sources_wf s -> source_text s (sp_source sp) name content ->
  ~ valid_span content sp ->
  resolve_span s sp = Fine (mk_spanned_source (reported_name s (sp_source sp) name) 1 1 []).
Proof. exact resolve_span_invalid. Qed.
Print Assumptions C31_resolve_span_invalid.
Example C31_resolve_span_invalid_ex :
  ~ valid_span ex_root (mk_span 0 5 500) /\
  resolve_span ex_sources (mk_span 0 5 500) = Fine (mk_spanned_source (Some (lit "/a")) 1 1 []).
Proof.
  split; [|reflexivity]. intros V. apply valid_span_get in V as [m V].
  vm_compute in V. discriminate.
Qed.

(** A source number that does not exist is reported as an empty extract of
    line 1 of the root, under the root's internal name. *)
Theorem C31_resolve_span_unknown_source : forall s sp,
  sources_wf s -> length (source_id_strings s) <= sp_source sp ->
  exists name, nth_error (source_id_strings s) 0 = Some name /\
  resolve_span s sp = Fine (mk_spanned_source (Some name) 1 1 []).
Proof. exact resolve_span_unknown. Qed.
Print Assumptions C31_resolve_span_unknown_source.

(** Hence inline text does get a file name, "inline", for such a span,
    although it has none for any span of its own. *)
Theorem C31_inline_has_no_name_refuted :
  exists s sp, sources_wf s /\ root_path s = None /\
    resolve_span s sp = Fine (mk_spanned_source (Some (lit "inline")) 1 1 []).
Proof.
  exists ex_inline, (mk_span 7 0 3). split; [apply ex_inline_wf|]. split; reflexivity.
Qed.
Print Assumptions C31_inline_has_no_name_refuted.

(** The five cases are all there are, and [resolve_span] never panics. *)
Theorem C31_resolve_span_cases : forall s sp,
  sources_wf s ->
  length (source_id_strings s) <= sp_source sp \/
  exists name content, source_text s (sp_source sp) name content /\
    (~ valid_span content sp \/
     (exists pre ws post, designates content sp pre ws post /\ blank ws) \/
     (exists pre core c ws post, designates content sp pre (core ++ c :: ws) post /\
        is_whitespace c = false /\ blank ws)).
Proof. exact span_cases. Qed.
Print Assumptions C31_resolve_span_cases.

Theorem C34_resolve_span_never_panics : forall s sp,
  sources_wf s -> exists r, resolve_span s sp = Fine r.
Proof. exact resolve_span_never_panics. Qed.
Print Assumptions C34_resolve_span_never_panics.

(** ** C32: error_source_text *)

Theorem C32_error_source_text : forall s sp name content pre core c ws post,
  sources_wf s -> source_text s (sp_source sp) name content ->
  designates content sp pre (core ++ c :: ws) post ->
  is_whitespace c = false -> blank ws -> is_ascii c = true ->
  error_source_text s sp = Fine (core ++ [c]).
Proof.
  intros s sp name content pre core c ws post W T D Hc Hw A.
  pose proof (error_text_text s sp name content pre core c ws post W T D Hc Hw) as R.
  now rewrite A in R.
Qed.
Print Assumptions C32_error_source_text.
Example C32_error_source_text_ex : error_source_text ex_sources (mk_span 1 0 2) = Fine (lit "y").
Proof. reflexivity. Qed.

Theorem C32_error_source_text_blank : forall s sp name content pre ws post,
  sources_wf s -> source_text s (sp_source sp) name content ->
  designates content sp pre ws post -> blank ws ->
  error_source_text s sp = Fine ws.
Proof. exact error_text_blank. Qed.
Print Assumptions C32_error_source_text_blank.
Example C32_error_source_text_blank_ex :
  error_source_text ex_sources (mk_span 0 17 19) = Fine [32; 9]%N.
Proof. reflexivity. Qed.

Theorem C32_error_source_text_invalid : forall s sp name content,
  sources_wf s -> source_text s (sp_source sp) name content ->
  ~ valid_span content sp -> error_source_text s sp = Fine [].
Proof. exact error_text_invalid. Qed.
Print Assumptions C32_error_source_text_invalid.

Theorem C32_error_source_text_unknown_source : forall s sp,
  sources_wf s -> length (source_id_strings s) <= sp_source sp ->
  error_source_text s sp = Fine [].
Proof. exact error_text_unknown. Qed.
Print Assumptions C32_error_source_text_unknown_source.

(** It panics exactly when the trimmed text ends in a non-ASCII character. *)
Theorem C32_error_source_text_panics_iff : forall s sp,
  sources_wf s ->
  (error_source_text s sp = Panic <->
   exists name content pre core c ws post,
     source_text s (sp_source sp) name content /\
     designates content sp pre (core ++ c :: ws) post /\
     is_whitespace c = false /\ blank ws /\ is_ascii c = false).
Proof. exact error_text_panic_iff. Qed.
Print Assumptions C32_error_source_text_panics_iff.

Theorem C32_error_source_text_total_refuted :
  exists s sp, sources_wf s /\ error_source_text s sp = Panic.
Proof. exists ex_sources, (mk_span 0 12 17). split; [apply ex_sources_wf|reflexivity]. Qed.
Print Assumptions C32_error_source_text_total_refuted.

(** ** C33: synthetic spans *)

(** Whatever calls were made, each returned span designates its fragment in
    everything created under that name. *)
Theorem C33_synthetic_span_designates : forall s calls sps sy before n f after sp,
  create_all (synthetic_new s) calls = (sps, sy) ->
  calls = before ++ (n, f) :: after ->
  nth_error sps (length before) = Some sp ->
  designates (text_under n calls) sp (text_under n before) f (text_under n after).
Proof.
  intros s calls sps sy before n f after sp C E H.
  exact (proj1 (sy_adjusted s calls sps sy before n f after sp C E H)).
Qed.
Print Assumptions C33_synthetic_span_designates.

(** Each call returns a span; names and new source numbers correspond. *)
Theorem C33_synthetic_sources : forall s calls sps sy,
  create_all (synthetic_new s) calls = (sps, sy) ->
  length sps = length calls /\
  (forall i sp, nth_error sps i = Some sp -> length (source_id_strings s) <= sp_source sp) /\
  (forall i j c d sp sq,
     nth_error calls i = Some c -> nth_error calls j = Some d ->
     nth_error sps i = Some sp -> nth_error sps j = Some sq ->
     (sp_source sp = sp_source sq <-> fst c = fst d)).
Proof.
  intros s calls sps sy C. destruct (sy_inv_all s calls sps sy C) as (Inv & Len & Sp).
  assert (X : forall i c sp, nth_error calls i = Some c -> nth_error sps i = Some sp ->
            exists k, nth_error (sy_id_strings sy) k = Some (fst c) /\
                      sp_source sp = length (source_id_strings s) + k).
  { intros i [n f] sp A B. apply nth_error_split in A as (l1 & l2 & E & <-).
    destruct (Sp l1 n f l2 E) as (k & sp' & P & Q & R). rewrite B in P. injection P as <-.
    exists k. split; [exact Q|]. now rewrite R. }
  split; [exact Len|]. split.
  - intros i sp H. destruct (nth_error calls i) as [c|] eqn:E.
    + destruct (X i c sp E H) as (k & _ & ->). lia.
    + apply nth_error_None in E. assert (i < length sps) by (apply nth_error_Some; congruence). lia.
  - intros i j c d sp sq A B P Q.
    destruct (X i c sp A P) as (k & K1 & ->). destruct (X j d sq B Q) as (l & L1 & ->).
    split; intros E.
    + assert (k = l) by lia. subst. congruence.
    + f_equal. apply (NoDup_nth_error (sy_id_strings sy)); [apply (inv_names _ _ _ Inv)| |congruence].
      apply nth_error_Some. congruence.
Qed.
Print Assumptions C33_synthetic_sources.

(** The span resolves to its name and its fragment (without trailing white
    space) whenever that ends in an ASCII character; the lines are right too if
    everything created under the name, or everything before the last fragment
    under the name, is ASCII. *)
Theorem C33_synthetic_span_resolves : forall s calls sps sy before n f after sp core c ws,
  create_all (synthetic_new s) calls = (sps, sy) ->
  calls = before ++ (n, f) :: after ->
  nth_error sps (length before) = Some sp ->
  f = core ++ c :: ws -> is_whitespace c = false -> blank ws -> is_ascii c = true ->
  sy_error_source_text sy sp = Fine (core ++ [c]) /\
  exists l1 l2, sy_resolve_span sy sp = Fine (mk_spanned_source (Some n) l1 l2 (core ++ [c])) /\
    (ascii_only (text_under n calls) \/
     ascii_only (text_under n before) /\ ~ In n (map fst after) ->
     l1 = 1 + newlines (text_under n before) /\
     l2 = 1 + newlines (text_under n before) + newlines (core ++ [c])).
Proof.
  intros s calls sps sy before n f after sp core c ws C E H F Hc Hw A.
  pose proof (sy_resolve_text s calls sps sy before n f after sp core c ws C E H F Hc Hw) as R.
  rewrite A in R. exact R.
Qed.
Print Assumptions C33_synthetic_span_resolves.

Theorem C33_synthetic_span_resolves_blank : forall s calls sps sy before n f after sp,
  create_all (synthetic_new s) calls = (sps, sy) ->
  calls = before ++ (n, f) :: after ->
  nth_error sps (length before) = Some sp -> blank f ->
  sy_error_source_text sy sp = Fine f /\
  exists l1 l2, sy_resolve_span sy sp = Fine (mk_spanned_source (Some n) l1 l2 f).
Proof. exact sy_resolve_blank. Qed.
Print Assumptions C33_synthetic_span_resolves_blank.

(** Otherwise it resolves to no text, and [error_source_text] panics. *)
Theorem C33_synthetic_span_nonascii : forall s calls sps sy before n f after sp core c ws,
  create_all (synthetic_new s) calls = (sps, sy) ->
  calls = before ++ (n, f) :: after ->
  nth_error sps (length before) = Some sp ->
  f = core ++ c :: ws -> is_whitespace c = false -> blank ws -> is_ascii c = false ->
  sy_error_source_text sy sp = Panic /\
  exists l1 l2, sy_resolve_span sy sp = Fine (mk_spanned_source (Some n) l1 l2 []).
Proof.
  intros s calls sps sy before n f after sp core c ws C E H F Hc Hw A.
  pose proof (sy_resolve_text s calls sps sy before n f after sp core c ws C E H F Hc Hw) as R.
  rewrite A in R. destruct R as (R1 & l1 & l2 & R2 & _). eauto.
Qed.
Print Assumptions C33_synthetic_span_nonascii.

(** Spans of the original sources resolve to the same text and lines as
    before, always under the name of the source. *)
Theorem C33_original_spans_kept : forall s calls sps sy sp,
  sources_wf s ->
  create_all (synthetic_new s) calls = (sps, sy) ->
  sp_source sp < length (source_id_strings s) ->
  sy_error_source_text sy sp = error_source_text s sp /\
  exists r name, resolve_span s sp = Fine r /\
    nth_error (source_id_strings s) (sp_source sp) = Some name /\
    sy_resolve_span sy sp = Fine (mk_spanned_source (Some name) (ss_start_line r) (ss_end_line r) (ss_content r)).
Proof.
  intros s calls sps sy sp W C L.
  pose proof (sy_get_adjusted_old s calls sps sy sp C L) as G.
  split; [unfold sy_error_source_text, error_source_text; now rewrite G|].
  destruct (resolve_span_never_panics s sp W) as [r R].
  destruct (nth_error (source_id_strings s) (sp_source sp)) as [name|] eqn:N;
    [|apply nth_error_None in N; lia].
  exists r, name. split; [exact R|]. split; [reflexivity|].
  unfold sy_resolve_span. rewrite G. unfold resolve_span in R.
  destruct (span_cases s sp W) as [L'|(name' & content & T & _)]; [lia|].
  destruct (get_adjusted_known s sp name' content W T) as (bs & _ & GA).
  rewrite GA in *. destruct T as [T _]. rewrite N in T. injection T as <-.
  revert R. unfold spanned_source_of. destruct (_ <? _); [discriminate|].
  intros R. injection R as <-. reflexivity.
Qed.
Print Assumptions C33_original_spans_kept.

Definition ex_calls : list (str * str) :=
  [(lit "p", lit "one
"); (lit "q", lit "zwei "); (lit "p", lit "two
 ")].
Example C33_ex :
  let '(sps, sy) := create_all (synthetic_new ex_sources) ex_calls in
  sps = [mk_span 2 0 4; mk_span 3 0 5; mk_span 2 4 9] /\
  map (sy_resolve_span sy) sps =
    [Fine (mk_spanned_source (Some (lit "p")) 1 1 (lit "one"));
     Fine (mk_spanned_source (Some (lit "q")) 1 1 (lit "zwei"));
     Fine (mk_spanned_source (Some (lit "p")) 2 2 (lit "two"))].
Proof. split; reflexivity. Qed.

(** With non-ASCII text before it, a later fragment gets wrong line numbers:
    here it is said to start on line 2 although nothing before it breaks a line. *)
Theorem C33_synthetic_lines_refuted :
  exists s calls sps sy sp,
    sources_wf s /\ create_all (synthetic_new s) calls = (sps, sy) /\
    calls = [(lit "p", [233; 233; 233]%N); (lit "p", lit "a"); (lit "p", lit "b
c")] /\
    nth_error sps 2 = Some sp /\
    exists l1 l2, sy_resolve_span sy sp = Fine (mk_spanned_source (Some (lit "p")) l1 l2 (lit "b
c")) /\ l1 <> 1.
Proof.
  eexists ex_inline, [(lit "p", [233; 233; 233]%N); (lit "p", lit "a"); (lit "p", lit "b
c")], _, _, _. split; [apply ex_inline_wf|].
  split; [reflexivity|]. split; [reflexivity|]. split; [reflexivity|].
  eexists _, _. split; [vm_compute; reflexivity|]. discriminate.
Qed.
Print Assumptions C33_synthetic_lines_refuted.

(** The name is also given for spans of inline text, which [resolve_span]
    itself leaves without a name. *)
Theorem C33_inline_has_no_name_refuted :
  exists s sp r1 r2, sources_wf s /\ root_path s = None /\
    resolve_span s sp = Fine r1 /\ ss_file_name r1 = None /\
    sy_resolve_span (synthetic_new s) sp = Fine r2 /\ ss_file_name r2 = Some (lit "inline").
Proof.
  eexists ex_inline, (mk_span 0 0 3), _, _. split; [apply ex_inline_wf|].
  repeat split; reflexivity.
Qed.
Print Assumptions C33_inline_has_no_name_refuted.

(** ** C35: include paths *)

Theorem C35_path_equality : forall p q, path_eqb p q = true <-> components p = components q.
Proof. exact path_eqb_eq. Qed.
Print Assumptions C35_path_equality.

(** A relative include is taken in the directory of the including file. *)
Theorem C35_include_relative : forall p q d,
  is_absolute q = false -> d <> [] -> directory_of (components p) d ->
  components (resolve_included_path (Some p) q) = under d (components q).
Proof. exact resolve_relative. Qed.
Print Assumptions C35_include_relative.
Example C35_include_relative_ex :
  directory_of (components (lit "/home/x//./main.beancount")) [RootDir; Normal (lit "home"); Normal (lit "x")] /\
  resolve_included_path (Some (lit "/home/x//./main.beancount")) (lit "./y/*.b") = lit "/home/x/./y/*.b".
Proof.
  split; [|reflexivity]. exists (Normal (lit "main.beancount")). split; [discriminate|reflexivity].
Qed.

(** An absolute include is taken as it is, whoever includes it. *)
Theorem C35_include_absolute : forall o q,
  is_absolute q = true -> resolve_included_path o q = q.
Proof. intros [p|] q A; [now apply resolve_absolute|reflexivity]. Qed.
Print Assumptions C35_include_absolute.

Theorem C35_absolute_iff : forall q, is_absolute q = true <-> exists cs, components q = RootDir :: cs.
Proof. exact is_absolute_components. Qed.
Print Assumptions C35_absolute_iff.

(** From inline text, or from a file without a directory part, the include is
    taken as it is too. *)
Theorem C35_include_inline : forall q, resolve_included_path None q = q.
Proof. exact resolve_inline. Qed.
Print Assumptions C35_include_inline.

Theorem C35_include_no_directory : forall p q,
  components p = [] \/ components p = [RootDir] \/ directory_of (components p) [] ->
  resolve_included_path (Some p) q = q.
Proof. exact resolve_no_dir. Qed.
Print Assumptions C35_include_no_directory.
Example C35_include_no_directory_ex :
  directory_of (components (lit "main.beancount")) [] /\
  resolve_included_path (Some (lit "main.beancount")) (lit "y.b") = lit "y.b".
Proof. split; [|reflexivity]. exists (Normal (lit "main.beancount")). split; [discriminate|reflexivity]. Qed.
