(** * Specification: a directive with a tag, or with a key, in addition *)
From Coq Require Import String Ascii.
From Coq Require Import List NArith Arith Bool.
From Verif Require Import Base Sources Types SpecTypes SpecDisplay.
Import ListNotations.

Definition tags_of (d : directive) : list str := map item (md_tags (item (dir_metadata d))).
Definition keys_of (d : directive) : list str := map (fun e => item (fst e)) (md_key_values (item (dir_metadata d))).
Definition same_key_value (x y : spanned str * spanned meta_value) : Prop :=
  same_item (fst x) (fst y) /\ alike_meta_value (item (snd x)) (item (snd y)).

(** [d'] is [d] with the tag [t], which it may have had before. *)
Record with_tag (t : str) (d d' : directive) : Prop := {
  wt_date : same_item (dir_date d) (dir_date d');
  wt_variant : alike_variant (dir_variant d) (dir_variant d');
  wt_links : same_elements same_item (md_links (item (dir_metadata d))) (md_links (item (dir_metadata d')));
  wt_keys : same_elements same_key_value (md_key_values (item (dir_metadata d))) (md_key_values (item (dir_metadata d')));
  wt_tags : forall x, In x (tags_of d') <-> In x (tags_of d) \/ x = t;
  wt_tags_once : NoDup (tags_of d')
}.

(** [d'] is [d] with the value [v] for the key [k], unless it has a value for
    this key. *)
Record with_key (k : str) (v : meta_value) (d d' : directive) : Prop := {
  wk_date : same_item (dir_date d) (dir_date d');
  wk_variant : alike_variant (dir_variant d) (dir_variant d');
  wk_links : same_elements same_item (md_links (item (dir_metadata d))) (md_links (item (dir_metadata d')));
  wk_tags : same_elements same_item (md_tags (item (dir_metadata d))) (md_tags (item (dir_metadata d')));
  wk_had : In k (keys_of d) -> same_elements same_key_value (md_key_values (item (dir_metadata d))) (md_key_values (item (dir_metadata d')));
  wk_new : ~ In k (keys_of d) -> exists key value, item key = k /\ item value = v /\
    same_elements same_key_value ((key, value) :: md_key_values (item (dir_metadata d))) (md_key_values (item (dir_metadata d')))
}.
