(** * Specification of regexes and of maximal munch *)
From Coq Require Import List NArith Arith Bool.
From Verif Require Import Base Regex.
Import ListNotations.
Local Open Scope nat_scope.

(** The language of a regex. *)
Inductive matches : re -> str -> Prop :=
| m_eps : matches R_Eps []
| m_class p c : p c = true -> matches (R_Class p) [c]
| m_seq a b s t : matches a s -> matches b t -> matches (R_Seq a b) (s ++ t)
| m_left a b s : matches a s -> matches (R_Alt a b) s
| m_right a b s : matches b s -> matches (R_Alt a b) s
| m_star_nil a : matches (R_Star a) []
| m_star a s t : matches a s -> matches (R_Star a) t -> matches (R_Star a) (s ++ t).

Section Munch.
  Context {A : Type}.
  Notation action := (list N -> outcome (option A)).

  (** Some rule matches [t]. *)
  Definition some_rule (rules : list (re * action)) (t : str) : Prop :=
    exists r a, In (r, a) rules /\ matches r t.

  (** [t] is the longest prefix of [t ++ rest] which a rule matches, and [a]
      belongs to the first such rule. *)
  Record munch (rules : list (re * action)) (t rest : str) (a : action) : Prop := {
    mu_nonempty : t <> [];
    mu_first : exists before r after,
      rules = before ++ (r, a) :: after /\ matches r t /\ ~ some_rule before t;
    mu_longest : forall u v, rest = u ++ v -> u <> [] -> ~ some_rule rules (t ++ u)
  }.

  (** No rule matches a prefix. *)
  Definition stuck (rules : list (re * action)) (s : str) : Prop :=
    forall t u, s = t ++ u -> t <> [] -> ~ some_rule rules t.

  Context (rules : list (re * action)) (unmatched : A).

  (** [tokenized off s items]: [s], which starts at byte [off], is cut into
      longest matches, and single failures where nothing matches. *)
  Inductive tokenized : nat -> str -> list (A * (nat * nat)) -> Prop :=
  | tz_end off : tokenized off [] []
  | tz_skip off t rest a items :
      munch rules t rest a -> a t = Fine None ->
      tokenized (off + blen t) rest items -> tokenized off (t ++ rest) items
  | tz_item off t rest a x items :
      munch rules t rest a -> a t = Fine (Some x) ->
      tokenized (off + blen t) rest items ->
      tokenized off (t ++ rest) ((x, (off, off + blen t)) :: items)
  | tz_fail off t rest items :
      t <> [] -> stuck rules (t ++ rest) ->
      tokenized (off + blen t) rest items ->
      tokenized off (t ++ rest) ((unmatched, (off, off + blen t)) :: items).

  (** A position is reached where the callback of the rule panics. *)
  Inductive panics : str -> Prop :=
  | pa_here t rest a : munch rules t rest a -> a t = Panic -> panics (t ++ rest)
  | pa_later t rest a o : munch rules t rest a -> a t = Fine o -> panics rest -> panics (t ++ rest)
  | pa_fail t rest : t <> [] -> stuck rules (t ++ rest) -> panics rest -> panics (t ++ rest).
End Munch.
