(** * Specification vocabulary for identifiers and name tables *)
From Coq Require Import String Ascii.
From Coq Require Import List NArith Arith Bool.
From Verif Require Import Base Types.
Import ListNotations.

(** ASCII character classes, as ranges. *)
Definition upper (c : N) : Prop := (65 <= c <= 90)%N.
Definition lower (c : N) : Prop := (97 <= c <= 122)%N.
Definition digit (c : N) : Prop := (48 <= c <= 57)%N.
Definition ascii (c : N) : Prop := (c < 128)%N.
(** Unicode alphanumeric, according to the tables [U]. *)
Definition alnum (U : unicode) (c : N) : Prop := u_alphabetic U c = true \/ u_numeric U c = true.

(** One char of the first class followed by any number of the second. *)
Definition identifier (first others : N -> Prop) (s : list N) : Prop :=
  exists c rest, s = c :: rest /\ first c /\ Forall others rest.

(** The documented languages. *)
Definition account_type_name_lang U := identifier upper (fun c => alnum U c \/ c = 45%N).
Definition account_name_lang U :=
  identifier (fun c => upper c \/ digit c \/ (~ ascii c /\ u_alphabetic U c = true))
             (fun c => alnum U c \/ c = 45%N).
Definition key_lang U := identifier lower (fun c => alnum U c \/ c = 45%N \/ c = 95%N).
Definition tag_link_lang U := Forall (fun c => alnum U c \/ c = 45%N \/ c = 95%N \/ c = 47%N \/ c = 46%N).

(** Currency: starts with an uppercase letter or '/', ends with an uppercase
    letter or digit, only "A-Z0-9'._-" in between, and has a letter. *)
Definition currency_middle (c : N) : Prop :=
  upper c \/ digit c \/ c = 39%N \/ c = 46%N \/ c = 95%N \/ c = 45%N.
Definition currency_lang (s : list N) : Prop :=
  Exists upper s /\
  ((exists c, s = [c] /\ upper c) \/
   (exists a m z, s = a :: m ++ [z] /\ (upper a \/ a = 47%N) /\ Forall currency_middle m /\
                  (upper z \/ digit z))).

(** [ws] joined by colons. *)
Fixpoint join_colon (ws : list (list N)) : list N :=
  match ws with
  | [] => []
  | [w] => w
  | w :: ws' => w ++ 58%N :: join_colon ws'
  end.

(** ** Why a text is refused *)

(** [bad] are those of the characters which are not [ok], in order. *)
Inductive offending (ok : N -> Prop) : list N -> list N -> Prop :=
| offending_nil : offending ok [] []
| offending_bad c s bad : ~ ok c -> offending ok s bad -> offending ok (c :: s) (c :: bad)
| offending_ok c s bad : ok c -> offending ok s bad -> offending ok (c :: s) bad.

(** It is empty, or else the first character is wrong, or else some others are. *)
Inductive name_fault (first others : N -> Prop) : list N -> name_error -> Prop :=
| fault_empty : name_fault first others [] NameEmpty
| fault_initial c rest : ~ first c -> name_fault first others (c :: rest) (NameInitial c)
| fault_subsequent c rest bad : first c -> offending others rest bad -> bad <> [] ->
    name_fault first others (c :: rest) (NameSubsequent bad).

Definition account_type_name_fault U := name_fault upper (fun c => alnum U c \/ c = 45%N).
Definition account_name_fault U :=
  name_fault (fun c => upper c \/ digit c \/ (~ ascii c /\ u_alphabetic U c = true))
             (fun c => alnum U c \/ c = 45%N).
Definition key_fault U := name_fault lower (fun c => alnum U c \/ c = 45%N \/ c = 95%N).
Definition tag_link_fault U (s bad : list N) : Prop :=
  bad <> [] /\ offending (fun c => alnum U c \/ c = 45%N \/ c = 95%N \/ c = 47%N \/ c = 46%N) s bad.

(** An ASCII text is no currency since it is empty, or else for its first
    character, or else for its last one, or else for those in between, or else
    for want of a letter. *)
Inductive currency_fault : list N -> currency_error -> Prop :=
| currency_fault_empty : currency_fault [] CurrencyEmpty
| currency_fault_initial a rest : Forall ascii (a :: rest) -> ~ (upper a \/ a = 47%N) ->
    currency_fault (a :: rest) (CurrencyInitial a)
| currency_fault_final a before z : Forall ascii (before ++ [z]) ->
    hd_error (before ++ [z]) = Some a -> upper a \/ a = 47%N -> ~ (upper z \/ digit z) ->
    currency_fault (before ++ [z]) (CurrencyFinal z)
| currency_fault_middle a m z bad : Forall ascii (a :: m ++ [z]) -> upper a \/ a = 47%N -> upper z \/ digit z ->
    offending currency_middle m bad -> bad <> [] ->
    currency_fault (a :: m ++ [z]) (CurrencyIntermediate bad)
| currency_fault_letter a m z : Forall ascii (a :: m ++ [z]) -> upper a \/ a = 47%N -> upper z \/ digit z ->
    Forall currency_middle m -> ~ Exists upper (a :: m ++ [z]) ->
    currency_fault (a :: m ++ [z]) CurrencyMissingLetter.

(** What is wrong with the first of [ws] which is no account name. *)
Definition first_fault U (ws : list (list N)) (e : name_error) : Prop :=
  exists before w after, ws = before ++ w :: after /\ Forall (account_name_lang U) before /\ account_name_fault U w e.

(** An account is no account, split at its colons. *)
Inductive account_fault U (names : account_type -> list N) : list (list N) -> account_error -> Prop :=
| account_fault_type w ws e : account_type_name_fault U w e -> account_fault U names (w :: ws) (AccTypeName e)
| account_fault_name w ws e : account_type_name_lang U w -> first_fault U ws e -> account_fault U names (w :: ws) (AccName e)
| account_fault_unknown w ws : account_type_name_lang U w -> Forall (account_name_lang U) ws -> (forall t, names t <> w) ->
    account_fault U names (w :: ws) (AccUnknownType w).

(** ** Name tables

    The abstract view of a table: one name per account type, and looking up a
    name finds the type which has it, and nothing for other strings. *)
Definition named (n : account_type_names) (names : account_type -> list N) : Prop :=
  (forall t, atn_name n t = Fine (names t)) /\
  (forall s t, atn_get n s = Some t <-> names t = s).

Definition default_names (t : account_type) : list N :=
  match t with
  | Assets => lit "Assets" | Liabilities => lit "Liabilities" | Equity => lit "Equity"
  | Income => lit "Income" | Expenses => lit "Expenses"
  end.

Definition set_name (names : account_type -> list N) (t : account_type) (s : list N) : account_type -> list N :=
  fun t' => if account_type_eqb t' t then s else names t'.

(** [s] is the name of a type other than [t]. *)
Definition in_use_by_another (names : account_type -> list N) (t : account_type) (s : list N) : bool :=
  existsb (fun t' => negb (account_type_eqb t' t) && str_eqb (names t') s)
    [Assets; Liabilities; Equity; Income; Expenses].

(** What a sequence of assignments should do to the names. *)
Fixpoint rename_all (names : account_type -> list N) (us : list (account_type * list N)) : account_type -> list N :=
  match us with
  | [] => names
  | (t, s) :: us' => rename_all (if in_use_by_another names t s then names else set_name names t s) us'
  end.

(** Running the assignments; a rejected one is reported elsewhere and changes nothing. *)
Fixpoint update_all (n : account_type_names) (us : list (account_type * list N)) : outcome account_type_names :=
  match us with
  | [] => Fine n
  | (t, s) :: us' =>
      match atn_update n t s with
      | Panic => Panic
      | Fine (Ok n') => update_all n' us'
      | Fine (Err _) => update_all n us'
      end
  end.
