(** * Specification of the tokens: what text is what token *)
From Coq Require Import String Ascii.
From Coq Require Import List NArith Arith Bool.
From Verif Require Import Base Types Token SpecTypes SpecOptions SpecLex Lexer.
Import ListNotations.
Local Open Scope nat_scope.

(** ** The calendar *)

Definition leap (y : N) : Prop :=
  (exists k, y = 4 * k)%N /\ (~ (exists k, y = 100 * k)%N \/ (exists k, y = 400 * k)%N).

(** [month_has y m d]: month [m] of year [y] has [d] days. *)
Inductive month_has (y : N) : N -> N -> Prop :=
| m31 m : In m [1; 3; 5; 7; 8; 10; 12]%N -> month_has y m 31
| m30 m : In m [4; 6; 9; 11]%N -> month_has y m 30
| m29 : leap y -> month_has y 2 29
| m28 : ~ leap y -> month_has y 2 28.

Definition calendar_date (y m d : N) : Prop := exists n, month_has y m n /\ (1 <= d <= n)%N.

Definition time_of_day (h m s : N) : Prop := (h < 24 /\ m < 60 /\ s < 60)%N.

(** ** Dates and times as written

    A digit which is not ASCII makes the conversion panic. *)
Notation num := decimal_value.

Inductive date_reads (y m d : str) : outcome (result date str) -> Prop :=
| dr_ok : Forall digit y -> Forall digit m -> Forall digit d -> calendar_date (num y) (num m) (num d) ->
    date_reads y m d (Fine (Ok (mk_date (num y) (num m) (num d))))
| dr_month : Forall digit y -> Forall digit m -> ~ (1 <= num m <= 12)%N ->
    date_reads y m d (Fine (Err (lit "month out of range")))
| dr_day : Forall digit y -> Forall digit m -> Forall digit d ->
    (1 <= num m <= 12)%N -> ~ calendar_date (num y) (num m) (num d) ->
    date_reads y m d (Fine (Err (lit "date out of range")))
| dr_panic : ~ (Forall digit y /\ Forall digit m) \/ ((1 <= num m <= 12)%N /\ ~ Forall digit d) ->
    date_reads y m d Panic.

(** [s] is empty when the seconds are not written. *)
Inductive time_reads (h m s : str) : outcome (result time str) -> Prop :=
| tr_ok : Forall digit h -> Forall digit m -> Forall digit s -> time_of_day (num h) (num m) (num s) ->
    time_reads h m s (Fine (Ok (mk_time (num h) (num m) (num s))))
| tr_range : Forall digit h -> Forall digit m -> Forall digit s -> ~ time_of_day (num h) (num m) (num s) ->
    time_reads h m s (Fine (Err (lit "time out of range")))
| tr_panic : ~ (Forall digit h /\ Forall digit m /\ Forall digit s) -> time_reads h m s Panic.

(** ** The text of each kind of token *)
Section Texts.
  Context (E : lexer_env).
  Let U := le_unicode E.

  (** Unicode decimal digits. *)
  Definition decimal_digit (c : N) : Prop := u_Nd U c = true.
  Definition digits (n : nat) (s : str) : Prop := List.length s = n /\ Forall decimal_digit s.

  Definition is_blank (c : N) : Prop := c = 32%N \/ c = 9%N.
  Definition blanks (s : str) : Prop := s <> [] /\ Forall is_blank s.
  Definition no_newline (s : str) : Prop := ~ In 10%N s.

  (** LF or CR LF. *)
  Definition line_end (s : str) : Prop := s = [10%N] \/ s = [13%N; 10%N].

  Definition symbols : list (str * token) :=
    [(lit "TRUE", T_True); (lit "FALSE", T_False); (lit "NULL", T_Null);
     (lit "|", T_Pipe); (lit "@@", T_AtAt); (lit "@", T_At);
     (lit "{{", T_LcurlCurl); (lit "}}", T_RcurlCurl); (lit "{", T_Lcurl); (lit "}", T_Rcurl);
     (lit ",", T_Comma); (lit "~", T_Tilde); (lit "+", T_Plus); (lit "-", T_Minus); (lit "/", T_Slash);
     (lit "(", T_Lparen); (lit ")", T_Rparen); (lit "#", T_Hash); (lit "*", T_Asterisk); (lit ":", T_Colon);
     (lit "!", T_Flag F_Exclamation); (lit "&", T_Flag F_Ampersand);
     (lit "?", T_Flag F_Question); (lit "%", T_Flag F_Percent)].

  (** A letter, then letters, digits and "'._-"; or a slash and any digits and
      "'._-" in front of that. *)
  Definition currency_text (s : str) : Prop :=
    identifier upper currency_middle s \/
    exists a b, s = 47%N :: a ++ b /\ Forall (fun c => currency_middle c /\ ~ upper c) a /\
                identifier upper currency_middle b.

  Definition account_char (c : N) : Prop := u_L U c = true \/ u_N U c = true \/ c = 45%N.
  (** Two or more components joined by colons. *)
  Definition account_text (s : str) : Prop :=
    exists t n ns, s = join_colon (t :: n :: ns) /\
      identifier (fun c => u_Lu U c = true \/ u_Lo U c = true) account_char t /\
      Forall (identifier (fun c => u_Lu U c = true \/ u_Lo U c = true \/ u_N U c = true) account_char) (n :: ns).

  (** Between the quotes there is no quote which is not escaped, and a
      backslash escapes any char but a newline. *)
  Inductive string_body : str -> Prop :=
  | sb_nil : string_body []
  | sb_plain c s : c <> 92%N -> c <> 34%N -> string_body s -> string_body (c :: s)
  | sb_escape c s : c <> 10%N -> string_body s -> string_body (92%N :: c :: s).

  (** [number_text i gs f s]: [s] is written with the digits [i], the groups
      of three [gs], each after a comma, and the digits [f] after a point. *)
  Definition number_text (i : str) (gs : list str) (f : option str) (s : str) : Prop :=
    i <> [] /\ Forall decimal_digit i /\ Forall (digits 3) gs /\
    (forall d, f = Some d -> d <> [] /\ Forall decimal_digit d) /\
    s = i ++ flat_map (fun g => 44%N :: g) gs ++ match f with Some d => 46%N :: d | None => [] end.

  Definition identifier_char (c : N) : Prop := upper c \/ lower c \/ digit c \/ c = 45%N \/ c = 95%N.
  Definition label (s : str) : Prop :=
    s <> [] /\ Forall (fun c => identifier_char c \/ c = 47%N \/ c = 46%N) s.
  Definition key_text (s : str) : Prop := identifier lower identifier_char s /\ List.length s >= 2.

  (** A line which does not count: it starts with one of "*!&#?%:". *)
  Definition ignored_line (s : str) : Prop :=
    exists c t e, s = c :: t ++ e /\ In c (lit "*!&#?%:") /\ no_newline t /\ line_end e.
  (** A comment to the end of the line. *)
  Definition comment (s : str) : Prop := exists t, s = 59%N :: t /\ no_newline t.
  (** An end of line with the comment before and the ignored lines after it. *)
  Definition line_break (s : str) : Prop :=
    exists c e ls, s = c ++ e ++ concat ls /\ (c = [] \/ comment c) /\ line_end e /\ Forall ignored_line ls.

  (** ** Tokens

      [lexeme s o]: all of [s] taken together is the token, or the error, or
      the space to skip [Fine None], or the panic, [o]. *)
  Definition tok (t : token) : outcome (option (result token str)) := Fine (Some (Ok t)).
  Definition read_as {A} (f : A -> token) (r : outcome (result A str)) : outcome (option (result token str)) :=
    match r with
    | Panic => Panic
    | Fine (Ok a) => tok (f a)
    | Fine (Err e) => Fine (Some (Err e))
    end.

  Inductive lexeme : str -> outcome (option (result token str)) -> Prop :=
  | lx_blank s : blanks s -> lexeme s (Fine None)
  | lx_symbol s t : In (s, t) symbols -> lexeme s (tok t)
  | lx_keyword k : lexeme (keyword_text k) (tok (T_Keyword k))
  | lx_currency s : currency_text s -> ~ In s [lit "TRUE"; lit "FALSE"; lit "NULL"] -> lexeme s (tok (T_Currency s))
  | lx_flag c : upper c -> lexeme [39%N; c] (tok (T_Flag (F_Letter c)))
  | lx_date y p m q d o : digits 4 y -> digits 2 m -> digits 2 d -> p = 45%N \/ p = 47%N -> q = 45%N \/ q = 47%N ->
      date_reads y m d o -> lexeme (y ++ p :: m ++ q :: d) (read_as T_Date o)
  | lx_time h m o : digits 1 h \/ digits 2 h -> digits 2 m ->
      time_reads h m [] o -> lexeme (h ++ 58%N :: m) (read_as T_Time o)
  | lx_time_seconds h m s o : digits 1 h \/ digits 2 h -> digits 2 m -> digits 2 s ->
      time_reads h m s o -> lexeme (h ++ 58%N :: m ++ 58%N :: s) (read_as T_Time o)
  | lx_account s : account_text s -> lexeme s (tok (T_Account s))
  | lx_string b : string_body b -> ~ In 92%N b -> lexeme (34%N :: b ++ [34%N]) (tok (T_String b))
  | lx_string_escapes b : string_body b -> In 92%N b ->
      lexeme (34%N :: b ++ [34%N]) (read_as T_String (Fine (le_unescape E b)))
  | lx_number i gs f s : number_text i gs f s ->
      lexeme s (read_as T_Number (Fine (le_decimal E
        (i ++ concat gs ++ match f with Some d => 46%N :: d | None => [] end))))
  | lx_tag s : label s -> lexeme (35%N :: s) (tok (T_Tag s))
  | lx_link s : label s -> lexeme (94%N :: s) (tok (T_Link s))
  | lx_key s : key_text s -> (forall k, s <> keyword_text k) -> lexeme s (tok (T_Key s))
  | lx_indent s b : line_break s -> blanks b -> lexeme (s ++ b) (tok T_EolThenIndent)
  | lx_eol s : line_break s -> lexeme s (tok T_Eol)
  | lx_comment s : ~ In 13%N s -> no_newline s -> lexeme (59%N :: s) (tok T_EolComment).

  (** The tokens which are tried again in text which failed. *)
  Inductive recovery_lexeme : str -> outcome (option (result token str)) -> Prop :=
  | rl_symbol s t : In (s, t) [(lit "-", T_Minus); (lit "/", T_Slash); (lit ":", T_Colon)] -> recovery_lexeme s (tok t)
  | rl_date y p m q d o : digits 4 y -> digits 2 m -> digits 2 d -> p = 45%N \/ p = 47%N -> q = 45%N \/ q = 47%N ->
      date_reads y m d o -> recovery_lexeme (y ++ p :: m ++ q :: d) (read_as T_Date o)
  | rl_number i gs f s : number_text i gs f s ->
      recovery_lexeme s (read_as T_Number (Fine (le_decimal E
        (i ++ concat gs ++ match f with Some d => 46%N :: d | None => [] end)))).
End Texts.

(** ** Cutting text into tokens *)
Section Cut.
  Context (lexeme : str -> outcome (option (result token str)) -> Prop).

  Definition is_lexeme (s : str) : Prop := exists o, lexeme s o.

  (** [t] is the longest lexeme [t ++ rest] starts with. *)
  Definition longest (t rest : str) : Prop :=
    t <> [] /\ is_lexeme t /\ forall u v, rest = u ++ v -> u <> [] -> ~ is_lexeme (t ++ u).

  (** [s] starts with no lexeme. *)
  Definition no_lexeme (s : str) : Prop := forall t u, s = t ++ u -> t <> [] -> ~ is_lexeme t.

  (** [cut off s items]: [s], which starts at byte [off], is cut into [items]. *)
  Inductive cut : nat -> str -> list (result token str * range) -> Prop :=
  | cut_end off : cut off [] []
  | cut_skip off t rest items :
      longest t rest -> lexeme t (Fine None) ->
      cut (off + blen t) rest items -> cut off (t ++ rest) items
  | cut_item off t rest x items :
      longest t rest -> lexeme t (Fine (Some x)) ->
      cut (off + blen t) rest items ->
      cut off (t ++ rest) ((x, (off, off + blen t)) :: items)
  | cut_fail off t rest items :
      t <> [] -> no_lexeme (t ++ rest) ->
      cut (off + blen t) rest items ->
      cut off (t ++ rest) ((Err (lit "unrecognized token"), (off, off + blen t)) :: items).

  (** A lexeme which panics is reached. *)
  Inductive cut_panics : str -> Prop :=
  | cp_here t rest : longest t rest -> lexeme t Panic -> cut_panics (t ++ rest)
  | cp_later t rest o : longest t rest -> lexeme t (Fine o) -> cut_panics rest -> cut_panics (t ++ rest)
  | cp_fail t rest : t <> [] -> no_lexeme (t ++ rest) -> cut_panics rest -> cut_panics (t ++ rest).
End Cut.

(** ** Recovery

    Each failure is replaced by what can be recognized in its text. *)
Section Recovers.
  Context (E : lexer_env) (source : str).

  Definition moved (o : nat) (i : result token str * range) : rtoken :=
    (match fst i with Ok t => t | Err e => T_Error e end, (fst (snd i) + o, snd (snd i) + o)).

  Inductive recovers : list (result token str * range) -> list rtoken -> Prop :=
  | rc_nil : recovers [] []
  | rc_ok t r l l' : recovers l l' -> recovers ((Ok t, r) :: l) ((t, r) :: l')
  | rc_err e a b failed items l l' :
      str_get source a b = Some failed -> cut (recovery_lexeme E) 0 failed items ->
      recovers l l' -> recovers ((Err e, (a, b)) :: l) (map (moved a) items ++ l').

  (** The whole: cut into tokens, failures tried again, keywords before a colon
      turned into keys, lines laid out. *)
  Inductive lexes : list rtoken -> Prop :=
  | lexes_intro raw toks keys ls out :
      cut (lexeme E) 0 source raw -> recovers raw toks -> keyed toks keys ->
      lines_of ((T_Eol, (0, 0)) :: keys) ls -> laid_out ls (Some (blen source, blen source)) out ->
      lexes out.

  (** A lexeme panics, at first or when text which failed is tried again. *)
  Inductive lexing_panics : Prop :=
  | lp_raw : cut_panics (lexeme E) source -> lexing_panics
  | lp_recovery raw e a b failed :
      cut (lexeme E) 0 source raw -> In (Err e, (a, b)) raw -> str_get source a b = Some failed ->
      cut_panics (recovery_lexeme E) failed -> lexing_panics.
End Recovers.

(** [well_cut off s items]: like [cut], without failures. *)
Inductive well_cut (lexeme : str -> outcome (option (result token str)) -> Prop)
  : nat -> str -> list (result token str * range) -> Prop :=
| wc_end off : well_cut lexeme off [] []
| wc_skip off t rest items :
    longest lexeme t rest -> lexeme t (Fine None) ->
    well_cut lexeme (off + blen t) rest items -> well_cut lexeme off (t ++ rest) items
| wc_item off t rest x items :
    longest lexeme t rest -> lexeme t (Fine (Some x)) ->
    well_cut lexeme (off + blen t) rest items ->
    well_cut lexeme off (t ++ rest) ((x, (off, off + blen t)) :: items).

(** ** Numbers

    What is relied on of [Decimal::from_str]: digits with at most 28 after the
    point and a value below 2^96 are read exactly. *)
Definition reads_decimals (from_str : str -> result decimal str) : Prop :=
  forall i f, i <> [] -> Forall digit i -> Forall digit f -> (f <> [] -> List.length f <= 28) ->
    (decimal_value (i ++ f) < 2 ^ 96)%N ->
    from_str (i ++ match f with [] => [] | _ => 46%N :: f end)
    = Ok (mk_dec false (decimal_value (i ++ f)) (List.length f)).
