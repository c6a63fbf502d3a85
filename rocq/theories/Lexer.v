(** * Lexer: the token rules and [lex] (src/lexer.rs 14-324, 672-720) *)
From Coq Require Import String Ascii.
From Coq Require Import List NArith Arith Bool.
From Verif Require Import Base Path Types Options Token Regex LexPost.
Import ListNotations.
Local Open Scope nat_scope.

(** ** Dates, times and numbers *)

(** [str::parse::<T>] for an unsigned [T] below [bound]; [i32] likewise, its
    argument having no '-' here. *)
Definition parse_below (bound : N) (s : str) : option N :=
  match parse_usize s with
  | Some n => if (n <? bound)%N then Some n else None
  | None => None
  end.

(** [str::split] with a predicate. (std; used at lexer.rs 673, 682.) *)
Fixpoint split_by (p : char -> bool) (s : str) : list str :=
  match s with
  | [] => [[]]
  | c :: s' =>
      if p c then [] :: split_by p s'
      else match split_by p s' with
           | [] => [[c]]
           | w :: ws => (c :: w) :: ws
           end
  end.

(** The [time] crate: [days_in_month], [Date::from_calendar_date], for years
    from 0 to 9999 and months from 1 to 12. *)
Definition leap_year (y : N) : bool :=
  (y mod 4 =? 0)%N && (negb (y mod 100 =? 0)%N || (y mod 400 =? 0)%N).
(** crate time; behind lexer.rs 678. *)
Definition days_in_month (y m : N) : N :=
  if (m =? 2)%N then if leap_year y then 29 else 28
  else if (m =? 4)%N || (m =? 6)%N || (m =? 9)%N || (m =? 11)%N then 30
  else 31.
(** crate time; used at lexer.rs 678. *)
Definition from_calendar_date (y m d : N) : option date :=
  if (1 <=? d)%N && (d <=? days_in_month y m)%N then Some (mk_date y m d) else None.

(** [Time::from_hms]. (crate time; used at lexer.rs 691.) *)
Definition from_hms (h m s : N) : option time :=
  if (h <? 24)%N && (m <? 60)%N && (s <? 60)%N then Some (mk_time h m s) else None.

(** [Option::unwrap]. (std; as at lexer.rs 674-677.) *)
Definition unwrap {A} (o : option A) : outcome A := match o with Some a => Fine a | None => Panic end.
(** No code of its own: what follows an [unwrap], as at lexer.rs 674-677. *)
Definition bind {A B} (x : outcome A) (f : A -> outcome B) : outcome B :=
  match x with Fine a => f a | Panic => Panic end.

(** lexer.rs 672-679: [parse_date]. *)
Definition parse_date (s : str) : outcome (result date str) :=
  let parts := split_by (fun c => (c =? 45)%N || (c =? 47)%N) s in
  bind (unwrap (nth_error parts 0)) (fun y =>
  bind (unwrap (parse_below (2 ^ 31) y)) (fun year =>
  bind (unwrap (nth_error parts 1)) (fun m =>
  bind (unwrap (parse_below 256 m)) (fun month =>
  if negb ((1 <=? month)%N && (month <=? 12)%N) then Fine (Err (lit "month out of range"))
  else
  bind (unwrap (nth_error parts 2)) (fun d =>
  bind (unwrap (parse_below 256 d)) (fun day =>
  Fine match from_calendar_date year month day with
       | Some date => Ok date
       | None => Err (lit "date out of range")
       end)))))).

(** lexer.rs 681-692: [parse_time]. *)
Definition parse_time (s : str) : outcome (result time str) :=
  let parts := split_by (fun c => (c =? 58)%N) s in
  bind (unwrap (nth_error parts 0)) (fun h =>
  bind (unwrap (parse_below 256 h)) (fun hour =>
  bind (unwrap (nth_error parts 1)) (fun m =>
  bind (unwrap (parse_below 256 m)) (fun min =>
  bind (match nth_error parts 2 with
        | Some s => unwrap (parse_below 256 s)
        | None => Fine 0%N
        end) (fun sec =>
  Fine match from_hms hour min sec with
       | Some t => Ok t
       | None => Err (lit "time out of range")
       end))))).

(** The functions of other crates which are called, and what is not known
    about the generated lexers. (what other crates do at lexer.rs 674-678, 698, 710-712 and in logos, lexer.rs 15.) *)
Record lexer_env := {
  le_unicode : unicode;
  (** [Decimal::from_str], an error being its message *)
  le_decimal : str -> result decimal str;
  (** [unescaper::unescape], likewise *)
  le_unescape : str -> result str str;
  (** how far failures extend, in the two lexers *)
  le_err_len : str -> nat;
  le_recovery_err_len : str -> nat
}.

Section Lex.
  Context (E : lexer_env).
  Let U := le_unicode E.

  (** The char at lexer.rs 707. *)
  Definition comma : char := 44%N.
  (** The char at lexer.rs 697. *)
  Definition backslash : char := 92%N.
  (** The char at lexer.rs 29. *)
  Definition quote : char := 34%N.

  (** lexer.rs 706-718: [parse_number]. *)
  Definition parse_number (s : str) : result decimal str :=
    if existsb (N.eqb comma) s then le_decimal E (filter (fun c => negb (c =? comma)%N) s)
    else le_decimal E s.

  (** lexer.rs 696-704: [unescape_string_literal]. *)
  Definition unescape_string_literal (s : str) : result str str :=
    if existsb (N.eqb backslash) s then le_unescape E s else Ok s.

  (** ** The patterns (lexer.rs 18-31) *)
  Definition r_upper : re := R_Class is_ascii_uppercase.
  (** lexer.rs 25-26, 30: the class of digits. *)
  Definition r_digit : re := R_Class (u_Nd U).
  (** lexer.rs 22-23: the dot. *)
  Definition dot_class : re := R_Class (fun c => negb (c =? 10)%N).
  (** lexer.rs 22, 158, 161: the end of a line. *)
  Definition eol_re : re := R_Seq (r_opt (r_char 13)) (r_char 10).

  (** lexer.rs 22. *)
  Definition ignored_whole_line : re :=
    R_Seq (R_Class (in_set (lit "*!&#?%:"))) (R_Seq (R_Star dot_class) eol_re).
  (** lexer.rs 23. *)
  Definition comment_to_eol : re := R_Seq (r_char 59) (R_Star dot_class).
  (** lexer.rs 24: the class of letters, digits and signs. *)
  Definition currency_mid (c : char) : bool :=
    is_ascii_uppercase c || is_ascii_digit c || in_set (lit "'._-") c.
  (** lexer.rs 24, 268. *)
  Definition currency_re : re :=
    R_Alt (R_Seq r_upper (R_Star (R_Class currency_mid)))
          (R_Seq (r_char 47)
             (R_Seq (R_Star (R_Class (fun c => is_ascii_digit c || in_set (lit "'._-") c)))
                (R_Seq r_upper (R_Star (R_Class currency_mid))))).
  (** lexer.rs 25: what separates. *)
  Definition date_sep : re := R_Class (in_set (lit "-/")).
  (** lexer.rs 25, 269. *)
  Definition date_re : re :=
    R_Seq (r_rep 4 r_digit) (R_Seq date_sep (R_Seq (r_rep 2 r_digit) (R_Seq date_sep (r_rep 2 r_digit)))).
  (** lexer.rs 26. *)
  Definition time_re : re :=
    R_Seq (R_Seq r_digit (r_opt r_digit))
      (R_Seq (r_char 58) (R_Seq (r_rep 2 r_digit) (r_opt (R_Seq (r_char 58) (r_rep 2 r_digit))))).
  (** lexer.rs 27-28: the second class. *)
  Definition account_rest (c : char) : bool := u_L U c || u_N U c || (c =? 45)%N.
  (** lexer.rs 27. *)
  Definition account_type_re : re :=
    R_Seq (R_Class (fun c => u_Lu U c || u_Lo U c)) (R_Star (R_Class account_rest)).
  (** lexer.rs 28. *)
  Definition account_name_re : re :=
    R_Seq (R_Class (fun c => u_Lu U c || u_Lo U c || u_N U c)) (R_Star (R_Class account_rest)).
  (** lexer.rs 29. *)
  Definition string_literal_re : re :=
    R_Seq (r_char quote)
      (R_Seq (R_Star (R_Alt (R_Class (fun c => negb ((c =? backslash) || (c =? quote))%N))
                            (R_Seq (r_char backslash) dot_class)))
         (r_char quote)).
  (** lexer.rs 30, 270. *)
  Definition number_re : re :=
    R_Seq (r_plus r_digit)
      (R_Seq (R_Star (R_Seq (r_char comma) (r_rep 3 r_digit)))
         (r_opt (R_Seq (r_char 46) (r_plus r_digit)))).
  (** lexer.rs 31-32: the letters and digits. *)
  Definition ascii_alnum (c : char) : bool := is_ascii_uppercase c || is_ascii_lowercase c || is_ascii_digit c.
  (** lexer.rs 31. *)
  Definition tag_or_link_re : re := r_plus (R_Class (fun c => ascii_alnum c || in_set (lit "-_/.") c)).
  (** lexer.rs 32. *)
  Definition key_re : re :=
    R_Seq (R_Class is_ascii_lowercase) (r_plus (R_Class (fun c => ascii_alnum c || in_set (lit "-_") c))).
  (** lexer.rs 16, 158. *)
  Definition blank : re := R_Class (in_set [32%N; 9%N]).

  (** ** The callbacks *)
  (** lexer.rs 260. *)
  Notation item := (result token str).
  (** No code of its own: a callback which always gives a token, as at lexer.rs 41. *)
  Definition give (f : str -> item) : str -> outcome (option item) := fun s => Fine (Some (f s)).
  (** No code of its own: a variant without a callback, as at lexer.rs 34-35. *)
  Definition unit_token (t : token) : str -> outcome (option item) := give (fun _ => Ok t).
  (** logos: a callback which gives a [Result], as at lexer.rs 127-128. *)
  Definition map_ok {A} (f : A -> token) (r : result A str) : item :=
    match r with Ok a => Ok (f a) | Err e => Err e end.

  (** lexer.rs 85-86: the letter of a flag. *)
  Definition flag_of (s : str) : outcome (option item) :=
    bind (unwrap (nth_error s 1)) (fun c =>
    Fine (Some match flag_letter_try_from c with
               | Ok f => Ok (T_Flag f)
               | Err _ => Err (lit "invalid flag letter")
               end)).
  (** lexer.rs 127, 279. *)
  Definition date_of_text (s : str) : outcome (option item) :=
    bind (parse_date s) (fun r => Fine (Some (map_ok T_Date r))).
  (** lexer.rs 130. *)
  Definition time_of_text (s : str) : outcome (option item) :=
    bind (parse_time s) (fun r => Fine (Some (map_ok T_Time r))).

  (** lexer.rs 132-135: the slice without its quotes.  A match has at least
      the two quotes, which are one byte each. *)
  Definition unquoted (s : str) : str := firstn (List.length s - 2) (tl s).

  (** lexer.rs 34-77, 86-125: [#[token(..)]]. *)
  Definition literal (s : string) (t : token) : re * (str -> outcome (option item)) :=
    (r_str (lit s), unit_token t).

  (** lexer.rs 34-172: literals come before regexes, their priority being
      higher than that of any regex which matches the same text. *)
  Definition token_rules : list (re * (str -> outcome (option item))) :=
    [literal "TRUE" T_True; literal "FALSE" T_False; literal "NULL" T_Null;
     literal "|" T_Pipe; literal "@@" T_AtAt; literal "@" T_At;
     literal "{{" T_LcurlCurl; literal "}}" T_RcurlCurl; literal "{" T_Lcurl; literal "}" T_Rcurl;
     literal "," T_Comma; literal "~" T_Tilde; literal "+" T_Plus; literal "-" T_Minus;
     literal "/" T_Slash; literal "(" T_Lparen; literal ")" T_Rparen; literal "#" T_Hash;
     literal "*" T_Asterisk; literal ":" T_Colon;
     literal "!" (T_Flag F_Exclamation); literal "&" (T_Flag F_Ampersand);
     literal "?" (T_Flag F_Question); literal "%" (T_Flag F_Percent);
     literal "txn" (T_Keyword K_Txn); literal "balance" (T_Keyword K_Balance);
     literal "open" (T_Keyword K_Open); literal "close" (T_Keyword K_Close);
     literal "commodity" (T_Keyword K_Commodity); literal "pad" (T_Keyword K_Pad);
     literal "event" (T_Keyword K_Event); literal "query" (T_Keyword K_Query);
     literal "custom" (T_Keyword K_Custom); literal "price" (T_Keyword K_Price);
     literal "note" (T_Keyword K_Note); literal "document" (T_Keyword K_Document);
     literal "pushtag" (T_Keyword K_Pushtag); literal "poptag" (T_Keyword K_Poptag);
     literal "pushmeta" (T_Keyword K_Pushmeta); literal "popmeta" (T_Keyword K_Popmeta);
     literal "option" (T_Keyword K_Option); literal "options" (T_Keyword K_Options);
     literal "plugin" (T_Keyword K_Plugin); literal "include" (T_Keyword K_Include);
     (r_plus blank, fun _ => Fine None);
     (currency_re, give (fun s => Ok (T_Currency s)));
     (R_Seq (r_char 39) r_upper, flag_of);
     (date_re, date_of_text);
     (time_re, time_of_text);
     (R_Seq account_type_re (r_plus (R_Seq (r_char 58) account_name_re)), give (fun s => Ok (T_Account s)));
     (string_literal_re, give (fun s => map_ok T_String (unescape_string_literal (unquoted s))));
     (number_re, give (fun s => map_ok T_Number (parse_number s)));
     (R_Seq (r_char 35) tag_or_link_re, give (fun s => Ok (T_Tag (tl s))));
     (R_Seq (r_char 94) tag_or_link_re, give (fun s => Ok (T_Link (tl s))));
     (key_re, give (fun s => Ok (T_Key s)));
     (R_Seq (r_opt comment_to_eol) (R_Seq eol_re (R_Seq (R_Star ignored_whole_line) (r_plus blank))),
      unit_token T_EolThenIndent);
     (R_Seq (r_opt comment_to_eol) (R_Seq eol_re (R_Star ignored_whole_line)), unit_token T_Eol);
     (R_Seq (r_char 59) (R_Star (R_Class (fun c => negb ((c =? 13) || (c =? 10))%N))), unit_token T_EolComment)].

  (** lexer.rs 266-298: [RecoveryToken], as [Token]s; nothing is skipped. *)
  Definition recovery_rules : list (re * (str -> outcome (option item))) :=
    [literal "-" T_Minus; literal "/" T_Slash; literal ":" T_Colon;
     (date_re, date_of_text);
     (number_re, give (fun s => map_ok T_Number (parse_number s)))].

  (** lexer.rs 728-734: [LexerError::default]. *)
  Definition unrecognized : item := Err (lit "unrecognized token").

  (** [Token::lexer(s).spanned()] and [RecoveryToken::lexer(s).spanned()]. (lexer.rs 319-320.) *)
  Definition raw_lex (s : str) : outcome (option (list (item * range))) :=
    lexed token_rules unrecognized (le_err_len E) (List.length s) 0 s.
  (** lexer.rs 358. *)
  Definition recovery_lex (s : str) : outcome (list (item * range)) :=
    match lexed recovery_rules unrecognized (le_recovery_err_len E) (List.length s) 0 s with
    | Fine (Some l) => Fine l
    | _ => Panic
    end.

  (** lexer.rs 304-324: [lex].  [Fine None] is a lack of fuel. *)
  Definition lex (s : str) : outcome (option (list rtoken)) :=
    match raw_lex s with
    | Panic => Panic
    | Fine None => Fine None
    | Fine (Some items) =>
        match attempt_recovery s recovery_lex items with
        | Panic => Panic
        | Fine None => Fine None
        | Fine (Some toks) =>
            match keyword_then_colon_to_key toks with
            | None => Fine None
            | Some toks => Fine (handle_eol_indent toks (Some (blen s, blen s)))
            end
        end
    end.
End Lex.
