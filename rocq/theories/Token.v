(** * Token: the tokens (src/lexer.rs 15-176) *)
From Coq Require Import String Ascii.
From Coq Require Import List NArith Arith Bool.
From Verif Require Import Base Types.
Import ListNotations.
Local Open Scope nat_scope.

(** [time::Time] made by [from_hms]. (crate time; lexer.rs 131, 691.) *)
Record time := mk_time { t_hour : N; t_minute : N; t_second : N }.

(** lexer.rs 105-150: the keywords. *)
Inductive keyword :=
| K_Txn | K_Balance | K_Open | K_Close | K_Commodity | K_Pad | K_Event | K_Query
| K_Custom | K_Price | K_Note | K_Document | K_Pushtag | K_Poptag | K_Pushmeta
| K_Popmeta | K_Option | K_Options | K_Plugin | K_Include.

(** lexer.rs 33-175: [Token]; the keywords share one constructor, a
    [LexerError] is its message. *)
Inductive token :=
| T_True | T_False | T_Null
| T_Currency (s : str)
| T_Pipe | T_AtAt | T_At | T_LcurlCurl | T_RcurlCurl | T_Lcurl | T_Rcurl
| T_Comma | T_Tilde | T_Plus | T_Minus | T_Slash | T_Lparen | T_Rparen
| T_Hash | T_Asterisk | T_Colon
| T_Flag (f : flag)
| T_Keyword (k : keyword)
| T_Date (d : date)
| T_Time (t : time)
| T_Account (s : str)
| T_String (s : str)
| T_Number (d : decimal)
| T_Tag (s : str)
| T_Link (s : str)
| T_Key (s : str)
| T_EolThenIndent | T_Eol | T_EolComment | T_Indent
| T_Error (message : str).

(** lexer.rs 178-182: [is_eol]. *)
Definition is_eol (t : token) : bool :=
  match t with T_EolThenIndent | T_Eol | T_EolComment => true | _ => false end.

(** [Range<usize>]: start and end. (std; lexer.rs 8, 259.) *)
Notation range := (nat * nat)%type.
(** lexer.rs 258-259: [RangedToken]. *)
Notation rtoken := (token * (nat * nat))%type.

(** The text of each keyword, as in its [#[token("...")]]. (lexer.rs 86-125.) *)
Definition keyword_text (k : keyword) : str :=
  match k with
  | K_Txn => lit "txn"
  | K_Balance => lit "balance"
  | K_Open => lit "open"
  | K_Close => lit "close"
  | K_Commodity => lit "commodity"
  | K_Pad => lit "pad"
  | K_Event => lit "event"
  | K_Query => lit "query"
  | K_Custom => lit "custom"
  | K_Price => lit "price"
  | K_Note => lit "note"
  | K_Document => lit "document"
  | K_Pushtag => lit "pushtag"
  | K_Poptag => lit "poptag"
  | K_Pushmeta => lit "pushmeta"
  | K_Popmeta => lit "popmeta"
  | K_Option => lit "option"
  | K_Options => lit "options"
  | K_Plugin => lit "plugin"
  | K_Include => lit "include"
  end.
