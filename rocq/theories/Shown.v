(** * Shown: how tokens are displayed (src/lexer.rs 185-256)

    This is how a syntax error names the token which was found; the error itself
    is in [MissMessages]. *)
From Coq Require Import String Ascii.
From Coq Require Import List NArith.
From Verif Require Import Base Types Token Display.
Import ListNotations.

Section Shown.
  (** [Display] of a [Decimal] and a [Date], and of a [time::Time]. *)
  Context (D : display_env) (show_time : time -> str).

  (** lexer.rs 737-741: [LexerError], which is its message. *)
  Definition display_lexer_error (message : str) : str := message.

  (** lexer.rs 185-256: [Token]. *)
  Definition display_token (t : token) : str :=
    match t with
    | T_True => lit "TRUE"
    | T_False => lit "FALSE"
    | T_Null => lit "NULL"
    | T_Currency s => s
    | T_Pipe => lit "|"
    | T_AtAt => lit "@@"
    | T_At => lit "@"
    | T_LcurlCurl => lit "{{"
    | T_RcurlCurl => lit "}}"
    | T_Lcurl => lit "{"
    | T_Rcurl => lit "}"
    | T_Comma => lit ","
    | T_Tilde => lit "~"
    | T_Plus => lit "+"
    | T_Minus => lit "-"
    | T_Slash => lit "/"
    | T_Lparen => lit "("
    | T_Rparen => lit ")"
    | T_Hash => lit "#"
    | T_Asterisk => lit "*"
    | T_Colon => lit ":"
    | T_Flag f => display_flag f
    | T_Keyword K_Txn => lit "txn"
    | T_Keyword K_Balance => lit "balance"
    | T_Keyword K_Open => lit "open"
    | T_Keyword K_Close => lit "close"
    | T_Keyword K_Commodity => lit "commodity"
    | T_Keyword K_Pad => lit "pad"
    | T_Keyword K_Event => lit "event"
    | T_Keyword K_Query => lit "query"
    | T_Keyword K_Custom => lit "custom"
    | T_Keyword K_Price => lit "price"
    | T_Keyword K_Note => lit "note"
    | T_Keyword K_Document => lit "document"
    | T_Keyword K_Pushtag => lit "pushtag"
    | T_Keyword K_Poptag => lit "poptag"
    | T_Keyword K_Pushmeta => lit "pushmeta"
    | T_Keyword K_Popmeta => lit "popmeta"
    | T_Keyword K_Option => lit "option"
    | T_Keyword K_Options => lit "options"
    | T_Keyword K_Plugin => lit "plugin"
    | T_Keyword K_Include => lit "include"
    | T_Date d => de_date D d
    | T_Time t => show_time t
    | T_Account s => s
    | T_String s => [34%N] ++ s ++ [34%N]
    | T_Number d => de_decimal D d
    | T_Tag s => s
    | T_Link s => s
    | T_Key s => s
    | T_EolThenIndent => lit "\n    "
    | T_Eol => lit "\n"
    | T_EolComment => lit "; ..."
    | T_Indent => lit "    "
    | T_Error e => lit "ERROR " ++ display_lexer_error e
    end.
End Shown.
