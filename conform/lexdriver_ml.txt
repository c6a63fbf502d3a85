open Model
open Uni
let rec p2i = function XH -> 1 | XO p -> 2*p2i p | XI p -> 2*p2i p+1
let n2i = function N0 -> 0 | Npos p -> p2i p
let rec i2p i = if i=1 then XH else if i land 1 = 0 then XO (i2p (i/2)) else XI (i2p (i/2))
let i2n i = if i=0 then N0 else Npos (i2p i)
(* big decimal string of N *)
let n2s n = match n with N0 -> "0" | Npos p ->
  let rec bits p = match p with XH -> [1] | XO p -> 0::bits p | XI p -> 1::bits p in
  let ds = ref [0] in
  List.iter (fun b -> let carry = ref b in ds := List.map (fun d -> let x = d*2 + !carry in carry := x/10; x mod 10) !ds; if !carry>0 then ds := !ds @ [!carry]) (List.rev (bits p));
  String.concat "" (List.rev_map string_of_int !ds)
let decode s =
  let n = String.length s in
  let rec go i acc = if i >= n then List.rev acc else
    let c = Char.code s.[i] in let k j = Char.code s.[i+j] land 63 in
    if c < 128 then go (i+1) (i2n c::acc)
    else if c < 0xE0 then go (i+2) (i2n (((c land 31) lsl 6) lor k 1)::acc)
    else if c < 0xF0 then go (i+3) (i2n (((c land 15) lsl 12) lor (k 1 lsl 6) lor k 2)::acc)
    else go (i+4) (i2n (((c land 7) lsl 18) lor (k 1 lsl 12) lor (k 2 lsl 6) lor k 3)::acc) in go 0 []
let encode l = let b = Buffer.create 16 in List.iter (fun n -> Buffer.add_utf_8_uchar b (Uchar.of_int (n2i n))) l; Buffer.contents b
let mem t n = let c = n2i n in let lo = ref 0 and hi = ref (Array.length t - 1) and r = ref false in
  while not !r && !lo <= !hi do let m = (!lo + !hi)/2 in let (a,b) = t.(m) in if c < a then hi := m-1 else if c > b then lo := m+1 else r := true done; !r
let u = { u_alphabetic = mem t_alphabetic; u_numeric = mem t_numeric; u_L = mem t_l; u_Lu = mem t_lu; u_Lo = mem t_lo; u_N = mem t_n_; u_Nd = mem t_nd }
let unesc l = 
  let rec go = function [] -> Ok [] | c::r when n2i c = 92 -> (match r with [] -> Err (decode "incomplete") | d::r' ->
     let k x = (match go r' with Ok l -> Ok (i2n x::l) | e -> e) in
     (match Char.chr (n2i d land 127) with 'n' -> k 10 | 't' -> k 9 | 'r' -> k 13 | 'b' -> k 8 | 'f' -> k 12 | '0' -> k 0 | '\\' -> k 92 | '"' -> k 34 | '\'' -> k 39 | '/' -> k 47 | _ -> Err (decode "invalid char")))
   | c::r -> (match go r with Ok l -> Ok (c::l) | e -> e) in go l
let jstr s = let b = Buffer.create 16 in Buffer.add_char b '"'; String.iter (fun c -> match c with '"' -> Buffer.add_string b "\\\"" | '\\' -> Buffer.add_string b "\\\\" | c when Char.code c < 32 -> Buffer.add_string b (Printf.sprintf "\\u%04x" (Char.code c)) | c -> Buffer.add_char b c) s; Buffer.add_char b '"'; Buffer.contents b
let js l = jstr (encode l)
let ja l = "[" ^ String.concat "," l ^ "]"
let jo l = "{" ^ String.concat "," (List.map (fun (k,v) -> jstr k ^ ":" ^ v) l) ^ "}"
let opt f = function None -> "null" | Some x -> f x
let sp f x = f x.item
let dec d = ja [if d.dec_neg then "true" else "false"; n2s d.dec_mant; string_of_int d.dec_scale]
let date d = ja [n2s d.d_year; n2s d.d_month; n2s d.d_day]
let ev e = dec e.ev_value
let acc a = js a.acc_name
let acct_full names a = js a.acc_name
let atype = function Assets -> "Assets" | Liabilities -> "Liabilities" | Equity -> "Equity" | Income -> "Income" | Expenses -> "Expenses"
let account a = ja [jstr (atype a.acc_type); js a.acc_name]
let amount a = jo ["number", sp ev a.am_number; "currency", sp js a.am_currency]
let flag = function F_Asterisk -> jstr "*" | F_Exclamation -> jstr "!" | F_Ampersand -> jstr "&" | F_Hash -> jstr "#" | F_Question -> jstr "?" | F_Percent -> jstr "%" | F_Letter c -> js [c]
let bool b = if b then "true" else "false"
let sv = function SV_String s -> jo ["text", js s] | SV_Currency c -> jo ["currency", js c] | SV_Account a -> jo ["account", account a] | SV_Tag t -> jo ["tag", js t] | SV_Link t -> jo ["link", js t] | SV_Date d -> jo ["date", date d] | SV_Bool b -> jo ["boolean", bool b] | SV_Null -> jo [] | SV_Expr e -> jo ["number", ev e]
let mv = function MV_Simple v -> sv v | MV_Amount a -> jo ["amount", amount a]
let md m = jo ["kv", ja (List.map (fun (k,v) -> ja [sp js k; sp mv v]) m.md_key_values); "tags", ja (List.map (sp js) m.md_tags); "links", ja (List.map (sp js) m.md_links)]
let cost c = jo ["per_unit", opt (sp ev) c.cs_per_unit; "total", opt (sp ev) c.cs_total; "currency", opt (sp js) c.cs_currency; "date", opt (sp date) c.cs_date; "label", opt (sp js) c.cs_label; "merge", bool c.cs_merge]
let price p = let r (c,a,t) = jo ["currency", c; "number", a; "is_total", bool t] in
  let se = function SE_PerUnit v -> (ev v,false) | SE_Total v -> (ev v,true) in
  match p with PS_Unspecified -> r ("null","null",false) | PS_Currency c -> r (js c,"null",false) | PS_Amount e -> let (a,t)=se e in r ("null",a,t) | PS_CurrencyAmount (e,c) -> let (a,t)=se e in r (js c,a,t)
let posting p = jo ["flag", opt (sp flag) p.po_flag; "account", sp account p.po_account; "amount", opt (sp ev) p.po_amount; "currency", opt (sp js) p.po_currency; "cost", opt (sp cost) p.po_cost_spec; "price", opt (sp price) p.po_price; "meta", sp md p.po_metadata]
let booking = function Strict -> jstr "STRICT" | StrictWithSize -> jstr "STRICT_WITH_SIZE" | NoBooking -> jstr "NONE" | Average -> jstr "AVERAGE" | Fifo -> jstr "FIFO" | Lifo -> jstr "LIFO" | Hifo -> jstr "HIFO"
let variant = function
 | V_Transaction (f,p,n,ps) -> jo ["transaction", jo ["flag", sp flag f; "payee", opt (sp js) p; "narration", opt (sp js) n; "postings", ja (List.map (sp posting) ps)]]
 | V_Price (c,a) -> jo ["price", jo ["currency", sp js c; "amount", sp amount a]]
 | V_Balance (a,t) -> jo ["balance", jo ["account", sp account a; "amount", sp amount t.item.at_amount; "tolerance", opt (sp dec) t.item.at_tolerance]]
 | V_Open (a,cs,b) -> jo ["open", jo ["account", sp account a; "currencies", ja (List.map (sp js) cs); "booking", opt (sp booking) b]]
 | V_Close a -> jo ["close", jo ["account", sp account a]]
 | V_Commodity c -> jo ["commodity", jo ["currency", sp js c]]
 | V_Pad (a,b) -> jo ["pad", jo ["account", sp account a; "source_account", sp account b]]
 | V_Document (a,p) -> jo ["document", jo ["account", sp account a; "filename", sp js p]]
 | V_Note (a,p) -> jo ["note", jo ["account", sp account a; "comment", sp js p]]
 | V_Event (a,p) -> jo ["event", jo ["type", sp js a; "description", sp js p]]
 | V_Query (a,p) -> jo ["query", jo ["name", sp js a; "query_string", sp js p]]
 | V_Custom (a,vs) -> jo ["custom", jo ["type", sp js a; "values", ja (List.map (sp mv) vs)]]
let directive d = jo ["date", sp date d.dir_date; "meta", sp md d.dir_metadata; "v", variant d.dir_variant]
let sd f x = f x.sd_spanned.item
let options o = jo ["title", opt (sd js) o.os_title;
 "account_previous_balances", opt (sd js) (o.os_subaccount PreviousBalances); "account_previous_earnings", opt (sd js) (o.os_subaccount PreviousEarnings);
 "account_previous_conversions", opt (sd js) (o.os_subaccount PreviousConversions); "account_current_earnings", opt (sd js) (o.os_subaccount CurrentEarnings);
 "account_current_conversions", opt (sd js) (o.os_subaccount CurrentConversions); "account_unrealized_gains", opt (sd js) (o.os_subaccount UnrealizedGains); "account_rounding", opt (sd js) (o.os_subaccount Rounding);
 "conversion_currency", opt (sd js) o.os_conversion_currency;
 "inferred_tolerance_default", ja (List.map (fun (c,(d,_)) -> ja [(match c with OneCurrency c -> js c | AnyCurrency -> jstr "*"); dec d]) o.os_tolerance_default);
 "inferred_tolerance_multiplier", opt (sd dec) o.os_tolerance_multiplier; "infer_tolerance_from_cost", opt (sd bool) o.os_tolerance_from_cost;
 "documents", ja (List.map (fun (p,_) -> js p) o.os_documents); "operating_currency", ja (List.map (fun (p,_) -> js p) o.os_operating_currency);
 "render_commas", opt (sd bool) o.os_render_commas; "booking_method", opt (sd booking) o.os_booking_method;
 "plugin_processing_mode", opt (sd (function ModeDefault -> jstr "DEFAULT" | ModeRaw -> jstr "RAW")) o.os_plugin_mode;
 "names", ja (List.map js o.os_parser_options.po_names.name_by_type)]
let problem = function DuplicateTag t -> "DuplicateTag "^encode t | DuplicateLink t -> "DuplicateLink "^encode t | DuplicateKey t -> "DuplicateKey "^encode t | DuplicateCurrency t -> "DuplicateCurrency "^encode t
 | UnknownOption -> "UnknownOption" | BadOptionValue _ -> "BadOptionValue" | NameInUse _ -> "NameInUse" | InvalidPushmeta -> "InvalidPushmeta" | InvalidPopmeta -> "InvalidPopmeta" | InvalidPushtag -> "InvalidPushtag" | InvalidPoptag -> "InvalidPoptag"
 | IncludeNoSuchFile -> "IncludeNoSuchFile" | IncludeUnreadable _ -> "IncludeUnreadable" | IncludeGlobError _ -> "IncludeGlobError" | DuplicateInclude _ -> "DuplicateInclude" | DuplicateOption -> "DuplicateOption" | DuplicateOptionValue -> "DuplicateOptionValue" | StringTooLong _ -> "StringTooLong"
let glob p = let p = encode p in
  if String.contains p '*' then begin
    let d = Filename.dirname p and b = Filename.basename p in
    let re = Str.regexp ("^" ^ String.concat ".*" (List.map Str.quote (String.split_on_char '*' b)) ^ "$") in
    let fs = (try Array.to_list (Sys.readdir d) with _ -> []) in
    Ok (List.map (fun f -> G_Ok (decode (Filename.concat d f))) (List.sort compare (List.filter (fun f -> Str.string_match re f 0) fs)))
  end else Ok (if Sys.file_exists p then [G_Ok (decode p)] else [])
let realpath p = if not (Sys.file_exists p) then failwith "x" else let rec norm acc = function [] -> List.rev acc | (""|".")::r -> norm acc r | ".."::r -> norm (match acc with [] -> [] | _::t -> t) r | x::r -> norm (x::acc) r in "/" ^ String.concat "/" (norm [] (String.split_on_char '/' p))
let kw = function K_Txn -> "Txn" | K_Balance -> "Balance" | K_Open -> "Open" | K_Close -> "Close" | K_Commodity -> "Commodity" | K_Pad -> "Pad" | K_Event -> "Event" | K_Query -> "Query" | K_Custom -> "Custom" | K_Price -> "Price" | K_Note -> "Note" | K_Document -> "Document" | K_Pushtag -> "Pushtag" | K_Poptag -> "Poptag" | K_Pushmeta -> "Pushmeta" | K_Popmeta -> "Popmeta" | K_Option -> "Option" | K_Options -> "Options" | K_Plugin -> "Plugin" | K_Include -> "Include"
let s1 k s = ja [jstr k; js s]
let tok = function
 | T_True -> jstr "True" | T_False -> jstr "False" | T_Null -> jstr "Null" | T_Currency s -> s1 "Currency" s
 | T_Pipe -> jstr "Pipe" | T_AtAt -> jstr "AtAt" | T_At -> jstr "At" | T_LcurlCurl -> jstr "LcurlCurl" | T_RcurlCurl -> jstr "RcurlCurl" | T_Lcurl -> jstr "Lcurl" | T_Rcurl -> jstr "Rcurl"
 | T_Comma -> jstr "Comma" | T_Tilde -> jstr "Tilde" | T_Plus -> jstr "Plus" | T_Minus -> jstr "Minus" | T_Slash -> jstr "Slash" | T_Lparen -> jstr "Lparen" | T_Rparen -> jstr "Rparen"
 | T_Hash -> jstr "Hash" | T_Asterisk -> jstr "Asterisk" | T_Colon -> jstr "Colon" | T_Flag f -> ja [jstr "Flag"; flag f] | T_Keyword k -> jstr (kw k)
 | T_Date d -> ja [jstr "Date"; date d] | T_Time t -> ja [jstr "Time"; n2s t.t_hour; n2s t.t_minute; n2s t.t_second]
 | T_Account s -> s1 "Account" s | T_String s -> s1 "String" s | T_Number d -> ja [jstr "Number"; dec d] | T_Tag s -> s1 "Tag" s | T_Link s -> s1 "Link" s | T_Key s -> s1 "Key" s
 | T_EolThenIndent -> jstr "EolThenIndent" | T_Eol -> jstr "Eol" | T_EolComment -> jstr "EolComment" | T_Indent -> jstr "Indent" | T_Error m -> s1 "Error" m
let read_file p = let ic = open_in_bin p in let s = really_input_string ic (in_channel_length ic) in close_in ic; s
let () = print_string (match lex_model u unesc (decode (read_file Sys.argv.(1))) with
  | Fine (Some l) -> ja (List.map (fun (t,_) -> tok t) l) | Fine None -> jstr "loop" | Panic -> jstr "panic")
