(** * The project's own unit tests of types and parsers, run on the model
    (src/types/tests.rs, src/parsers/tests.rs).  These are tests, not proofs:
    they show that the model gives what the authors of the code expect.  The
    tests of the lexer and of whole ledgers are run by /verif/conform. *)
From Coq Require Import String Ascii.
From Coq Require Import List NArith ZArith Arith Bool.
From Verif Require Import Base Types Options Decimal P_Expr Token Peg Grammar Lexer P_Lexer P_Grammar.
Import ListNotations.
Local Open Scope nat_scope.
Local Notation U := ascii_unicode.
Local Definition ch (s : string) : list N := lit s.

(** types/tests.rs 38-53. *)
Example account_name_1 : account_name_try_from U (lit "MyAccountName") = Ok (lit "MyAccountName").
Proof. now vm_compute. Qed.
Example account_name_2 : account_name_try_from U [] = Err NameEmpty.
Proof. now vm_compute. Qed.
Example account_name_3 : account_name_try_from U (lit "dyAccountName") = Err (NameInitial 100%N).
Proof. now vm_compute. Qed.
Example account_name_4 : account_name_try_from U (lit "My-Sub=Account?Bad") = Err (NameSubsequent (ch "=?")).
Proof. now vm_compute. Qed.

(** types/tests.rs 55-78. *)
Definition good_currency (s : str) : bool :=
  match currency_try_from s with Fine (Ok c) => str_eqb c s | _ => false end.
Example currencies : forallb good_currency
  [lit "GBP"; lit "AAPL"; lit "V"; lit "NT.TO"; lit "TLT_040921C144"; lit "/6J"; lit "/6'J"; lit "/NQH21";
   lit "/NQH21-EXT"; lit "/NQH21_QNEG21C13100"] = true.
Proof. now vm_compute. Qed.
Example currency_1 : currency_try_from (lit "/6.3") = Fine (Err CurrencyMissingLetter).
Proof. now vm_compute. Qed.
Example currency_2 : currency_try_from (lit "CAC_") = Fine (Err (CurrencyFinal 95%N)).
Proof. now vm_compute. Qed.
Example currency_3 : currency_try_from (lit "abc") = Fine (Err (CurrencyInitial 97%N)).
Proof. now vm_compute. Qed.
Example currency_4 : currency_try_from (lit "A?=.-BJ") = Fine (Err (CurrencyIntermediate (ch "?="))).
Proof. now vm_compute. Qed.
Example currency_5 : currency_try_from [] = Fine (Err CurrencyEmpty).
Proof. now vm_compute. Qed.

(** types/tests.rs 80-96. *)
Example tag_1 : tag_link_try_from U (lit "a-b-c-d") = Ok (lit "a-b-c-d").
Proof. now vm_compute. Qed.
Example tag_2 : tag_link_try_from U (lit "a=b?c,d-e") = Err (ch "=?,").
Proof. now vm_compute. Qed.

(** types/tests.rs 98-104. *)
Example value_1 : expr_value_from exact_ops (E_Add (E_Value (mk_dec false 1201 2)) (E_Value (mk_dec false 15 1)))
  = Fine (mk_ev (mk_dec false 1351 2) (E_Add (E_Value (mk_dec false 1201 2)) (E_Value (mk_dec false 15 1)))).
Proof. now vm_compute. Qed.
Example value_2 : expr_value_from exact_ops (E_Div (E_Value (mk_dec false 100 2)) (E_Value (mk_dec false 3 0)))
  = Fine (mk_ev (mk_dec false 33 2) (E_Div (E_Value (mk_dec false 100 2)) (E_Value (mk_dec false 3 0)))).
Proof. now vm_compute. Qed.

(** types/tests.rs 106-116. *)
Example flag_1 : flag_letter_try_from 65%N = Ok (F_Letter 65%N).
Proof. now vm_compute. Qed.
Example flag_2 : flag_letter_try_from 98%N = Err 98%N.
Proof. now vm_compute. Qed.
Example flag_3 : flag_letter_try_from 63%N = Err 63%N.
Proof. now vm_compute. Qed.

(** The tokens of a text, without the last end of line ([bare_lex], lexer.rs
    311-313), as parsers/tests.rs 10-14 makes them. *)
Definition bare (s : str) : input :=
  match lex {| le_unicode := U; le_decimal := ex_from_str; le_unescape := fun s => Ok s;
               le_err_len := fun _ => 0; le_recovery_err_len := fun _ => 0 |} s with
  | Fine (Some l) => mk_input 0 (match rev l with (T_Eol, (a, b)) :: r => if a =? b then rev r else l | _ => l end) (List.length s)
  | _ => mk_input 0 [] 0
  end.
Local Notation po := default_parser_options.
(** [parse_with_state(..).into_result()]: all of the input.
    (src/parsers/tests.rs, throughout; no line of the program itself (parsers.rs 1377).) *)
Definition parsed {A} (p : input -> parser A) (s : string) : option A :=
  let I := bare (lit s) in
  match p I 0 with
  | Got x j _ [] => if j =? List.length (in_tokens I) then Some x else None
  | _ => None
  end.
(** ... or of a part of it. (src/parsers/tests.rs; no line of the program itself (parsers.rs 1377).) *)
Definition parsed_part {A} (p : input -> parser A) (s : string) : option A :=
  match p (bare (lit s)) 0 with Got x _ _ _ => Some x | _ => None end.

Local Definition num (m : N) (s : nat) : expr_value := mk_ev (mk_dec false m s) (E_Value (mk_dec false m s)).

(** parsers/tests.rs 72-89. *)
Local Notation price := (fun I => p_price_annotation P_Grammar.ex_env I).
Example price_1 : parsed price "@ GBP" = Some (PS_Currency (lit "GBP")).
Proof. now vm_compute. Qed.
Example price_2 : parsed price "@ 456.78" = Some (PS_Amount (SE_PerUnit (num 45678 2))).
Proof. now vm_compute. Qed.
Example price_3 : parsed price "@@ 1456.98" = Some (PS_Amount (SE_Total (num 145698 2))).
Proof. now vm_compute. Qed.
Example price_4 : parsed price "@ 456.78 NZD" = Some (PS_CurrencyAmount (SE_PerUnit (num 45678 2)) (lit "NZD")).
Proof. now vm_compute. Qed.
Example price_5 : parsed price "@@ 1456.98 USD" = Some (PS_CurrencyAmount (SE_Total (num 145698 2)) (lit "USD")).
Proof. now vm_compute. Qed.
Example price_6 : parsed price "@" = Some PS_Unspecified.
Proof. now vm_compute. Qed.

(** parsers/tests.rs 91-108. *)
Local Notation camount := (fun I => p_compound_amount P_Grammar.ex_env I).
Example camount_1 : parsed camount "GBP" = Some (CA_Currency (lit "GBP")).
Proof. now vm_compute. Qed.
Example camount_2 : parsed camount "456.78" = Some (CA_Amount (CE_PerUnit (num 45678 2))).
Proof. now vm_compute. Qed.
Example camount_3 : parsed camount "# 1456.98" = Some (CA_Amount (CE_Total (num 145698 2))).
Proof. now vm_compute. Qed.
Example camount_4 : parsed camount "456.78 NZD" = Some (CA_CurrencyAmount (CE_PerUnit (num 45678 2)) (lit "NZD")).
Proof. now vm_compute. Qed.
Example camount_5 : parsed camount "# 1456.98 USD" = Some (CA_CurrencyAmount (CE_Total (num 145698 2)) (lit "USD")).
Proof. now vm_compute. Qed.
Example camount_6 : parsed camount "123 # 1456.98 USD"
  = Some (CA_CurrencyAmount (CE_Both (num 123 0) (num 145698 2)) (lit "USD")).
Proof. now vm_compute. Qed.

(** parsers/tests.rs 110-124. *)
Local Notation cexpr := (fun I => p_compound_expr P_Grammar.ex_env I).
Example cexpr_1 : parsed cexpr "123.45" = Some (CE_PerUnit (num 12345 2)).
Proof. now vm_compute. Qed.
Example cexpr_2 : parsed cexpr "789.45 #" = Some (CE_PerUnit (num 78945 2)).
Proof. now vm_compute. Qed.
Example cexpr_3 : parsed cexpr "# 123.45" = Some (CE_Total (num 12345 2)).
Proof. now vm_compute. Qed.

(** parsers/tests.rs 126-153. *)
Example tags_links_1 : parsed (fun I => p_tags_links P_Grammar.ex_env I) "#a ^b #c-is-my-tag ^d.is_my/link"
  = Some ([mk_spanned (lit "a") (mk_span 0 0 2); mk_spanned (lit "c-is-my-tag") (mk_span 0 6 18)],
          [mk_spanned (lit "b") (mk_span 0 3 5); mk_spanned (lit "d.is_my/link") (mk_span 0 19 32)]).
Proof. now vm_compute. Qed.

(** parsers/tests.rs 155-182. *)
Local Coercion v (n : N) : expr := E_Value (mk_dec false n 0).
Local Notation ex := (fun I => p_expr I).
Local Open Scope N_scope.
Example expr_1 : parsed_part ex "1 + 2 *  3" = Some (E_Add 1 (E_Mul 2 3)).
Proof. now vm_compute. Qed.
Example expr_2 : parsed_part ex "1 + 2 *  3 / 4 - 5" = Some (E_Sub (E_Add 1 (E_Div (E_Mul 2 3) 4)) 5).
Proof. now vm_compute. Qed.
Example expr_3 : parsed_part ex "(1 + 2) *  3 / (4 - 6)"
  = Some (E_Div (E_Mul (E_Paren (E_Add 1 2)) 3) (E_Paren (E_Sub 4 6))).
Proof. now vm_compute. Qed.
Example expr_4 : parsed_part ex "72 / 2 / 3" = Some (E_Div (E_Div 72 2) 3).
Proof. now vm_compute. Qed.
Example expr_5 : parsed_part ex "10 - 1" = Some (E_Sub 10 1).
Proof. now vm_compute. Qed.
Example expr_6 : parsed_part ex "10 - -2" = Some (E_Sub 10 (E_Neg 2)).
Proof. now vm_compute. Qed.
Example expr_7 : parsed_part ex "-6 - 3" = Some (E_Sub (E_Neg 6) 3).
Proof. now vm_compute. Qed.
Example expr_8 : parsed_part ex "6 - -7" = Some (E_Sub 6 (E_Neg 7)).
Proof. now vm_compute. Qed.
Example expr_9 : parsed_part ex "4 + 2 *  3 XYZ" = Some (E_Add 4 (E_Mul 2 3)).
Proof. now vm_compute. Qed.
Example expr_10 : parsed_part ex "4 + 2 *  3 # freddy" = Some (E_Add 4 (E_Mul 2 3)).
Proof. now vm_compute. Qed.
Example expr_11 : parsed_part ex "2.718 #" = Some (E_Value (mk_dec false 2718 3)).
Proof. now vm_compute. Qed.
Example expr_12 : parsed_part ex "3.141 # pi" = Some (E_Value (mk_dec false 3141 3)).
Proof. now vm_compute. Qed.

(** parsers/tests.rs 16-70. *)
Example transaction_1 :
  match parsed (fun I => p_transaction P_Grammar.ex_env I po)
    ("2023-07-03 * ""New World Gardens North East Va ;""" ++ String (ascii_of_nat 10) "")%string with
  | Some d =>
      dir_date d = mk_spanned (mk_date 2023 7 3) (mk_span 0 0 10) /\
      md_tags (item (dir_metadata d)) = [] /\ md_links (item (dir_metadata d)) = [] /\
      dir_variant d = V_Transaction (mk_spanned F_Asterisk (mk_span 0 11 12)) None
        (Some (mk_spanned (lit "New World Gardens North East Va ;") (mk_span 0 13 48))) []
  | None => False
  end.
Proof. vm_compute. repeat split. Qed.
