(** * The texts that Python's [int] accepts, and the numbers they stand for
    (language reference, "integer literals" in base ten, and [str.strip]). *)
From Coq Require Import List ZArith String Ascii.
Import ListNotations.
Local Open Scope string_scope.

Definition ten_digits : list ascii := ["0"; "1"; "2"; "3"; "4"; "5"; "6"; "7"; "8"; "9"]%char.

(** Tab, line feed, vertical tab, form feed, carriage return, the four separators, blank *)
Definition blanks : list ascii := map ascii_of_nat [9; 10; 11; 12; 13; 28; 29; 30; 31; 32].

Definition blank_text (s : string) : Prop := forall c, In c (list_ascii_of_string s) -> In c blanks.

(** Digits, with at most one underscore between two of them *)
Inductive decimal : string -> Z -> Prop :=
| one_digit n c : nth_error ten_digits n = Some c -> decimal (String c "") (Z.of_nat n)
| next_digit s z n c : decimal s z -> nth_error ten_digits n = Some c -> decimal (s ++ String c "") (10 * z + Z.of_nat n)
| underscore s z n c : decimal s z -> nth_error ten_digits n = Some c -> decimal (s ++ String "_" (String c "")) (10 * z + Z.of_nat n).

(** Blanks, perhaps a sign, the number, blanks *)
Definition int_text (s : string) (z : Z) : Prop := exists before sign digits after n,
  s = before ++ sign ++ digits ++ after /\ blank_text before /\ blank_text after /\ decimal digits n /\
  ((sign = "" \/ sign = "+") /\ z = n \/ sign = "-" /\ z = Z.opp n).
