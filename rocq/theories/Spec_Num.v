(** Integer numerals, independent of the functions in Model_Num. *)
From Coq Require Import ZArith List Bool.
Import ListNotations.
Open Scope Z_scope.

(** [is_digit r c d]: character [c] stands for digit [d] in radix [r] *)
Inductive is_digit (r : Z) : Z -> Z -> Prop :=
| dig_dec d : 0 <= d < r -> d < 10 -> is_digit r (48 + d) d
| dig_low d : 0 <= d < r -> 10 <= d < 36 -> is_digit r (97 + (d - 10)) d
| dig_up d : 0 <= d < r -> 10 <= d < 36 -> is_digit r (65 + (d - 10)) d.

(** [natural r s n]: the non-empty digit string [s] denotes [n] in radix [r] *)
Inductive natural (r : Z) : list Z -> Z -> Prop :=
| nat_one c d : is_digit r c d -> natural r [c] d
| nat_snoc s c n d : natural r s n -> is_digit r c d -> natural r (s ++ [c]) (n * r + d).

(** optional sign *)
Inductive numeral (r : Z) : list Z -> Z -> Prop :=
| num_pos s n : natural r s n -> numeral r s n
| num_plus s n : natural r s n -> numeral r (43 :: s) n
| num_minus s n : natural r s n -> numeral r (45 :: s) (- n).

(** What the C function [strtol] accepts beyond numerals: white space in front and,
    in radix 16, "0x" or "0X" before the digits. *)
Inductive c_body (r : Z) : list Z -> Z -> Prop :=
| cb_plain s n : natural r s n -> c_body r s n
| cb_hex s n x : r = 16 -> x = 120 \/ x = 88 -> natural 16 s n -> c_body r (48 :: x :: s) n.
Inductive c_numeral (r : Z) : list Z -> Z -> Prop :=
| cn_pos s n : c_body r s n -> c_numeral r s n
| cn_plus s n : c_body r s n -> c_numeral r (43 :: s) n
| cn_minus s n : c_body r s n -> c_numeral r (45 :: s) (- n).
Definition c_integer (r : Z) (s : list Z) (n : Z) : Prop :=
  exists sp t, s = sp ++ t /\ Forall (fun c => In c [9; 10; 11; 12; 13; 32]) sp /\ c_numeral r t n.

(** The radix marks of the report (after the sharp sign), and the effective radix of a
    sequence of marks: the last radix mark wins; [e] leaves the radix alone. *)
Inductive radix_mark : Z -> Z -> Prop :=
| rm_b : radix_mark 98 2 | rm_B : radix_mark 66 2
| rm_o : radix_mark 111 8 | rm_O : radix_mark 79 8
| rm_d : radix_mark 100 10 | rm_D : radix_mark 68 10
| rm_x : radix_mark 120 16 | rm_X : radix_mark 88 16.
Inductive marks (r0 : Z) : list Z -> Z -> Prop :=
| mk_none : marks r0 [] r0
| mk_radix p r x r' : marks r0 p r -> radix_mark x r' -> marks r0 (p ++ [35; x]) r'
| mk_exact p r x : marks r0 p r -> x = 101 \/ x = 69 -> marks r0 (p ++ [35; x]) r.
