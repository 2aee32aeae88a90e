(** C11: printing and parsing exact numbers. *)
From Coq Require Import ZArith List Bool Lia.
From Verif Require Import Base Model_Sym Model_Num Spec_Num Proofs_Num.
Import ListNotations.
Open Scope Z_scope.

(** For every radix and every number the printer may be given (any fixnum width of the
    libraries is below 2^33): printing does not overrun the 35-byte buffer, and the
    text is the digits of the number, with a minus sign iff it is negative. *)
Theorem C11_printing :
  forall num radix, 2 <= radix <= 36 -> -8589934592 < num < 8589934592 ->
  exists s, fixnum_to_string 33 num radix = Some (Val s) /\ (length s <= 34)%nat /\
    exists ds, natural radix ds (Z.abs num) /\ s = (if num <? 0 then 45 :: ds else ds).
Proof. exact print_ok. Qed.
Print Assumptions C11_printing.
Example C11_printing_ex :
  fixnum_to_string 33 (-8388608) 2 = Some (Val (45 :: 49 :: repeat 48 23)) /\
  fixnum_to_string 33 (-255) 16 = Some (Val [45; 102; 102]) /\ fixnum_to_string 33 0 10 = Some (Val [48]) /\
  fixnum_to_string 40 (- 2 ^ 34) 2 = Some UB.
Proof. vm_compute. auto. Qed.

(** reading back what was printed, by string->fixnum (0.sf and the libraries) and by
    strtofxfl (string->number of the libraries); [h] is 2^(FIXNUM_BIT-1) *)
Theorem C11_read_print_roundtrip :
  forall h num radix, 0 < h <= 536870912 -> 2 <= radix <= 36 -> - h <= num <= h - 1 ->
  exists s, fixnum_to_string 33 num radix = Some (Val s) /\
    string_to_fixnum h s radix = Some num /\ strtofxfl h s radix = Some (SxFix num).
Proof. exact (fun h num radix Hh Hr Hn => roundtrip h ltac:(lia) num radix Hr ltac:(lia) Hn). Qed.
Print Assumptions C11_read_print_roundtrip.
Example C11_read_print_roundtrip_ex :
  string_to_fixnum 8388608 [45; 122; 122] 36 = Some (-1295) /\ strtofxfl 8388608 [45; 122; 122] 36 = Some (SxFix (-1295)).
Proof. vm_compute. auto. Qed.

(** string->fixnum exactly: the texts it accepts are the C integers of the radix
    whose value is a fixnum, and it returns that value; the four prefixes override
    the radix *)
Theorem C11_string_to_fixnum_exactly :
  forall h r s n, 0 < h <= 4611686018427387904 -> 2 <= r <= 36 ->
  (radix_prefix s = None -> (string_to_fixnum h s r = Some n <-> c_integer r s n /\ - h <= n <= h - 1)) /\
  (forall p, radix_prefix s = Some p -> (string_to_fixnum h s r = Some n <-> c_integer p (skipn 2 s) n /\ - h <= n <= h - 1)).
Proof.
  intros h r s n Hh Hr. split.
  - exact (string_to_fixnum_iff h Hh r s n Hr).
  - intros p P. refine (string_to_fixnum_prefixed h Hh p s _ n _ P eq_refl r).
    unfold radix_prefix in P. destruct s as [|c [|x s]]; try discriminate. destruct (c =? 35); [|discriminate].
    repeat match type of P with (if ?b then _ else _) = _ => destruct b; [injection P as <-; lia|] end. discriminate.
Qed.
Print Assumptions C11_string_to_fixnum_exactly.
Example C11_string_to_fixnum_ex :
  string_to_fixnum 8388608 [35; 120; 102; 70] 10 = Some 255 /\ string_to_fixnum 8388608 [43; 49; 50] 10 = Some 12 /\
  string_to_fixnum 8388608 [56; 51; 56; 56; 54; 48; 56] 10 = None /\ string_to_fixnum 8388608 [49; 50; 97] 10 = None /\
  string_to_fixnum 8388608 [45] 10 = None.
Proof. vm_compute. auto. Qed.

(** every Scheme numeral in range is accepted with its value, and numbers out of range
    are refused *)
Theorem C11_numerals_are_read :
  forall h r s n, 0 < h <= 4611686018427387904 -> 2 <= r <= 36 -> numeral r s n -> - h <= n <= h - 1 ->
  string_to_fixnum h s r = Some n.
Proof.
  intros h r s n Hh Hr Hs Hn. apply (string_to_fixnum_iff h Hh r s n Hr (numeral_no_prefix r s n Hr Hs)).
  split; [now apply numeral_c|exact Hn].
Qed.
Print Assumptions C11_numerals_are_read.
(** radix marks: [#b #o #d #x] (one for string->fixnum; any sequence, mixed with [#e], for
    string->number of the libraries, the last one deciding) *)
Theorem C11_marked_numerals_are_read :
  forall h r0 t n, 0 < h <= 4611686018427387904 -> 2 <= r0 <= 36 -> - h <= n <= h - 1 ->
  (forall x r, radix_mark x r -> numeral r t n -> string_to_fixnum h (35 :: x :: t) r0 = Some n) /\
  (forall p r, marks r0 p r -> numeral r t n -> strtofxfl h (p ++ t) r0 = Some (SxFix n)).
Proof.
  exact (fun h r0 t n Hh Hr0 Hn => conj (fun x r Hx Ht => string_to_fixnum_marked h Hh r0 x r t n Hx Ht Hn)
          (fun p r Hp Ht => strtofxfl_marked h Hh r0 p r t n Hr0 Hp Ht Hn)).
Qed.
Print Assumptions C11_marked_numerals_are_read.
Example C11_marked_ex :
  marks 10 [35; 120; 35; 101; 35; 98] 2 /\ numeral 2 [45; 49; 49] (-3) /\
  strtofxfl 8388608 [35; 120; 35; 101; 35; 98; 45; 49; 49] 10 = Some (SxFix (-3)).
Proof.
  split; [|split; [|reflexivity]].
  - apply (mk_radix 10 [35; 120; 35; 101] 16); [|constructor]. apply (mk_exact 10 [35; 120] 16); [|auto].
    apply (mk_radix 10 [] 10); constructor.
  - apply (num_minus 2 [49; 49] 3). apply (nat_snoc 2 [49] 49 1 1); [apply nat_one|]; apply (dig_dec 2 1); lia.
Qed.
Theorem C11_result_in_range :
  forall h s r n, 0 < h <= 4611686018427387904 ->
  (strtofxfl h s r = Some (SxFix n) -> - h <= n <= h - 1) /\ strtofxfl h s r <> None.
Proof. exact (fun h s r n Hh => conj (strtofxfl_range h s r n) (strtofxfl_total h s r)). Qed.
Print Assumptions C11_result_in_range.

(** The converse claim, that only Scheme numerals are accepted, is false: white space
    in front and C's hexadecimal prefix are accepted too. *)
Theorem C11_only_numerals_refuted :
  exists r s n, string_to_fixnum 8388608 s r = Some n /\ forall m, ~ numeral r s m.
Proof.
  exists 10, [32; 49], 1. split; [reflexivity|]. intros m H.
  destruct (numeral_head 10 [32; 49] m ltac:(lia) H) as (c & s' & E & Hs & _). injection E as <- <-. discriminate.
Qed.
Print Assumptions C11_only_numerals_refuted.
Theorem C11_only_numerals_libl_refuted :
  exists r s n, strtofxfl 536870912 s r = Some (SxFix n) /\ forall m, ~ numeral r s m.
Proof.
  exists 16, [48; 120; 49], 1. split; [reflexivity|]. intros m H. 
  inversion H as [s' n' Hm|s' n' Hm|s' n' Hm]. apply natural_val in Hm; [|lia]. destruct Hm as (_ & A & _).
  pose proof (Forall_inv (Forall_inv_tail A)) as D. discriminate D.
Qed.
Print Assumptions C11_only_numerals_libl_refuted.
