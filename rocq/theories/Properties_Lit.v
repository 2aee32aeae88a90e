(** C22: integer literals. *)
From Coq Require Import ZArith List Bool Lia String.
From Verif Require Import Base Spec_Num Model_Lit Spec_Lit Proofs_Lit.
Import ListNotations.
Open Scope Z_scope.

(** A signed numeral (upper or lower case, with any number of leading zeros), followed by the end
    of the input or by a character that is no digit, is read whole; the datum has the sign, the
    normal digits and the radix of the number, and its width field is the least of 8, 16, ..., 64
    whose two's complement range contains the value, 'big when there is none. *)
Theorem C22_literal_width :
  forall r s v rest, In r [2; 8; 10; 16] -> numeral r s v ->
  (forall c rest' d, rest = c :: rest' -> ~ is_digit r c d) ->
  exists d n, subread_integer r (s ++ rest) = (Some d, rest) /\
    natural r (id_digits d) n /\ normal (id_digits d) /\ v = (if id_neg d then - n else n) /\
    id_radix d = r /\ least_width v (id_width d).
Proof.
  intros r s v rest Hr Hs Hrest. apply (ndf_iff r rest (radix_rok r Hr)) in Hrest.
  destruct (read_ok r s v rest Hr Hs Hrest) as (d & E & n & H). exists d, n. exact (conj E H).
Qed.
Print Assumptions C22_literal_width.
Example C22_literal_width_ex :
  subread_integer 10 (codes "-0128)"%string) = (Some (mkint (Some 8) true (codes "128"%string) 10), [41]) /\
  subread_integer 10 (codes "128"%string) = (Some (mkint (Some 16) false (codes "128"%string) 10), []) /\
  subread_integer 16 (codes "7FffFF"%string) = (Some (mkint (Some 24) false (codes "7fffff"%string) 16), []) /\
  subread_integer 10 (codes "9223372036854775808"%string) = (Some (mkint None false (codes "9223372036854775808"%string) 10), []) /\
  numeral 10 [45; 48; 49] (-1).
Proof.
  repeat split; try (vm_compute; reflexivity).
  apply (num_minus 10 [48; 49] 1), (nat_snoc 10 [48] 49 0 1); [apply nat_one, (dig_dec 10 0)|apply (dig_dec 10 1)]; lia.
Qed.

(** Conversely the reader accepts nothing else: a datum comes from a numeral at the front of the
    input, and the error "no digits" only from an input with no digit after the optional sign. *)
Theorem C22_literal_only_numerals :
  forall r i rest, In r [2; 8; 10; 16] ->
  (forall d, subread_integer r i = (Some d, rest) ->
     exists s v n, i = s ++ rest /\ numeral r s v /\ natural r (id_digits d) n /\ v = (if id_neg d then - n else n) /\
       least_width v (id_width d)) /\
  (subread_integer r i = (None, rest) ->
     exists sg, (sg = [] \/ sg = [43] \/ sg = [45]) /\ i = sg ++ rest /\ forall c rest' d, rest = c :: rest' -> ~ is_digit r c d).
Proof.
  intros r i rest Hr. split.
  - intros d E. destruct (read_only r i d rest Hr E) as (s & v & Ei & Hs & _ & n & H1 & _ & H2 & _ & H3).
    exists s, v, n. auto.
  - intros E. destruct (read_none r i rest Hr E) as (sg & Hsg & Ei & H). exists sg. split; [exact Hsg|]. split; [exact Ei|].
    exact (proj2 (ndf_iff r rest (radix_rok r Hr)) H).
Qed.
Print Assumptions C22_literal_only_numerals.
Example C22_literal_only_numerals_ex :
  subread_integer 8 (codes "-9"%string) = (None, [57]) /\ subread_integer 8 (codes "+178"%string) = (Some (mkint (Some 8) false (codes "17"%string) 8), [56]).
Proof. vm_compute. auto. Qed.

(** The C expression compiled for a literal that fits 24 bits (lib/libl.sf) exists in every radix
    and has the value of the literal: no octal reading of decimal digits, no lost sign. *)
Theorem C22_compiled_constant :
  forall r s v rest, In r [2; 8; 10; 16] -> numeral r s v ->
  (forall c rest' d, rest = c :: rest' -> ~ is_digit r c d) -> fits 24 v ->
  exists d t, subread_integer r (s ++ rest) = (Some d, rest) /\ const_text d = Some t /\ c_signed t v.
Proof.
  intros r s v rest Hr Hs Hrest Hf. apply (ndf_iff r rest (radix_rok r Hr)) in Hrest.
  destruct (read_ok r s v rest Hr Hs Hrest) as (d & E & H). destruct (const_ok r v d Hr H Hf) as (t & Et & Ht). exists d, t. auto.
Qed.
Print Assumptions C22_compiled_constant.
Example C22_compiled_constant_ex :
  (exists d, subread_integer 2 (codes "-0011111010"%string) = (Some d, []) /\ const_text d = Some (codes "-0372"%string)) /\
  (exists d, subread_integer 10 (codes "0017"%string) = (Some d, []) /\ const_text d = Some (codes "+17"%string)) /\
  (exists d, subread_integer 10 (codes "8388608"%string) = (Some d, []) /\ const_text d = None).
Proof. repeat split; eexists; vm_compute; eauto. Qed.
