(** Common arithmetic facts and tactics used by the proofs.
    Nothing in this file models source code. *)
From Coq Require Import ZArith Lia List Bool.
From Coq Require Export ZifyBool ZifyNat ZifyN.
Import ListNotations.
Open Scope Z_scope.

(** Outcome of a C computation: a value, or undefined behaviour (which also
    covers a failing [assert] and an out-of-bounds access). *)
Inductive res (A : Type) : Type :=
| Val (a : A)
| UB.
Arguments Val {A} a.
Arguments UB {A}.

Definition rbind {A B} (r : res A) (f : A -> res B) : res B :=
  match r with Val a => f a | UB => UB end.

(** 32-bit two's complement wrap and range test. *)
Definition INT_MIN : Z := - 2147483648.
Definition INT_MAX : Z := 2147483647.
Definition wrap32 (z : Z) : Z := (z + 2147483648) mod 4294967296 - 2147483648.
(** result of a C [int] operation: undefined behaviour when not representable *)
Definition ckint (z : Z) : res Z :=
  if (INT_MIN <=? z) && (z <=? INT_MAX) then Val z else UB.
(** 64-bit [long] *)
Definition LONG_MIN : Z := - 9223372036854775808.
Definition LONG_MAX : Z := 9223372036854775807.
Definition cklong (z : Z) : res Z :=
  if (LONG_MIN <=? z) && (z <=? LONG_MAX) then Val z else UB.

Lemma testbit_high b n k : 0 <= k -> 0 <= b < 2 ^ k -> k <= n -> Z.testbit b n = false.
Proof.
  intros Hk Hb Hn. apply Z.testbit_false; [lia|].
  rewrite Z.div_small; [reflexivity|]. split; [lia|].
  apply Z.lt_le_trans with (2 ^ k); [lia|]. apply Z.pow_le_mono_r; lia.
Qed.

Lemma lor_add_low a b k : 0 <= k -> 0 <= b < 2 ^ k ->
  Z.lor (a * 2 ^ k) b = a * 2 ^ k + b.
Proof.
  intros Hk Hb.
  assert (E : Z.land (a * 2 ^ k) b = 0).
  { apply Z.bits_inj'. intros n Hn.
    rewrite Z.land_spec, Z.bits_0.
    destruct (Z_lt_dec n k).
    - rewrite Z.mul_pow2_bits_low by lia. reflexivity.
    - rewrite (testbit_high b n k) by lia. apply andb_false_r. }
  rewrite Z.add_nocarry_lxor by exact E.
  rewrite <- Z.lxor_lor by exact E. reflexivity.
Qed.

Lemma land_ones_mod a k : 0 <= k -> Z.land a (2 ^ k - 1) = a mod 2 ^ k.
Proof.
  intros H. rewrite <- Z.land_ones by lia. f_equal. rewrite Z.ones_equiv. lia.
Qed.

Ltac zdm := Z.to_euclidean_division_equations; lia.
