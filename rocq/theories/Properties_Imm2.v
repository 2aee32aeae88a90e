(** C02, C03, C39 continued: shifts, tests, n-ary operations, comparison chains. *)
From Coq Require Import ZArith List Bool Lia Sorted.
From Verif Require Import Base Model_Imm Model_Imm2 Proofs_Imm Proofs_Imm3 Model_Arith Proofs_Arith.
Import ListNotations.
Open Scope Z_scope.

(** shifts: the left shift multiplies and is undefined for a negative operand, a count
    outside 0..31 or a result that leaves a C int; the right shift is the floor
    division by the power of two, and is undefined only for a count outside 0..31 *)
Theorem C02_shifts :
  forall x y, -8388608 <= x <= 8388607 -> -8388608 <= y <= 8388607 ->
  Model_Imm.fxsll x y = (if (0 <=? y) && (y <? 32) && (0 <=? x) && (x * 2 ^ y <=? 2147483647) then Val (x * 2 ^ y) else UB) /\
  Model_Imm.fxsrl x y = (if (0 <=? y) && (y <? 32) then Val (x / 2 ^ y) else UB) /\
  (0 <= y < 32 -> boxed (Model_Imm.fxsrl x y) = Val (x / 2 ^ y)).
Proof. exact (fun x y Hx Hy => conj (fxsll_ok x y Hx Hy) (conj (fxsrl_ok x y Hx Hy) (srl_boxed x y Hx))). Qed.
Print Assumptions C02_shifts.
Example C02_shifts_ex : Model_Imm.fxsrl (-5) 1 = Val (-3) /\ Model_Imm.fxsll 5 28 = Val 1342177280 /\ Model_Imm.fxsll 5 29 = UB.
Proof. vm_compute. auto. Qed.

(** 0.sf:489 calls the right shift logical; on 24-bit words it is not *)
Theorem C02_right_shift_is_logical_refuted :
  exists x y, -8388608 <= x <= 8388607 /\ 0 <= y < 24 /\
    boxed (Model_Imm.fxsrl x y) <> boxed (Val ((x mod 16777216) / 2 ^ y)).
Proof. exists (-1), 1. split; [lia|]. split; [lia|]. vm_compute. discriminate. Qed.
Print Assumptions C02_right_shift_is_logical_refuted.

Theorem C02_tests_min_max :
  forall x y, -8388608 <= x <= 8388607 -> -8388608 <= y <= 8388607 ->
  (fxevenp x = true <-> exists k, x = 2 * k) /\ (fxoddp x = true <-> exists k, x = 2 * k + 1) /\
  (fxzerop x = true <-> x = 0) /\ (fxnegativep x = true <-> x < 0) /\ (fxpositivep x = true <-> x > 0) /\
  fxmin2 x y = Z.min x y /\ fxmax2 x y = Z.max x y.
Proof. exact tests_ok. Qed.
Print Assumptions C02_tests_min_max.
Example C02_tests_ex : fxoddp (-3) = true /\ fxevenp (-4) = true /\ fxmin2 (-3) 4 = -3 /\ fxmax2 (-3) 4 = 4.
Proof. vm_compute. auto. Qed.

(** sums of at most 255 and differences of at most 255 fixnums are exact before
    they are stored; a longer sum or a product is exact whenever it is defined *)
Theorem C02_nary_sums :
  forall l, Forall (fun x => -8388608 <= x <= 8388607) l ->
  ((length l <= 255)%nat -> fx_plus l = Val (fold_right Z.add 0 l)) /\
  (forall v, fx_plus l = Val v -> v = fold_right Z.add 0 l) /\
  (forall v, fx_times l = Val v -> v = fold_right Z.mul 1 l) /\
  (forall x, -8388608 <= x <= 8388607 -> (length l <= 254)%nat ->
     fx_minus x l = Val (match l with [] => - x | _ => x - fold_right Z.add 0 l end)).
Proof.
  exact (fun l H => conj (fun Hn => fx_plus_ok l Hn H) (conj (fx_plus_exact l) (conj (fx_times_exact l)
    (fun x Hx Hn => fx_minus_ok x l Hn Hx H)))).
Qed.
Print Assumptions C02_nary_sums.
Example C02_nary_sums_ex :
  fx_plus [8388607; 8388607; -3] = Val 16777211 /\ fx_minus 10 [1; 2; 3] = Val 4 /\ fx_times [4096; 4096; 64] = Val 1073741824 /\
  fx_plus (repeat 8388607 257) = UB.
Proof. vm_compute. auto. Qed.

Theorem C02_nary_bit_ops :
  forall l, fx_logand l = Val (fold_right Z.land (-1) l) /\ fx_logor l = Val (fold_right Z.lor 0 l) /\
    fx_logxor l = Val (fold_right Z.lxor 0 l).
Proof. exact (fun l => conj (fx_logand_ok l) (conj (fx_logor_ok l) (fx_logxor_ok l))). Qed.
Print Assumptions C02_nary_bit_ops.
Example C02_nary_bit_ops_ex : fx_logand [12; 10; -1] = Val 8 /\ fx_logxor [12; 10; 3] = Val 5.
Proof. vm_compute. auto. Qed.

(** a comparison chain holds iff every earlier operand is related to every later one *)
Theorem C02_comparison_chains :
  forall x y l,
  (fx_eq x y l = true <-> StronglySorted eq (x :: y :: l)) /\
  (fx_lt x y l = true <-> StronglySorted Z.lt (x :: y :: l)) /\
  (fx_gt x y l = true <-> StronglySorted Z.gt (x :: y :: l)) /\
  (fx_le x y l = true <-> StronglySorted Z.le (x :: y :: l)) /\
  (fx_ge x y l = true <-> StronglySorted Z.ge (x :: y :: l)).
Proof.
  intros x y l. split; [|split; [|split; [|split]]]; apply chain_sorted; unfold fxlt; intros; lia.
Qed.
Print Assumptions C02_comparison_chains.
Example C02_comparison_chains_ex : fx_lt 1 2 [3; 3] = false /\ fx_le 1 2 [3; 3] = true /\ fx_eq 4 4 [4; 4] = true.
Proof. vm_compute. auto. Qed.

(** negative exponents: the libxs power is 0 (1 only for exponent 0) ... *)
Theorem C39_small_library_negative_expt :
  forall h x y fuel, y < 0 -> (1 <= fuel)%nat -> xs_fxexpt h fuel x y = AVal 0.
Proof.
  intros h x y fuel Hy Hf. destruct fuel as [|f]; [lia|]. cbn [xs_fxexpt].
  destruct (Z.eqb_spec y 0); [lia|]. destruct (x =? 0); [reflexivity|]. destruct (Z.ltb_spec y 0); [reflexivity|lia].
Qed.
Print Assumptions C39_small_library_negative_expt.
Example C39_small_library_negative_expt_ex : xs_fxexpt 8388608 3 7 (-2) = AVal 0.
Proof. reflexivity. Qed.

(** ... even where the power is a fixnum *)
Theorem C39_small_library_inverse_refuted :
  exists x y r, x * r = 1 /\ y = -1 /\ xs_fxexpt 8388608 61 x y <> AVal r.
Proof. exists 1, (-1), 1. repeat split. vm_compute. discriminate. Qed.
Print Assumptions C39_small_library_inverse_refuted.
