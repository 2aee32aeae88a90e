(** Properties C01 - C05: immediates and fixnum arithmetic (0.sf, 6.sf). *)
From Coq Require Import ZArith List Bool.
From Verif Require Import Base Model_Imm Proofs_Imm Proofs_Imm2.
Open Scope Z_scope.

(** ** C01 *)

Theorem C01_fixnum_roundtrip : forall i,
  -8388608 <= i <= 8388607 -> fixnum_from_obj (obj_from_fixnum i) = Val i.
Proof. exact fixnum_roundtrip. Qed.
Example C01_fixnum_roundtrip_ex : fixnum_from_obj (obj_from_fixnum (-8388608)) = Val (-8388608).
Proof. vm_compute; reflexivity. Qed.
Print Assumptions C01_fixnum_roundtrip.

Theorem C01_char_roundtrip : forall c,
  0 <= c <= 255 -> char_from_obj (obj_from_char c) = Val c.
Proof. exact char_roundtrip. Qed.
Example C01_char_roundtrip_ex : char_from_obj (obj_from_char 200) = Val 200.
Proof. vm_compute; reflexivity. Qed.
Print Assumptions C01_char_roundtrip.

Theorem C01_symbol_roundtrip : forall i,
  0 <= i < 16777216 -> getsymbol (mksymbol i) = Val i.
Proof. exact symbol_roundtrip. Qed.
Example C01_symbol_roundtrip_ex : getsymbol (mksymbol 16777215) = Val 16777215.
Proof. vm_compute; reflexivity. Qed.
Print Assumptions C01_symbol_roundtrip.

Theorem C01_bool_roundtrip : forall b,
  bool_from_obj (obj_from_bool b) = b /\ is_bool_obj (obj_from_bool b) = true.
Proof. exact bool_roundtrip. Qed.
Print Assumptions C01_bool_roundtrip.

(** [is_bool_obj] accepts exactly the two booleans. *)
Theorem C01_is_bool_exact : forall o,
  is_bool_obj o = true <-> (o = obj_from_bool true \/ o = obj_from_bool false).
Proof. exact is_bool_exact. Qed.
Example C01_is_bool_exact_ex : is_bool_obj (obj_from_fixnum 0) = false.
Proof. vm_compute; reflexivity. Qed.
Print Assumptions C01_is_bool_exact.

(** Two immediates are the same word iff they have the same tag and the same
    payload modulo 2^24; so different types never alias and [eq?] on immediates of
    one type is equality of payloads. *)
Theorem C01_immediates_disjoint : forall o1 t1 o2 t2,
  0 <= t1 < 128 -> 0 <= t2 < 128 ->
  (mkimm o1 t1 = mkimm o2 t2 <-> t1 = t2 /\ o1 mod 16777216 = o2 mod 16777216).
Proof. exact mkimm_inj. Qed.
Example C01_immediates_disjoint_ex :
  mkimm 5 FIXNUM_ITAG <> mkimm 5 CHAR_ITAG /\ mkimm (-1) FIXNUM_ITAG = mkimm 16777215 FIXNUM_ITAG.
Proof. split; vm_compute; congruence. Qed.
Print Assumptions C01_immediates_disjoint.

(** The type test recognises exactly its own tag, and no immediate is #f (= 0). *)
Theorem C01_type_test_exact : forall o t u,
  0 <= t < 128 -> 0 <= u < 128 ->
  (isimm (mkimm o t) u = true <-> t = u) /\ mkimm o t <> obj_from_bool false.
Proof. exact type_test_exact. Qed.
Example C01_type_test_exact_ex : isimm mknull SYMBOL_ITAG = false /\ isimm mkeof EOF_ITAG = true.
Proof. vm_compute; auto. Qed.
Print Assumptions C01_type_test_exact.

(** A word passes the heap-pointer test of a heap of [s = 2^k] words at [heap]
    iff it is an even displacement inside the heap. *)
Theorem C01_heap_pointer_test : forall o heap s k,
  0 <= k -> s = 2 ^ k ->
  (isobjptr o heap (hmask s) = true <->
   heap <= o < heap + 8 * s /\ (o - heap) mod 2 = 0).
Proof. exact isobjptr_spec. Qed.
Example C01_heap_pointer_test_ex : isobjptr 4104 4096 (hmask 131072) = true.
Proof. vm_compute; reflexivity. Qed.
Print Assumptions C01_heap_pointer_test.

Theorem C01_immediate_never_heap_pointer : forall o t heap s k,
  0 <= t < 128 -> 0 <= k -> s = 2 ^ k -> heap mod 8 = 0 ->
  isobjptr (mkimm o t) heap (hmask s) = false.
Proof. exact immediate_not_objptr. Qed.
Example C01_immediate_never_heap_pointer_ex :
  isobjptr (obj_from_fixnum 16) 4096 (hmask 131072) = false.
Proof. vm_compute; reflexivity. Qed.
Print Assumptions C01_immediate_never_heap_pointer.

(** Before the first collection the heap base and mask are both 0 (6.sf:509-510),
    and then the heap-pointer test accepts every word, immediates included. *)
Theorem C01_heap_pointer_test_without_heap_refuted :
  exists i, isobjptr (obj_from_fixnum i) 0 0 = true /\ isobjptr (obj_from_bool false) 0 0 = true.
Proof. exact isobjptr_without_heap. Qed.
Print Assumptions C01_heap_pointer_test_without_heap_refuted.

(** ** C02: exact in range, otherwise modulo 2^24, never undefined.
    [congruent24 v z] says that [v] is the fixnum congruent to [z]. *)
Definition congruent24 (v z : Z) : Prop :=
  -8388608 <= v <= 8388607 /\ exists k, v = z + k * 16777216.

Theorem C02_fixnum_ring_ops : forall x y,
  -8388608 <= x <= 8388607 -> -8388608 <= y <= 8388607 ->
  (exists v, boxed (fxadd x y) = Val v /\ congruent24 v (x + y)) /\
  (exists v, boxed (fxsub x y) = Val v /\ congruent24 v (x - y)) /\
  (exists v, boxed (fxneg x) = Val v /\ congruent24 v (- x)) /\
  (exists v, boxed (fxabs x) = Val v /\ congruent24 v (Z.abs x)).
Proof. exact fixnum_ring_ops. Qed.
Example C02_fixnum_ring_ops_ex : boxed (fxadd 8388607 1) = Val (-8388608).
Proof. vm_compute; reflexivity. Qed.
Print Assumptions C02_fixnum_ring_ops.

(** congruence determines the value: in range the result is exact *)
Theorem C02_congruent_unique : forall v w z,
  congruent24 v z -> congruent24 w z -> v = w.
Proof. exact congruent_unique. Qed.
Example C02_congruent_unique_ex : congruent24 (-8388608) 8388608.
Proof. split; [split; discriminate|]. exists (-1); reflexivity. Qed.
Print Assumptions C02_congruent_unique.

Theorem C02_fixnum_bit_ops : forall x y,
  -8388608 <= x <= 8388607 -> -8388608 <= y <= 8388607 ->
  boxed (fxlogand x y) = Val (Z.land x y) /\
  boxed (fxlogor x y) = Val (Z.lor x y) /\
  boxed (fxlogxor x y) = Val (Z.lxor x y).
Proof. exact fixnum_bit_ops. Qed.
Example C02_fixnum_bit_ops_ex : boxed (fxlogxor (-1) 5) = Val (-6).
Proof. vm_compute; reflexivity. Qed.
Print Assumptions C02_fixnum_bit_ops.

(** ** C03: multiplication.  Defined exactly when the product fits in a C int. *)
Theorem C03_fixnum_mul_defined_iff : forall x y,
  -8388608 <= x <= 8388607 -> -8388608 <= y <= 8388607 ->
  (-2147483648 <= x * y <= 2147483647 ->
     exists v, boxed (fxmul x y) = Val v /\ congruent24 v (x * y)) /\
  (~ (-2147483648 <= x * y <= 2147483647) -> boxed (fxmul x y) = UB).
Proof. exact fixnum_mul. Qed.
Example C03_fixnum_mul_defined_iff_ex : boxed (fxmul 4096 4097) = Val 4096.
Proof. vm_compute; reflexivity. Qed.
Print Assumptions C03_fixnum_mul_defined_iff.

(** The full claim (no undefined behaviour for any two fixnums) is false. *)
Theorem C03_fixnum_mul_never_undefined_refuted :
  exists x y, (-8388608 <= x <= 8388607) /\ (-8388608 <= y <= 8388607) /\ fxmul x y = UB.
Proof. exact fixnum_mul_ub. Qed.
Print Assumptions C03_fixnum_mul_never_undefined_refuted.

(** fxexpt is the power function, undefined exactly when the power leaves int;
    negative exponents give 0 (0.sf:535); 64 recursive calls always suffice. *)
Theorem C03_fxexpt : forall x y,
  -8388608 <= x <= 8388607 -> -8388608 <= y <= 8388607 ->
  fxexpt 64 x y = Some (if y <? 0 then Val 0 else ckint (x ^ y)).
Proof. exact fxexpt_correct. Qed.
Example C03_fxexpt_ex : fxexpt 64 (-3) 13 = Some (Val (-1594323)).
Proof. vm_compute; reflexivity. Qed.
Print Assumptions C03_fxexpt.

(** ** C04: division law *)
Theorem C04_fixnum_division : forall x y,
  -8388608 <= x <= 8388607 -> -8388608 <= y <= 8388607 -> y <> 0 ->
  exists q r, fxquo x y = Val q /\ fxrem x y = Val r /\
    x = y * q + r /\ Z.abs r < Z.abs y /\ 0 <= r * x /\
    boxed (fxrem x y) = Val r /\
    boxed (fxquo x y) = Val (if (x =? -8388608) && (y =? -1) then -8388608 else q).
Proof. exact fxquo_rem. Qed.
Example C04_fixnum_division_ex : fxquo (-7) 2 = Val (-3) /\ fxrem (-7) 2 = Val (-1).
Proof. vm_compute; auto. Qed.
Print Assumptions C04_fixnum_division.

Theorem C04_division_by_zero_only_ub : forall x,
  fxquo x 0 = UB /\ fxrem x 0 = UB.
Proof. exact division_by_zero. Qed.
Print Assumptions C04_division_by_zero_only_ub.

(** ** C05: boxing of intermediate results *)
(** Full statement: [forall env e, boxed (eval_unboxed env e) = boxed (eval_boxed env e)]
    for environments of fixnums.  It is false: *)
Theorem C05_boxing_unobservable_refuted :
  exists env e, (forall n, -8388608 <= env n <= 8388607) /\
    exists v w, boxed (eval_unboxed env e) = Val v /\ boxed (eval_boxed env e) = Val w /\ v <> w.
Proof. exact boxing_observable. Qed.
Print Assumptions C05_boxing_unobservable_refuted.

(** It holds whenever no intermediate result leaves the fixnum range
    ([math_val] computes in the integers and insists on that) ... *)
Theorem C05_boxing_unobservable_partial : forall env e v,
  math_val env e = Some v -> eval_unboxed env e = Val v /\ eval_boxed env e = Val v.
Proof. exact boxing_unobservable_in_range. Qed.
Example C05_boxing_unobservable_partial_ex :
  math_val (fun n => Z.of_nat n + 1000) (FxApp OpQuo (FxApp OpMul (FxVar 0) (FxVar 1)) (FxVar 2)) = Some 999.
Proof. vm_compute; reflexivity. Qed.
Print Assumptions C05_boxing_unobservable_partial.

(** ... and for sums and differences even when they overflow, as long as the C
    ints do not. *)
Theorem C05_boxing_additive_partial : forall env e v,
  (forall n, -8388608 <= env n <= 8388607) -> additive e = true ->
  eval_unboxed env e = Val v ->
  exists w, boxed (eval_unboxed env e) = Val w /\ eval_boxed env e = Val w.
Proof. exact boxing_additive. Qed.
Example C05_boxing_additive_partial_ex :
  let e := FxApp OpSub (FxApp OpAdd (FxVar 0) (FxVar 0)) (FxVar 0) in
  additive e = true /\ eval_unboxed (fun _ => 8388607) e = Val 8388607 /\
  eval_boxed (fun _ => 8388607) e = Val 8388607.
Proof. vm_compute; auto. Qed.
Print Assumptions C05_boxing_additive_partial.
