From Coq Require Import ZArith Lia List Bool.
From Verif Require Import Base Model_Imm.
Open Scope Z_scope.

(** The reference meaning of boxing: reduction modulo 2^24 into -2^23..2^23-1. *)
Definition spec_wrap24 (z : Z) : Z := (z + 8388608) mod 16777216 - 8388608.

Lemma mkimm_eq o t : 0 <= t < 128 ->
  mkimm o t = wrap32 ((o mod 16777216) * 256) + 2 * t + 1.
Proof.
  intros Ht. unfold mkimm.
  change 16777215 with (2 ^ 24 - 1). rewrite land_ones_mod by lia.
  rewrite !Z.shiftl_mul_pow2 by lia. change (2 ^ 24) with 16777216.
  change (2 ^ 8) with 256. change (2 ^ 1) with 2.
  set (m := o mod 16777216).
  assert (Hm : 0 <= m < 16777216) by (unfold m; zdm).
  assert (E : exists q, wrap32 (m * 256) = q * 2 ^ 8).
  { unfold wrap32. exists ((m + 8388608) mod 16777216 - 8388608).
    change (2 ^ 8) with 256. zdm. }
  destruct E as [q E]. rewrite E. clear E.
  rewrite (lor_add_low q (t * 2) 8) by (change (2 ^ 8) with 256; lia).
  replace (q * 2 ^ 8 + t * 2) with ((q * 128 + t) * 2 ^ 1)
    by (change (2 ^ 8) with 256; change (2 ^ 1) with 2; lia).
  rewrite lor_add_low by (change (2 ^ 1) with 2; lia).
  change (2 ^ 8) with 256; change (2 ^ 1) with 2. lia.
Qed.

Lemma mkimm_eq' o t : 0 <= t < 128 ->
  mkimm o t = spec_wrap24 o * 256 + 2 * t + 1.
Proof.
  intros Ht. rewrite mkimm_eq by lia. unfold wrap32, spec_wrap24. zdm.
Qed.

Lemma isimm_eq o t : 0 <= t -> isimm o t = (o mod 256 =? 2 * t + 1).
Proof.
  intros Ht. unfold isimm. change 255 with (2 ^ 8 - 1).
  rewrite land_ones_mod by lia. rewrite Z.shiftl_mul_pow2 by lia.
  rewrite lor_add_low by (change (2 ^ 1) with 2; lia).
  change (2 ^ 8) with 256; change (2 ^ 1) with 2. f_equal. lia.
Qed.

Lemma lxor_sign v : 0 <= v < 16777216 ->
  Z.lxor v 8388608 - 8388608 = if v <? 8388608 then v else v - 16777216.
Proof.
  intros Hv.
  destruct (v <? 8388608) eqn:E; rewrite ?Z.ltb_lt, ?Z.ltb_ge in E.
  - assert (A : Z.land v 8388608 = 0).
    { change 8388608 with (1 * 2 ^ 23).
      apply Z.bits_inj'. intros n Hn. rewrite Z.land_spec, Z.bits_0.
      destruct (Z_lt_dec n 23).
      - rewrite (Z.mul_pow2_bits_low 1 23 n) by lia. apply andb_false_r.
      - rewrite (testbit_high v n 23) by lia. reflexivity. }
    rewrite <- Z.add_nocarry_lxor by exact A. lia.
  - set (l := v - 8388608).
    assert (A : Z.land l 8388608 = 0).
    { change 8388608 with (1 * 2 ^ 23).
      apply Z.bits_inj'. intros n Hn. rewrite Z.land_spec, Z.bits_0.
      destruct (Z_lt_dec n 23).
      - rewrite (Z.mul_pow2_bits_low 1 23 n) by lia. apply andb_false_r.
      - rewrite (testbit_high l n 23) by lia. reflexivity. }
    replace v with (Z.lxor l 8388608)
      by (rewrite <- Z.add_nocarry_lxor by exact A; lia).
    rewrite Z.lxor_assoc, Z.lxor_nilpotent, Z.lxor_0_r.
    rewrite <- Z.add_nocarry_lxor by exact A. lia.
Qed.

Lemma isimm_mkimm o t u : 0 <= t < 128 -> 0 <= u < 128 ->
  isimm (mkimm o t) u = (t =? u).
Proof.
  intros Ht Hu. rewrite isimm_eq, mkimm_eq' by lia.
  replace ((spec_wrap24 o * 256 + 2 * t + 1) mod 256) with (2 * t + 1) by zdm. lia.
Qed.

Lemma getimmu_mkimm o t : 0 <= t < 128 ->
  getimmu (mkimm o t) t = Val (o mod 16777216).
Proof.
  intros Ht. unfold getimmu. rewrite isimm_mkimm, Z.eqb_refl by lia. f_equal.
  change 16777215 with (2 ^ 24 - 1). rewrite land_ones_mod by lia.
  rewrite Z.shiftr_div_pow2 by lia. rewrite mkimm_eq' by lia.
  change (2 ^ 24) with 16777216; change (2 ^ 8) with 256. unfold spec_wrap24. zdm.
Qed.

Lemma getimms_mkimm o t : 0 <= t < 128 ->
  getimms (mkimm o t) t = Val (spec_wrap24 o).
Proof.
  intros Ht. unfold getimms. rewrite isimm_mkimm, Z.eqb_refl by lia. f_equal.
  change 16777215 with (2 ^ 24 - 1). rewrite land_ones_mod by lia.
  rewrite Z.shiftr_div_pow2 by lia. rewrite mkimm_eq' by lia.
  change (2 ^ 24) with 16777216; change (2 ^ 8) with 256.
  replace (((spec_wrap24 o * 256 + 2 * t + 1) / 256) mod 16777216)
    with (o mod 16777216) by (unfold spec_wrap24; zdm).
  rewrite lxor_sign by zdm. unfold spec_wrap24.
  destruct (o mod 16777216 <? 8388608) eqn:E; zdm.
Qed.

Lemma spec_wrap24_id z : FIXNUM_MIN <= z <= FIXNUM_MAX -> spec_wrap24 z = z.
Proof. unfold FIXNUM_MIN, FIXNUM_MAX, spec_wrap24. intros. zdm. Qed.

Lemma spec_wrap24_range z : FIXNUM_MIN <= spec_wrap24 z <= FIXNUM_MAX.
Proof. unfold FIXNUM_MIN, FIXNUM_MAX, spec_wrap24. zdm. Qed.

Lemma spec_wrap24_cong z : exists k, spec_wrap24 z = z + k * 16777216.
Proof. unfold spec_wrap24. exists (- ((z + 8388608) / 16777216)). zdm. Qed.

Lemma mkimm_inj o1 t1 o2 t2 : 0 <= t1 < 128 -> 0 <= t2 < 128 ->
  mkimm o1 t1 = mkimm o2 t2 <-> t1 = t2 /\ o1 mod 16777216 = o2 mod 16777216.
Proof.
  intros H1 H2. rewrite !mkimm_eq' by lia. unfold spec_wrap24. split.
  - intros E. zdm.
  - intros [-> E]. zdm.
Qed.

Lemma mkimm_odd o t : 0 <= t < 128 -> mkimm o t mod 2 = 1.
Proof. intros. rewrite mkimm_eq' by lia. zdm. Qed.

(** membership test of the collector and of [isobjptr] *)
Lemma mask_test d k : 1 <= k ->
  Z.land d (Z.lor 1 (Z.lnot (2 ^ k - 1))) = 0 <-> (0 <= d < 2 ^ k /\ d mod 2 = 0).
Proof.
  intros Hk.
  assert (Hp : 0 < 2 ^ k) by (apply Z.pow_pos_nonneg; lia).
  split.
  - intros H.
    assert (Hbit : forall n, 0 <= n -> (n = 0 \/ k <= n) -> Z.testbit d n = false).
    { intros n Hn Hor.
      assert (T : Z.testbit (Z.land d (Z.lor 1 (Z.lnot (2 ^ k - 1)))) n = false)
        by (rewrite H; apply Z.bits_0).
      rewrite Z.land_spec, Z.lor_spec in T.
      rewrite Z.lnot_spec in T by lia.
      destruct Hor as [->|Hle].
      - simpl in T. rewrite andb_true_r in T. exact T.
      - replace (2 ^ k - 1) with (Z.ones k) in T by (rewrite Z.ones_equiv; lia).
        rewrite Z.ones_spec_high in T by lia.
        rewrite orb_true_r, andb_true_r in T. exact T. }
    assert (E : d = d mod 2 ^ k).
    { apply Z.bits_inj'. intros n Hn.
      destruct (Z_lt_dec n k).
      - rewrite Z.mod_pow2_bits_low by lia. reflexivity.
      - rewrite Z.mod_pow2_bits_high by lia. apply Hbit; lia. }
    split.
    + rewrite E. apply Z.mod_pos_bound. lia.
    + specialize (Hbit 0 ltac:(lia) ltac:(lia)).
      rewrite Z.bit0_odd in Hbit. rewrite Zmod_odd, Hbit. reflexivity.
  - intros [Hd He]. apply Z.bits_inj'. intros n Hn.
    rewrite Z.land_spec, Z.lor_spec, Z.bits_0.
    rewrite Z.lnot_spec by lia.
    replace (2 ^ k - 1) with (Z.ones k) by (rewrite Z.ones_equiv; lia).
    destruct (Z.eq_dec n 0) as [->|Hn0].
    + rewrite Z.bit0_odd. rewrite Zmod_odd in He. destruct (Z.odd d); [lia|reflexivity].
    + destruct (Z_lt_dec n k).
      * rewrite Z.ones_spec_low by lia.
        replace (Z.testbit 1 n) with false.
        -- simpl. apply andb_false_r.
        -- symmetry. destruct n; [lia| |lia]. destruct p; reflexivity.
      * replace (Z.testbit d n) with false; [reflexivity|].
        symmetry. apply (testbit_high d n k); lia.
Qed.

Lemma isobjptr_spec o heap s k : 0 <= k -> s = 2 ^ k ->
  isobjptr o heap (hmask s) = true <->
  (heap <= o < heap + 8 * s /\ (o - heap) mod 2 = 0).
Proof.
  intros Hk ->. unfold isobjptr, notobjptr, hmask.
  rewrite negb_involutive, Z.eqb_eq.
  replace (2 ^ k * 8 - 1) with (2 ^ (k + 3) - 1)
    by (rewrite Z.pow_add_r by lia; reflexivity).
  rewrite mask_test by lia.
  rewrite Z.pow_add_r by lia. change (2 ^ 3) with 8. lia.
Qed.

Lemma notaptr_spec o : notaptr o = (o mod 2 =? 1).
Proof.
  unfold notaptr. change 1 with (2 ^ 1 - 1) at 1. rewrite land_ones_mod by lia.
  change (2 ^ 1) with 2.
  pose proof (Z.mod_pos_bound o 2 ltac:(lia)).
  destruct (o mod 2 =? 0) eqn:E; simpl; lia.
Qed.

Lemma isaptr_spec o : isaptr o = (o mod 2 =? 0).
Proof.
  unfold isaptr. rewrite notaptr_spec.
  pose proof (Z.mod_pos_bound o 2 ltac:(lia)).
  destruct (o mod 2 =? 1) eqn:E; simpl; lia.
Qed.

Lemma obj_from_size_eq n : obj_from_size n = 2 * n + 1.
Proof.
  unfold obj_from_size. rewrite Z.shiftl_mul_pow2 by lia.
  rewrite lor_add_low by (change (2 ^ 1) with 2; lia).
  change (2 ^ 1) with 2. lia.
Qed.

Lemma size_from_obj_size n : 0 <= n < 2 ^ 31 -> size_from_obj (obj_from_size n) = n.
Proof.
  intros H. rewrite obj_from_size_eq. unfold size_from_obj.
  rewrite Z.shiftr_div_pow2 by lia. change (2 ^ 1) with 2.
  change (2 ^ 31) with 2147483648 in H. unfold wrap32. zdm.
Qed.

Lemma immediate_not_objptr o t heap s k :
  0 <= t < 128 -> 0 <= k -> s = 2 ^ k -> heap mod 8 = 0 ->
  isobjptr (mkimm o t) heap (hmask s) = false.
Proof.
  intros Ht Hk Hs Hh.
  destruct (isobjptr (mkimm o t) heap (hmask s)) eqn:E; [|reflexivity].
  apply (isobjptr_spec _ _ _ k) in E; [|lia|exact Hs].
  pose proof (mkimm_odd o t Ht). zdm.
Qed.

(** ** fixnum operations *)

Definition is_fix (x : Z) : Prop := FIXNUM_MIN <= x <= FIXNUM_MAX.

Lemma boxed_Val v : boxed (Val v) = Val (spec_wrap24 v).
Proof. unfold boxed, rbind, fixnum_from_obj, obj_from_fixnum.
  apply getimms_mkimm. unfold FIXNUM_ITAG; lia. Qed.

Lemma ckint_ok z : INT_MIN <= z <= INT_MAX -> ckint z = Val z.
Proof. intros H. unfold ckint. destruct (_ && _) eqn:E; [reflexivity|lia]. Qed.

Lemma ckint_ub z : ~ (INT_MIN <= z <= INT_MAX) -> ckint z = UB.
Proof. intros H. unfold ckint. destruct (_ && _) eqn:E; [lia|reflexivity]. Qed.

Ltac fixr := unfold is_fix, FIXNUM_MIN, FIXNUM_MAX, INT_MIN, INT_MAX in *.

Lemma fxadd_boxed x y : is_fix x -> is_fix y -> boxed (fxadd x y) = Val (spec_wrap24 (x + y)).
Proof. intros Hx Hy. unfold fxadd. rewrite ckint_ok by (fixr; lia). apply boxed_Val. Qed.
Lemma fxsub_boxed x y : is_fix x -> is_fix y -> boxed (fxsub x y) = Val (spec_wrap24 (x - y)).
Proof. intros Hx Hy. unfold fxsub. rewrite ckint_ok by (fixr; lia). apply boxed_Val. Qed.
Lemma fxneg_boxed x : is_fix x -> boxed (fxneg x) = Val (spec_wrap24 (- x)).
Proof. intros Hx. unfold fxneg. rewrite ckint_ok by (fixr; lia). apply boxed_Val. Qed.
Lemma fxabs_boxed x : is_fix x -> boxed (fxabs x) = Val (spec_wrap24 (Z.abs x)).
Proof. intros Hx. unfold fxabs. rewrite ckint_ok by (fixr; lia). apply boxed_Val. Qed.

Lemma fxmul_boxed x y : INT_MIN <= x * y <= INT_MAX ->
  boxed (fxmul x y) = Val (spec_wrap24 (x * y)).
Proof. intros H. unfold fxmul. rewrite ckint_ok by lia. apply boxed_Val. Qed.
Lemma fxmul_ub x y : ~ (INT_MIN <= x * y <= INT_MAX) -> boxed (fxmul x y) = UB.
Proof. intros H. unfold fxmul. rewrite ckint_ub by lia. reflexivity. Qed.

Lemma abs_bits x b : 0 <= b ->
  (- 2 ^ b <= x < 2 ^ b) <-> (forall n, b <= n -> Z.testbit x n = Z.testbit x b).
Proof.
  intros Hb. split.
  - intros Hx n Hn. destruct (Z_lt_dec x 0).
    + assert (T : forall m, b <= m -> Z.testbit x m = true).
      { intros m Hm.
        assert (L : Z.testbit (Z.lnot x) m = false)
          by (apply (testbit_high _ _ b); unfold Z.lnot; lia).
        rewrite Z.lnot_spec in L by lia. destruct (Z.testbit x m); [reflexivity|discriminate]. }
      rewrite !T by lia. reflexivity.
    + rewrite !(testbit_high x _ b) by lia. reflexivity.
  - intros H. destruct (Z.testbit x b) eqn:E.
    + assert (Hl : Z.lnot x = Z.lnot x mod 2 ^ b).
      { apply Z.bits_inj'. intros n Hn. destruct (Z_lt_dec n b).
        - rewrite Z.mod_pow2_bits_low by lia. reflexivity.
        - rewrite Z.mod_pow2_bits_high by lia. rewrite Z.lnot_spec by lia.
          rewrite H by lia. reflexivity. }
      pose proof (Z.mod_pos_bound (Z.lnot x) (2 ^ b) ltac:(apply Z.pow_pos_nonneg; lia)).
      rewrite <- Hl in H0. unfold Z.lnot in H0. lia.
    + assert (Hl : x = x mod 2 ^ b).
      { apply Z.bits_inj'. intros n Hn. destruct (Z_lt_dec n b).
        - rewrite Z.mod_pow2_bits_low by lia. reflexivity.
        - rewrite Z.mod_pow2_bits_high by lia. apply H; lia. }
      pose proof (Z.mod_pos_bound x (2 ^ b) ltac:(apply Z.pow_pos_nonneg; lia)).
      rewrite <- Hl in H0. lia.
Qed.

Lemma is_fix_pow x : is_fix x <-> - 2 ^ 23 <= x < 2 ^ 23.
Proof. change (2 ^ 23) with 8388608. fixr. lia. Qed.

Lemma is_fix_bitop (f : Z -> Z -> Z) (g : bool -> bool -> bool) x y :
  (forall a b n, Z.testbit (f a b) n = g (Z.testbit a n) (Z.testbit b n)) ->
  is_fix x -> is_fix y -> is_fix (f x y).
Proof.
  intros Hf Hx Hy. rewrite is_fix_pow in *. rewrite abs_bits in * by lia.
  intros n Hn. rewrite !Hf, Hx, Hy by lia. reflexivity.
Qed.

Lemma fxlogand_boxed x y : is_fix x -> is_fix y ->
  boxed (fxlogand x y) = Val (Z.land x y) /\ is_fix (Z.land x y).
Proof.
  intros Hx Hy.
  assert (H : is_fix (Z.land x y)) by (eapply is_fix_bitop; eauto; intros; apply Z.land_spec).
  split; [|exact H]. unfold fxlogand. rewrite boxed_Val, spec_wrap24_id; auto.
Qed.
Lemma fxlogor_boxed x y : is_fix x -> is_fix y ->
  boxed (fxlogor x y) = Val (Z.lor x y) /\ is_fix (Z.lor x y).
Proof.
  intros Hx Hy.
  assert (H : is_fix (Z.lor x y)) by (eapply is_fix_bitop; eauto; intros; apply Z.lor_spec).
  split; [|exact H]. unfold fxlogor. rewrite boxed_Val, spec_wrap24_id; auto.
Qed.
Lemma fxlogxor_boxed x y : is_fix x -> is_fix y ->
  boxed (fxlogxor x y) = Val (Z.lxor x y) /\ is_fix (Z.lxor x y).
Proof.
  intros Hx Hy.
  assert (H : is_fix (Z.lxor x y)) by (eapply is_fix_bitop; eauto; intros; apply Z.lxor_spec).
  split; [|exact H]. unfold fxlogxor. rewrite boxed_Val, spec_wrap24_id; auto.
Qed.

Lemma fxquo_rem x y : is_fix x -> is_fix y -> y <> 0 ->
  exists q r, fxquo x y = Val q /\ fxrem x y = Val r /\
    x = y * q + r /\ Z.abs r < Z.abs y /\ 0 <= r * x /\
    boxed (fxrem x y) = Val r /\
    boxed (fxquo x y) = Val (if (x =? FIXNUM_MIN) && (y =? -1) then FIXNUM_MIN else q).
Proof.
  intros Hx Hy Hn. exists (Z.quot x y), (Z.rem x y).
  pose proof (Z.quot_rem' x y) as E.
  pose proof (Z.rem_bound_abs x y Hn) as B.
  assert (S : 0 <= Z.rem x y * x).
  { destruct (Z_lt_dec x 0).
    - pose proof (Z.rem_nonpos x y Hn ltac:(lia)). nia.
    - pose proof (Z.rem_nonneg x y Hn ltac:(lia)). nia. }
  assert (Q : Z.abs (Z.quot x y) <= Z.abs x).
  { rewrite <- Z.quot_abs by lia.
    destruct (Z.eq_dec (Z.abs y) 1) as [E1|E1].
    - rewrite E1, Z.quot_1_r. lia.
    - destruct (Z.eq_dec x 0) as [->|]; [simpl; rewrite Z.quot_0_l by lia; lia|].
      pose proof (Z.quot_lt (Z.abs x) (Z.abs y) ltac:(lia) ltac:(lia)). lia. }
  assert (RR : Z.abs (Z.rem x y) <= Z.abs x).
  { destruct (Z_lt_dec x 0).
    - pose proof (Z.rem_nonpos x y Hn ltac:(lia)).
      pose proof (Z.quot_rem' x y). 
      assert (0 <= - Z.rem x y <= - x); [|lia].
      rewrite <- Z.rem_opp_l by lia. split.
      + apply Z.rem_nonneg; lia.
      + rewrite <- (Z.rem_abs_r (-x) y) by lia. apply Z.rem_le; lia.
    - rewrite (Z.abs_eq (Z.rem x y)) by (apply Z.rem_nonneg; lia).
      rewrite <- (Z.rem_abs_r x y) by lia. rewrite (Z.abs_eq x) by lia.
      apply Z.rem_le; lia. }
  assert (CK : ckint (Z.quot x y) = Val (Z.quot x y)) by (apply ckint_ok; fixr; lia).
  unfold fxquo, fxrem. rewrite (proj2 (Z.eqb_neq y 0) Hn), CK.
  cbn [rbind]. rewrite !boxed_Val.
  repeat split; auto.
  - f_equal. apply spec_wrap24_id. 
    destruct (Z_lt_dec x 0).
    + pose proof (Z.rem_nonpos x y Hn ltac:(lia)). fixr; lia.
    + pose proof (Z.rem_nonneg x y Hn ltac:(lia)). fixr; lia.
  - f_equal. destruct ((x =? FIXNUM_MIN) && (y =? -1)) eqn:M.
    + assert (x = FIXNUM_MIN /\ y = -1) as [-> ->] by lia. reflexivity.
    + apply spec_wrap24_id.
      assert (Z.quot x y <> 8388608); [|fixr; lia].
      intro C.
      assert (x = FIXNUM_MIN) by (fixr; lia).
      assert (Z.abs y = 1 -> y = 1 \/ y = -1) by lia.
      assert (y = -1); [|lia].
      subst x. rewrite C in E. fixr.
      nia.
Qed.
