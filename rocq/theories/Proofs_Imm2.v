From Coq Require Import ZArith Lia List Bool.
From Verif Require Import Base Model_Imm Proofs_Imm.
Open Scope Z_scope.

(** Mathematical value of every subexpression is a fixnum (specification). *)
Definition math_op (op : fxop) (x y : Z) : option Z :=
  match op with
  | OpAdd => Some (x + y) | OpSub => Some (x - y) | OpMul => Some (x * y)
  | OpQuo => if y =? 0 then None else Some (Z.quot x y)
  | OpRem => if y =? 0 then None else Some (Z.rem x y)
  | OpAnd => Some (Z.land x y) | OpOr => Some (Z.lor x y) | OpXor => Some (Z.lxor x y)
  end.

(** [math_val env e = Some v]: every intermediate result is defined and in range. *)
Fixpoint math_val (env : nat -> Z) (e : fxexp) : option Z :=
  match e with
  | FxVar n => if (FIXNUM_MIN <=? env n) && (env n <=? FIXNUM_MAX) then Some (env n) else None
  | FxApp op a b =>
    match math_val env a, math_val env b with
    | Some x, Some y =>
      match math_op op x y with
      | Some v => if (FIXNUM_MIN <=? v) && (v <=? FIXNUM_MAX) then Some v else None
      | None => None
      end
    | _, _ => None
    end
  end.

Lemma math_val_fix env e v : math_val env e = Some v -> is_fix v.
Proof.
  destruct e; cbn [math_val]; intros H.
  - destruct (_ && _) eqn:E; [|discriminate]. injection H as <-. fixr. lia.
  - destruct (math_val env e1); [|discriminate].
    destruct (math_val env e2); [|discriminate].
    destruct (math_op op z z0); [|discriminate].
    destruct (_ && _) eqn:E; [|discriminate]. injection H as <-. fixr. lia.
Qed.

Lemma fxapply_math op x y v :
  math_op op x y = Some v -> is_fix x -> is_fix y -> is_fix v -> fxapply op x y = Val v.
Proof.
  intros H Hx Hy Hv.
  assert (CK : ckint v = Val v) by (apply ckint_ok; fixr; lia).
  destruct op; cbn [math_op fxapply] in *; unfold fxadd, fxsub, fxmul, fxlogand, fxlogor, fxlogxor;
    try (injection H as <-; auto; fail).
  - unfold fxquo. destruct (y =? 0) eqn:E; [discriminate|]. injection H as <-. exact CK.
  - destruct (y =? 0) eqn:E; [discriminate|]. injection H as <-.
    destruct (fxquo_rem x y Hx Hy ltac:(lia)) as (q & r & _ & Hr & _).
    unfold fxrem in *. rewrite E in *. destruct (ckint (Z.quot x y)); [reflexivity|discriminate].
Qed.

Lemma boxing_unobservable_in_range env e v :
  math_val env e = Some v -> eval_unboxed env e = Val v /\ eval_boxed env e = Val v.
Proof.
  revert v; induction e as [n|op a IHa b IHb]; cbn [math_val eval_unboxed eval_boxed]; intros v H.
  - destruct (_ && _); [|discriminate]. injection H as <-. auto.
  - destruct (math_val env a) as [x|] eqn:Ea; [|discriminate].
    destruct (math_val env b) as [y|] eqn:Eb; [|discriminate].
    destruct (math_op op x y) as [w|] eqn:Ew; [|discriminate].
    destruct (_ && _) eqn:R; [|discriminate]. injection H as <-.
    destruct (IHa _ eq_refl) as [-> ->]. destruct (IHb _ eq_refl) as [-> ->].
    cbn [rbind].
    rewrite (fxapply_math _ _ _ _ Ew (math_val_fix _ _ _ Ea) (math_val_fix _ _ _ Eb))
      by (fixr; lia).
    split; [reflexivity|]. rewrite boxed_Val. f_equal. apply spec_wrap24_id. fixr; lia.
Qed.

(** Sums and differences: boxing only the final result gives the same answer as
    boxing every intermediate one. *)
Fixpoint additive (e : fxexp) : bool :=
  match e with
  | FxVar _ => true
  | FxApp (OpAdd | OpSub) a b => additive a && additive b
  | FxApp _ _ _ => false
  end.

Lemma wrap_eq a b k : a = b + k * 16777216 -> spec_wrap24 a = spec_wrap24 b.
Proof.
  intros ->. unfold spec_wrap24. f_equal.
  replace (b + k * 16777216 + 8388608) with ((b + 8388608) + k * 16777216) by lia.
  apply Z_mod_plus_full.
Qed.

Lemma additive_boxing env e v :
  (forall n, is_fix (env n)) -> additive e = true ->
  eval_unboxed env e = Val v -> eval_boxed env e = Val (spec_wrap24 v).
Proof.
  intros Henv. revert v. induction e as [n|op a IHa b IHb]; intros v Hr H.
  - cbn in H. cbn. injection H as <-. rewrite spec_wrap24_id; auto. apply Henv.
  - cbn [eval_unboxed eval_boxed] in *.
    assert (HR : additive a = true /\ additive b = true)
      by (destruct op; cbn in Hr; try discriminate; apply andb_prop in Hr; exact Hr).
    destruct HR as [Ra Rb].
    destruct (eval_unboxed env a) as [x|] eqn:Ea; [|discriminate].
    destruct (eval_unboxed env b) as [y|] eqn:Eb; [|discriminate].
    rewrite (IHa _ Ra eq_refl), (IHb _ Rb eq_refl). cbn [rbind] in *.
    pose proof (spec_wrap24_range x) as Rx. pose proof (spec_wrap24_range y) as Ry.
    destruct (spec_wrap24_cong x) as [kx Ex]. destruct (spec_wrap24_cong y) as [ky Ey].
    destruct op; try discriminate; cbn [fxapply] in *; unfold fxadd, fxsub in *;
      unfold ckint in H; (destruct (_ && _) eqn:CC in H; [|discriminate]); injection H as <-.
    + rewrite ckint_ok by (fixr; lia). rewrite boxed_Val. f_equal.
      apply (wrap_eq _ _ (kx + ky)). lia.
    + rewrite ckint_ok by (fixr; lia). rewrite boxed_Val. f_equal.
      apply (wrap_eq _ _ (kx - ky)). lia.
Qed.

(** ** fxexpt *)
Lemma pow_grow x y : 1 <= y -> ~ (INT_MIN <= x ^ (y - 1) <= INT_MAX) ->
  ~ (INT_MIN <= x ^ y <= INT_MAX).
Proof.
  intros Hy H. replace y with (1 + (y - 1)) by lia. rewrite Z.pow_add_r by lia.
  rewrite Z.pow_1_r. set (p := x ^ (y - 1)) in *.
  assert (A : Z.abs x <= 1 \/ 2 <= Z.abs x) by lia. destruct A as [A|A].
  - exfalso. apply H. unfold p.
    assert (B : x = 0 \/ x = 1 \/ x = -1) by lia.
    destruct B as [->|[->| ->]].
    + destruct (Z.eq_dec (y - 1) 0) as [->|]; [cbn; unfold INT_MIN, INT_MAX; lia|].
      rewrite Z.pow_0_l by lia. unfold INT_MIN, INT_MAX; lia.
    + rewrite Z.pow_1_l by lia. unfold INT_MIN, INT_MAX; lia.
    + pose proof (Z.abs_pow (-1) (y - 1)) as E. cbn [Z.abs Z.opp] in E.
      rewrite Z.pow_1_l in E by lia. unfold INT_MIN, INT_MAX; lia.
  - unfold INT_MIN, INT_MAX in *. nia.
Qed.

Lemma in_range_0_1 x y : 0 <= y -> Z.abs x <= 1 -> INT_MIN <= x ^ y <= INT_MAX.
Proof.
  intros Hy A.
  assert (B : x = 0 \/ x = 1 \/ x = -1) by lia.
  destruct B as [->|[->| ->]].
  + destruct (Z.eq_dec y 0) as [->|]; [cbn; unfold INT_MIN, INT_MAX; lia|].
    rewrite Z.pow_0_l by lia. unfold INT_MIN, INT_MAX; lia.
  + rewrite Z.pow_1_l by lia. unfold INT_MIN, INT_MAX; lia.
  + pose proof (Z.abs_pow (-1) y) as E. cbn [Z.abs Z.opp] in E.
    rewrite Z.pow_1_l in E by lia. unfold INT_MIN, INT_MAX; lia.
Qed.

Lemma pow_half x h : 0 <= h -> ~ (INT_MIN <= x ^ h <= INT_MAX) ->
  ~ (INT_MIN <= x ^ h * x ^ h <= INT_MAX).
Proof.
  intros Hh H. assert (1 <= Z.abs (x ^ h) - 1) by (unfold INT_MIN, INT_MAX in *; lia).
  unfold INT_MIN, INT_MAX in *. nia.
Qed.

Lemma fxexpt_ok n : forall fuel x y, INT_MIN <= x <= INT_MAX -> 0 <= y < 2 ^ Z.of_nat n -> y <= INT_MAX ->
  (2 * n + 1 <= fuel)%nat ->
  fxexpt fuel x y = Some (ckint (x ^ y)).
Proof.
  induction n as [|n IH]; intros fuel x y Hx Hy HyM Hf.
  - assert (y = 0) as -> by (cbn in Hy; lia). destruct fuel; [lia|]. reflexivity.
  - rewrite Nat2Z.inj_succ, Z.pow_succ_r in Hy by lia.
    assert (EV : forall fuel y, 0 <= y < 2 * 2 ^ Z.of_nat n -> y <= INT_MAX -> (2 * n + 2 <= fuel)%nat ->
              Z.rem y 2 = 0 -> fxexpt fuel x y = Some (ckint (x ^ y))).
    { clear fuel y Hy HyM Hf. intros fuel y Hy HyM Hf Hev. destruct fuel as [|f]; [lia|].
      cbn [fxexpt]. unfold fxzerop, fxlt, fxoddp.
      destruct (y =? 0) eqn:E0; [assert (y = 0) as -> by lia; reflexivity|].
      destruct (x =? 0) eqn:Ex0.
      { assert (x = 0) as -> by lia. rewrite Z.pow_0_l by lia. reflexivity. }
      destruct (y <? 0) eqn:En; [lia|].
      destruct (y =? 1) eqn:E1; [exfalso; assert (y = 1) by lia; subst y; discriminate Hev|].
      rewrite Hev. cbn [Z.eqb negb].
      unfold fxquo. cbn [Z.eqb].
      assert (Q : 0 <= Z.quot y 2 < 2 ^ Z.of_nat n /\ y = 2 * Z.quot y 2) by zdm.
      destruct Q as [Q1 Q2]. set (h := Z.quot y 2) in *.
      rewrite ckint_ok by (unfold INT_MIN, INT_MAX in *; lia).
      rewrite IH by (try assumption; lia). cbn [option_map]. f_equal.
      replace (x ^ y) with (x ^ h * x ^ h) by (rewrite Q2, <- Z.pow_add_r by lia; f_equal; lia).
      destruct (Z_le_dec INT_MIN (x ^ h)); [destruct (Z_le_dec (x ^ h) INT_MAX)|].
      - rewrite (ckint_ok (x ^ h)) by lia. reflexivity.
      - rewrite (ckint_ub (x ^ h)) by lia. cbn [rbind]. symmetry. apply ckint_ub.
        apply pow_half; lia.
      - rewrite (ckint_ub (x ^ h)) by lia. cbn [rbind]. symmetry. apply ckint_ub.
        apply pow_half; lia. }
    destruct (Z.eq_dec (Z.rem y 2) 0) as [Hev|Hodd]; [apply EV; lia|].
    destruct fuel as [|f]; [lia|].
    cbn [fxexpt]. unfold fxzerop, fxlt, fxoddp.
    destruct (y =? 0) eqn:E0; [exfalso; apply Hodd; assert (y = 0) as -> by lia; reflexivity|].
    destruct (x =? 0) eqn:Ex0.
    { assert (x = 0) as -> by lia. rewrite Z.pow_0_l by lia. reflexivity. }
    destruct (y <? 0) eqn:En; [lia|].
    destruct (y =? 1) eqn:E1.
    { assert (y = 1) as -> by lia. rewrite Z.pow_1_r, ckint_ok by lia. reflexivity. }
    rewrite (proj2 (Z.eqb_neq _ _) Hodd). cbn [negb].
    unfold fxsub. rewrite (ckint_ok (y - 1)) by (unfold INT_MIN, INT_MAX in *; lia).
    rewrite EV by (try lia; zdm). cbn [option_map]. f_equal.
    destruct (Z_le_dec INT_MIN (x ^ (y - 1))); [destruct (Z_le_dec (x ^ (y - 1)) INT_MAX)|].
    + rewrite (ckint_ok (x ^ (y - 1))) by lia. cbn [rbind]. unfold fxmul. f_equal.
      replace y with (1 + (y - 1)) at 2 by lia. rewrite Z.pow_add_r, Z.pow_1_r by lia. reflexivity.
    + rewrite (ckint_ub (x ^ (y - 1))) by lia. cbn [rbind]. symmetry. apply ckint_ub.
      apply pow_grow; lia.
    + rewrite (ckint_ub (x ^ (y - 1))) by lia. cbn [rbind]. symmetry. apply ckint_ub.
      apply pow_grow; lia.
Qed.

Lemma fxexpt_correct x y : is_fix x -> is_fix y ->
  fxexpt 64 x y = Some (if y <? 0 then Val 0 else ckint (x ^ y)).
Proof.
  intros Hx Hy. change 64%nat with (S 63). destruct (y <? 0) eqn:E.
  - generalize 63%nat. intro f. cbn [fxexpt]. unfold fxzerop, fxlt. rewrite E.
    destruct (y =? 0) eqn:E0; [lia|]. destruct (x =? 0); reflexivity.
  - apply (fxexpt_ok 24); try (fixr; lia).
Qed.

(** ** statements used by the property file *)
Lemma fixnum_roundtrip i : -8388608 <= i <= 8388607 -> fixnum_from_obj (obj_from_fixnum i) = Val i.
Proof.
  intros H. unfold fixnum_from_obj, obj_from_fixnum.
  rewrite getimms_mkimm by (unfold FIXNUM_ITAG; lia). f_equal. apply spec_wrap24_id. fixr; lia.
Qed.
Lemma char_roundtrip c : 0 <= c <= 255 -> char_from_obj (obj_from_char c) = Val c.
Proof.
  intros H. unfold char_from_obj, obj_from_char.
  rewrite getimms_mkimm by (unfold CHAR_ITAG; lia). f_equal. apply spec_wrap24_id. fixr; lia.
Qed.
Lemma symbol_roundtrip i : 0 <= i < 16777216 -> getsymbol (mksymbol i) = Val i.
Proof.
  intros H. unfold getsymbol, mksymbol.
  rewrite getimmu_mkimm by (unfold SYMBOL_ITAG; lia). f_equal. apply Z.mod_small. lia.
Qed.
Lemma bool_roundtrip b :
  bool_from_obj (obj_from_bool b) = b /\ is_bool_obj (obj_from_bool b) = true.
Proof. destruct b; vm_compute; auto. Qed.
Lemma is_bool_exact o :
  is_bool_obj o = true <-> (o = obj_from_bool true \/ o = obj_from_bool false).
Proof.
  change (obj_from_bool true) with 1. change (obj_from_bool false) with 0.
  unfold is_bool_obj. rewrite Z.eqb_eq. split.
  - intros H.
    assert (E : o = o mod 2 ^ 1).
    { apply Z.bits_inj'. intros n Hn. destruct (Z_lt_dec n 1).
      - rewrite Z.mod_pow2_bits_low by lia. reflexivity.
      - rewrite Z.mod_pow2_bits_high by lia.
        assert (T : Z.testbit (Z.land o (Z.lnot 1)) n = false) by (rewrite H; apply Z.bits_0).
        rewrite Z.land_spec, Z.lnot_spec in T by lia.
        rewrite (testbit_high 1 n 1) in T by lia. rewrite andb_true_r in T. exact T. }
    pose proof (Z.mod_pos_bound o (2 ^ 1) ltac:(lia)). rewrite <- E in H0. lia.
  - intros [-> | ->]; reflexivity.
Qed.
Lemma type_test_exact o t u : 0 <= t < 128 -> 0 <= u < 128 ->
  (isimm (mkimm o t) u = true <-> t = u) /\ mkimm o t <> obj_from_bool false.
Proof.
  intros Ht Hu. rewrite isimm_mkimm by lia. split; [lia|].
  pose proof (mkimm_odd o t Ht). cbn [obj_from_bool]. intro E. rewrite E in H. discriminate.
Qed.
Lemma isobjptr_without_heap :
  exists i, isobjptr (obj_from_fixnum i) 0 0 = true /\ isobjptr (obj_from_bool false) 0 0 = true.
Proof. exists 5. vm_compute. auto. Qed.

Lemma congr_wrap z : -8388608 <= spec_wrap24 z <= 8388607 /\ exists k, spec_wrap24 z = z + k * 16777216.
Proof. split; [apply spec_wrap24_range|apply spec_wrap24_cong]. Qed.

Lemma fixnum_ring_ops x y :
  -8388608 <= x <= 8388607 -> -8388608 <= y <= 8388607 ->
  (exists v, boxed (fxadd x y) = Val v /\ (-8388608 <= v <= 8388607 /\ exists k, v = (x + y) + k * 16777216)) /\
  (exists v, boxed (fxsub x y) = Val v /\ (-8388608 <= v <= 8388607 /\ exists k, v = (x - y) + k * 16777216)) /\
  (exists v, boxed (fxneg x) = Val v /\ (-8388608 <= v <= 8388607 /\ exists k, v = (- x) + k * 16777216)) /\
  (exists v, boxed (fxabs x) = Val v /\ (-8388608 <= v <= 8388607 /\ exists k, v = (Z.abs x) + k * 16777216)).
Proof.
  intros Hx Hy. rewrite fxadd_boxed, fxsub_boxed, fxneg_boxed, fxabs_boxed by (fixr; lia).
  repeat split; eexists; split; try reflexivity; apply congr_wrap.
Qed.
Lemma congruent_unique v w z :
  (-8388608 <= v <= 8388607 /\ exists k, v = z + k * 16777216) ->
  (-8388608 <= w <= 8388607 /\ exists k, w = z + k * 16777216) -> v = w.
Proof. intros [Hv [k ->]] [Hw [l ->]]. lia. Qed.
Lemma fixnum_bit_ops x y :
  -8388608 <= x <= 8388607 -> -8388608 <= y <= 8388607 ->
  boxed (fxlogand x y) = Val (Z.land x y) /\
  boxed (fxlogor x y) = Val (Z.lor x y) /\
  boxed (fxlogxor x y) = Val (Z.lxor x y).
Proof.
  intros Hx Hy. split; [|split].
  - apply fxlogand_boxed; fixr; lia.
  - apply fxlogor_boxed; fixr; lia.
  - apply fxlogxor_boxed; fixr; lia.
Qed.
Lemma fixnum_mul x y :
  -8388608 <= x <= 8388607 -> -8388608 <= y <= 8388607 ->
  (-2147483648 <= x * y <= 2147483647 ->
     exists v, boxed (fxmul x y) = Val v /\ (-8388608 <= v <= 8388607 /\ exists k, v = (x * y) + k * 16777216)) /\
  (~ (-2147483648 <= x * y <= 2147483647) -> boxed (fxmul x y) = UB).
Proof.
  intros Hx Hy. split; intros H.
  - eexists; split; [apply fxmul_boxed; exact H|apply congr_wrap].
  - apply fxmul_ub. exact H.
Qed.
Lemma fixnum_mul_ub :
  exists x y, (-8388608 <= x <= 8388607) /\ (-8388608 <= y <= 8388607) /\ fxmul x y = UB.
Proof. exists 8388607, 8388607. repeat split; try discriminate. Qed.
Lemma division_by_zero x : fxquo x 0 = UB /\ fxrem x 0 = UB.
Proof. split; reflexivity. Qed.
Lemma boxing_observable :
  exists env e, (forall n : nat, -8388608 <= env n <= 8388607) /\
    exists v w, boxed (eval_unboxed env e) = Val v /\ boxed (eval_boxed env e) = Val w /\ v <> w.
Proof.
  (* (fx/ (fx+ x y) y) with x = 8388607 and y = 2 *)
  exists (fun n => match n with O => 8388607 | _ => 2 end),
    (FxApp OpQuo (FxApp OpAdd (FxVar 0) (FxVar 1)) (FxVar 1)).
  split.
  - intros [|n]; split; discriminate.
  - exists 4194304, (-4194303). vm_compute. repeat split; discriminate.
Qed.
Lemma boxing_additive env e v :
  (forall n : nat, -8388608 <= env n <= 8388607) -> additive e = true ->
  eval_unboxed env e = Val v ->
  exists w, boxed (eval_unboxed env e) = Val w /\ eval_boxed env e = Val w.
Proof.
  intros H1 H2 H3. exists (spec_wrap24 v). split.
  - rewrite H3. apply boxed_Val.
  - eapply additive_boxing; eauto.
Qed.
