From Coq Require Import ZArith List Bool Lia.
From Verif Require Import Base Model_Arith.
Open Scope Z_scope.

Section Width.
Variable h : Z.
Hypothesis Hh : 8388608 <= h <= 536870912.
Local Notation in_fx := (Model_Arith.in_fx h).
Local Notation not_minneg := (Model_Arith.not_minneg h).
Local Notation fxneg := (Model_Arith.fxneg h).
Local Notation fxabs := (Model_Arith.fxabs h).
Local Notation fxadd := (Model_Arith.fxadd h).
Local Notation fxsub := (Model_Arith.fxsub h).
Local Notation fxmul := (Model_Arith.fxmul h).
Local Notation fxidv := (Model_Arith.fxidv h).
Local Notation fxquo := (Model_Arith.fxquo h).
Local Notation fxmqu := (Model_Arith.fxmqu h).
Local Notation fxdiv := (Model_Arith.fxdiv h).
Local Notation fxgcd := (Model_Arith.fxgcd h).
Local Notation fxpow := (Model_Arith.fxpow h).
Local Notation exact_integer_sqrt := (Model_Arith.exact_integer_sqrt h).
Local Notation xs_fxexpt := (Model_Arith.xs_fxexpt h).
Local Notation box := (Model_Arith.box h).
Local Notation FXMIN := (Model_Arith.FXMIN h).
Local Notation FXMAX := (Model_Arith.FXMAX h).

Definition fx (z : Z) : Prop := - h <= z <= h - 1.

Lemma in_fx_spec : forall z, in_fx z = true <-> fx z.
Proof. intros z. unfold in_fx, fx, FXMIN, FXMAX. lia. Qed.

Lemma in_fx_false : forall z, in_fx z = false <-> ~ fx z.
Proof. intros z. unfold in_fx, fx, FXMIN, FXMAX. lia. Qed.

Lemma lng_ok : forall z, -9223372036854775808 <= z <= 9223372036854775807 -> lng z = AVal z.
Proof.
  intros z H. unfold lng, LONG_MIN, LONG_MAX.
  replace ((-9223372036854775808 <=? z) && (z <=? 9223372036854775807)) with true by lia. reflexivity.
Qed.

Lemma quot_abs0 : forall x y, y <> 0 -> Z.abs (Z.quot x y) <= Z.abs x /\
  (2 <= Z.abs y -> 2 * Z.abs (Z.quot x y) <= Z.abs x).
Proof.
  intros x y Hy. rewrite <- Z.quot_abs by assumption.
  rewrite Z.quot_div_nonneg by lia. split; [|intros H2].
  - apply Z.div_le_upper_bound; nia.
  - pose proof (Z.mul_div_le (Z.abs x) (Z.abs y) ltac:(lia)).
    pose proof (Z.div_pos (Z.abs x) (Z.abs y) ltac:(lia) ltac:(lia)). nia.
Qed.

Lemma quot_abs : forall x y, fx x -> y <> 0 -> - h <= Z.quot x y <= h.
Proof. unfold fx. intros x y Hx Hy. pose proof (quot_abs0 x y Hy). lia. Qed.

Lemma rem_abs : forall x y, y <> 0 -> Z.abs (Z.rem x y) < Z.abs y /\ Z.abs (Z.rem x y) <= Z.abs x.
Proof.
  intros x y Hy. pose proof (Z.rem_bound_abs x y Hy). split; [assumption|].
  rewrite <- Z.rem_abs by assumption. apply Z.rem_le; lia.
Qed.

Lemma quot_fits : forall x y, fx x -> y <> 0 -> ~ (x = - h /\ y = -1) -> fx (Z.quot x y).
Proof.
  unfold fx. intros x y Hx Hy Hm. pose proof (quot_abs0 x y Hy) as [H1 H2].
  destruct (Z_le_gt_dec 2 (Z.abs y)) as [H|H]; [specialize (H2 H); lia|].
  assert (y = 1 \/ y = -1) as [-> | ->] by lia; [rewrite Z.quot_1_r; lia|].
  change (-1) with (- (1)). rewrite Z.quot_opp_r, Z.quot_1_r by lia. lia.
Qed.

Lemma cdiv_ok : forall x y, fx x -> y <> 0 -> cdiv x y = AVal (Z.quot x y).
Proof.
  intros x y Hx Hy. unfold cdiv. replace (y =? 0) with false by lia.
  apply lng_ok. pose proof (quot_abs x y Hx Hy). lia.
Qed.
Lemma crem_ok : forall x y, -9223372036854775807 <= x <= 9223372036854775807 -> y <> 0 -> crem x y = AVal (Z.rem x y).
Proof.
  intros x y Hx Hy. unfold crem. replace (y =? 0) with false by lia.
  apply lng_ok. pose proof (rem_abs x y Hy). lia.
Qed.
Lemma crem_fx : forall x y, fx x -> y <> 0 -> crem x y = AVal (Z.rem x y).
Proof. intros. apply crem_ok; [unfold fx in *; lia|assumption]. Qed.

Lemma assert_true : forall dbg c k, c = true -> assert_ dbg c k = k.
Proof. intros [] c k ->; reflexivity. Qed.
Lemma nz_true : forall y, y <> 0 -> nz y = true.
Proof. intros. unfold nz. lia. Qed.
Lemma not_minneg_true : forall x y, ~ (x = - h /\ y = -1) -> not_minneg x y = true.
Proof. intros. unfold not_minneg, FXMIN. lia. Qed.

Lemma fxquo_ok : forall dbg x y, fx x -> fx y -> y <> 0 -> ~ (x = - h /\ y = -1) ->
  fxquo dbg x y = AVal (Z.quot x y) /\ fx (Z.quot x y).
Proof.
  intros. unfold fxquo. rewrite !assert_true by (auto using nz_true, not_minneg_true).
  split; [now apply cdiv_ok|now apply quot_fits].
Qed.

Lemma fxrem_ok : forall dbg x y, fx x -> fx y -> y <> 0 ->
  fxrem dbg x y = AVal (Z.rem x y) /\ fx (Z.rem x y).
Proof.
  intros. unfold fxrem. rewrite !assert_true by (auto using nz_true).
  split; [now apply crem_fx|]. pose proof (rem_abs x y H1). unfold fx in *. lia.
Qed.

Lemma rem_sgn : forall x y, y <> 0 -> (0 <= x -> 0 <= Z.rem x y) /\ (x <= 0 -> Z.rem x y <= 0).
Proof. intros x y Hy. split; intros H; [now apply Z.rem_nonneg|now apply Z.rem_nonpos]. Qed.

(** floor division from truncated division *)
Lemma floor_of_trunc : forall x y, y <> 0 ->
  let c := ((Z.rem x y <? 0) && (y >? 0)) || ((Z.rem x y >? 0) && (y <? 0)) in
  x mod y = Z.rem x y + (if c then y else 0) /\ x / y = Z.quot x y - (if c then 1 else 0).
Proof.
  intros x y Hy c. pose proof (Z.quot_rem x y Hy) as E. pose proof (Z.rem_bound_abs x y Hy) as B.
  destruct c eqn:Ec; unfold c in Ec.
  - assert (E' : x = y * (Z.quot x y - 1) + (Z.rem x y + y)) by lia.
    split; symmetry; [eapply Z.mod_unique|eapply Z.div_unique]; [|exact E'| |exact E']; lia.
  - rewrite Z.add_0_r, Z.sub_0_r. split; symmetry; [eapply Z.mod_unique|eapply Z.div_unique]; [|exact E| |exact E]; lia.
Qed.

(** floor remainder: sign of the divisor *)
Lemma fxmlo_ok : forall dbg x y, fx x -> fx y -> y <> 0 ->
  exists r, fxmlo dbg x y = AVal r /\ r = x mod y /\ fx r.
Proof.
  intros dbg x y Hx Hy Hn. unfold fxmlo. rewrite assert_true by (auto using nz_true).
  rewrite crem_fx by assumption. cbn [abind]. pose proof (rem_abs x y Hn) as Hr.
  unfold fx in *.
  destruct (((Z.rem x y <? 0) && (y >? 0)) || ((Z.rem x y >? 0) && (y <? 0))) eqn:E.
  - rewrite lng_ok by lia. eexists; split; [reflexivity|]. split; [|lia].
    pose proof (proj1 (floor_of_trunc x y Hn)) as F. rewrite E in F. lia.
  - eexists; split; [reflexivity|]. split; [|lia].
    pose proof (proj1 (floor_of_trunc x y Hn)) as F. rewrite E in F. lia.
Qed.

(** what the floor quotient function really computes *)
Lemma fxmqu_char : forall dbg x y, fx x -> fx y -> y <> 0 -> ~ (x = - h /\ y = -1) ->
  fxmqu dbg x y = AVal (x / y - (if (x mod y =? 0) && (x * y <? 0) then 1 else 0)).
Proof.
  intros dbg x y Hx Hy Hn Hm. unfold fxmqu.
  rewrite !assert_true by (auto using nz_true, not_minneg_true).
  rewrite cdiv_ok by assumption. cbn [abind].
  pose proof (quot_abs x y Hx Hn) as Hq.
  assert (Hs : (x * y <? 0) = ((x <? 0) && (y >? 0)) || ((x >? 0) && (y <? 0))) by nia.
  rewrite Hs.
  destruct (((x <? 0) && (y >? 0)) || ((x >? 0) && (y <? 0))) eqn:E.
  - rewrite lng_ok by lia. f_equal. rewrite andb_true_r.
    destruct (floor_of_trunc x y Hn) as [F1 F2]. pose proof (rem_sgn x y Hn) as Sg.
    pose proof (Z.rem_bound_abs x y Hn).
    destruct (((Z.rem x y <? 0) && (y >? 0)) || ((Z.rem x y >? 0) && (y <? 0))) eqn:Ec;
      destruct (Z.eqb_spec (x mod y) 0); lia.
  - rewrite andb_false_r. f_equal.
    destruct (floor_of_trunc x y Hn) as [F1 F2]. pose proof (rem_sgn x y Hn) as Sg.
    destruct (((Z.rem x y <? 0) && (y >? 0)) || ((Z.rem x y >? 0) && (y <? 0))) eqn:Ec; lia.
Qed.

(** Euclidean division *)
Lemma fxdivmod_ok : forall dbg x y, fx x -> fx y -> y <> 0 -> ~ (x = - h /\ y = -1) ->
  exists q r, fxdiv dbg x y = AVal q /\ fxmod dbg x y = AVal r /\
    x = q * y + r /\ 0 <= r < Z.abs y /\ fx q /\ fx r.
Proof.
  intros dbg x y Hx Hy Hn Hm. unfold fxdiv, fxmod.
  rewrite !assert_true by (auto using nz_true, not_minneg_true).
  rewrite cdiv_ok by assumption. cbn [abind].
  rewrite crem_fx by assumption. cbn [abind]. unfold fx in *.
  pose proof (rem_abs x y Hn) as Hr. pose proof (quot_abs x y Hx Hn) as Hq.
  destruct (Z.ltb_spec (Z.rem x y) 0); [destruct (Z.gtb_spec y 0)|];
    rewrite ?lng_ok by lia; eexists _, _;
    (split; [reflexivity|split; [reflexivity|]]); pose proof (Z.quot_rem x y Hn);
    pose proof (quot_abs0 x y Hn) as [Q1 Q2]; pose proof (quot_fits x y Hx Hn Hm) as Qf; unfold fx in Qf.
  - split; [lia|]. split; [lia|]. split; [|lia].
    destruct (Z_le_gt_dec 2 (Z.abs y)) as [H2|H2]; [specialize (Q2 H2); lia|].
    assert (y = 1) by lia. subst y. rewrite Z.rem_1_r in *. lia.
  - split; [lia|]. split; [lia|]. split; [|lia].
    destruct (Z_le_gt_dec 2 (Z.abs y)) as [H2|H2]; [specialize (Q2 H2); lia|]. lia.
  - lia.
Qed.

(** fxmod alone needs no exclusion *)
Lemma fxmod_ok : forall dbg x y, fx x -> fx y -> y <> 0 ->
  exists r, fxmod dbg x y = AVal r /\ 0 <= r < Z.abs y /\ (exists q, x = q * y + r).
Proof.
  intros dbg x y Hx Hy Hn. unfold fxmod. rewrite assert_true by (auto using nz_true).
  rewrite crem_fx by assumption. cbn [abind]. unfold fx in *.
  pose proof (rem_abs x y Hn) as Hr.
  destruct (Z.ltb_spec (Z.rem x y) 0); [destruct (Z.gtb_spec y 0)|];
    rewrite ?lng_ok by lia; eexists; (split; [reflexivity|split; [lia|]]).
  - exists (Z.quot x y - 1). pose proof (Z.quot_rem x y Hn). nia.
  - exists (Z.quot x y + 1). pose proof (Z.quot_rem x y Hn). nia.
  - exists (Z.quot x y). pose proof (Z.quot_rem x y Hn). nia.
Qed.

(** exact division *)
Lemma fxidv_ok : forall dbg x y, fx x -> fx y -> y <> 0 -> ~ (x = - h /\ y = -1) ->
  (y | x) -> exists q, fxidv dbg x y = AVal q /\ x = q * y /\ fx q.
Proof.
  intros dbg x y Hx Hy Hn Hm [k ->]. unfold fxidv.
  rewrite !assert_true by (auto using nz_true, not_minneg_true).
  assert (Er : Z.rem (k * y) y = 0) by now apply Z.rem_mul.
  assert (Eq : Z.quot (k * y) y = k) by now apply Z.quot_mul.
  exists k. pose proof (quot_fits (k * y) y Hx Hn Hm) as Hf. rewrite Eq in Hf.
  split; [|auto]. destruct dbg.
  - rewrite crem_fx, Er by assumption. cbn [abind]. rewrite assert_true by reflexivity.
    now rewrite cdiv_ok, Eq.
  - now rewrite cdiv_ok, Eq.
Qed.

(** checked division never gives a wrong answer *)
Lemma fxidv_checked : forall x y q, fx x -> fx y -> fxidv true x y = AVal q -> x = q * y /\ fx q.
Proof.
  intros x y q Hx Hy. unfold fxidv. destruct (nz y) eqn:Ey; [|discriminate].
  assert (Hn : y <> 0) by (unfold nz in Ey; lia).
  destruct (not_minneg x y) eqn:Em; [|discriminate]. cbn [assert_ andb negb].
  rewrite crem_fx by assumption. cbn [abind].
  destruct (Z.eqb_spec (Z.rem x y) 0) as [E|]; [|discriminate]. cbn [assert_ andb negb].
  rewrite cdiv_ok by assumption. injection 1 as <-. split.
  - pose proof (Z.quot_rem x y Hn). nia.
  - apply quot_fits; [assumption|assumption|]. unfold not_minneg, FXMIN in Em. lia.
Qed.

(** ** gcd *)
Lemma gcd_step : forall a b, b <> 0 -> Z.gcd a b = Z.gcd b (Z.rem a b).
Proof.
  intros a b Hb. rewrite (Z.gcd_comm b), <- (Z.gcd_comm b a).
  rewrite (Z.quot_rem a b Hb) at 1. rewrite Z.add_comm, Z.mul_comm, Z.gcd_add_mult_diag_r.
  apply Z.gcd_comm.
Qed.

Lemma gcd_loop_ok : forall k a b fuel, 0 <= a <= 9223372036854775807 -> 0 <= b <= 9223372036854775807 ->
  b < 2 ^ Z.of_nat k -> (2 * k < fuel)%nat -> gcd_loop fuel a b = AVal (Z.gcd a b).
Proof.
  induction k as [|k IH]; intros a b fuel Ha Hb Hlt Hf.
  - change (2 ^ Z.of_nat 0) with 1 in Hlt. assert (b = 0) by lia. subst b.
    destruct fuel; [lia|]. cbn [gcd_loop]. rewrite Z.eqb_refl.
    rewrite Z.gcd_0_r, Z.abs_eq by lia. reflexivity.
  - destruct fuel as [|[|fuel]]; [lia|lia|]. cbn [gcd_loop].
    destruct (Z.eqb_spec b 0) as [->|Hb0].
    { rewrite Z.gcd_0_r, Z.abs_eq by lia. reflexivity. }
    rewrite crem_ok by lia. cbn [abind].
    pose proof (Z.rem_bound_pos a b ltac:(lia) ltac:(lia)) as Hr.
    destruct (Z.eqb_spec (Z.rem a b) 0) as [E|Hr0].
    { rewrite gcd_step, E, Z.gcd_0_r, Z.abs_eq by lia. reflexivity. }
    rewrite crem_ok by lia. cbn [abind].
    pose proof (Z.rem_bound_pos b (Z.rem a b) ltac:(lia) ltac:(lia)) as Hr2.
    rewrite IH; [| lia | lia | | lia].
    + rewrite (gcd_step a b), (gcd_step b (Z.rem a b)) by lia. reflexivity.
    + rewrite Nat2Z.inj_succ, Z.pow_succ_r in Hlt by lia.
      set (r := Z.rem a b) in *. clearbody r. set (P := 2 ^ Z.of_nat k) in *. clearbody P.
      rewrite Z.rem_mod_nonneg by lia. pose proof (Z.div_mod b r ltac:(lia)).
      assert (1 <= b / r) by (apply Z.div_le_lower_bound; lia). nia.
Qed.

Lemma fxgcd_ok : forall dbg x y, fx x -> fx y -> Z.gcd x y <= h - 1 ->
  forall fuel, (62 <= fuel)%nat -> fxgcd fuel dbg x y = AVal (Z.gcd x y).
Proof.
  intros dbg x y Hx Hy Hg fuel Hf. unfold fxgcd, labs, fx in *.
  rewrite !lng_ok by lia. cbn [abind].
  rewrite (gcd_loop_ok 30); [| lia | lia | | lia].
  - cbn [abind]. rewrite Z.gcd_abs_l, Z.gcd_abs_r. rewrite assert_true; [reflexivity|].
    unfold FXMAX. lia.
  - change (2 ^ Z.of_nat 30) with 1073741824. lia.
Qed.


Lemma gcd_fits : forall x y, fx x -> fx y ->
  ~ ((x = - h \/ x = 0) /\ (y = - h \/ y = 0)) \/ (x = 0 /\ y = 0) ->
  Z.gcd x y <= h - 1.
Proof.
  unfold fx. intros x y Hx Hy [Hn|[-> ->]]; [|cbn; lia].
  pose proof (Z.gcd_divide_l x y) as [p Hp]. pose proof (Z.gcd_divide_r x y) as [q Hq].
  pose proof (Z.gcd_nonneg x y). set (g := Z.gcd x y) in *. clearbody g.
  destruct (Z_le_gt_dec g (h - 1)) as [|Hg]; [assumption|]. exfalso. apply Hn.
  assert (Hk : forall k z, - h <= z <= h - 1 -> z = k * g -> z = - h \/ z = 0).
  { intros k z Hz ->. destruct (Z.eq_dec k 0) as [->|]; [right; reflexivity|].
    destruct (Z_le_gt_dec 1 k); [nia|]. left. destruct (Z.eq_dec k (-1)) as [->|]; nia. }
  split; eauto.
Qed.

(** ** powers *)
Lemma pow_abs_mono : forall x a b, x <> 0 -> 0 <= a <= b -> Z.abs (x ^ a) <= Z.abs (x ^ b).
Proof.
  intros x a b Hx H. rewrite !Z.abs_pow. apply Z.pow_le_mono_r; lia.
Qed.

Lemma even_pow_pos : forall x a, 0 <= a -> 0 <= x ^ (2 * a).
Proof. intros x a Ha. rewrite Z.pow_mul_r by lia. apply Z.pow_nonneg. rewrite Z.pow_2_r. nia. Qed.

Lemma odd_rem : forall y, 0 <= y -> (Z.rem y 2 =? 1) = true -> exists h, y = 2 * h + 1 /\ 0 <= h.
Proof.
  intros y Hy H. exists (Z.quot y 2). pose proof (Z.quot_rem y 2 ltac:(lia)).
  pose proof (Z.quot_pos y 2 Hy ltac:(lia)). lia.
Qed.
Lemma even_rem : forall y, 0 <= y -> (Z.rem y 2 =? 1) = false -> y = 2 * Z.quot y 2 /\ 0 <= Z.quot y 2.
Proof.
  intros y Hy H. pose proof (Z.quot_rem y 2 ltac:(lia)).
  pose proof (Z.quot_pos y 2 Hy ltac:(lia)). pose proof (Z.rem_bound_pos y 2 Hy ltac:(lia)). lia.
Qed.

Lemma fx_prod_long : forall x y, fx x -> fx y -> -9223372036854775808 <= x * y <= 9223372036854775807.
Proof. unfold fx. intros. nia. Qed.

(** in range of the checks: intermediate powers fit when the result fits *)
Lemma pow_fits_sub : forall x a b, fx (x ^ b) -> 0 <= a <= b -> (x = 0 \/ x = 1 \/ x = -1 \/ a < b) -> fx x ->
  fx (x ^ a).
Proof.
  unfold fx. intros x a b Hb Hab Hc Hx.
  destruct (Z.eq_dec x 0) as [->|Hx0].
  { destruct (Z.eq_dec a 0) as [->|]; [cbn; lia|]. rewrite Z.pow_0_l by lia. lia. }
  destruct (Z_le_gt_dec (Z.abs x) 1) as [H1|H1].
  { assert (Z.abs (x ^ a) = 1) by (rewrite Z.abs_pow; replace (Z.abs x) with 1 by lia; apply Z.pow_1_l; lia). lia. }
  destruct Hc as [->|[->|[->|Hlt]]]; [lia|lia|lia|].
  assert (2 * Z.abs (x ^ a) <= Z.abs (x ^ b)).
  { replace b with ((b - a - 1) + 1 + a) by lia. rewrite !Z.pow_add_r, Z.pow_1_r, !Z.abs_mul by lia.
    pose proof (Z.pow_pos_nonneg (Z.abs x) (b - a - 1) ltac:(lia) ltac:(lia)). rewrite <- Z.abs_pow in H.
    pose proof (Z.abs_nonneg (x ^ a)) as Hw.
    generalize dependent (Z.abs (x ^ (b - a - 1))). generalize dependent (Z.abs (x ^ a)).
    intros w Hw u Hu. assert (2 <= u * Z.abs x) by nia. nia. }
  lia.
Qed.

Lemma fxpow_ok : forall k fuel dbg x y, fx x -> 0 <= y < 2 ^ Z.of_nat k -> fx (x ^ y) ->
  (2 * k < fuel)%nat -> fxpow fuel dbg x y = AVal (x ^ y).
Proof.
  induction k as [|k IH]; intros fuel dbg x y Hx Hy Hp Hf.
  { change (2 ^ Z.of_nat 0) with 1 in Hy. assert (y = 0) by lia. subst y. destruct fuel; [lia|]. reflexivity. }
  rewrite Nat2Z.inj_succ, Z.pow_succ_r in Hy by lia.
  (* an even exponent takes one step and then the induction hypothesis *)
  assert (Hev : forall fuel y, (2 * k + 1 < fuel)%nat -> 0 <= y < 2 * 2 ^ Z.of_nat k ->
     fx (x ^ y) -> (Z.rem y 2 =? 1) = false -> fxpow fuel dbg x y = AVal (x ^ y)).
  { clear fuel y Hy Hp Hf. intros fuel y Hf Hy Hp Eo. destruct fuel as [|fuel]; [lia|]. cbn [fxpow].
    destruct (Z.eqb_spec y 0) as [->|Hy0]; [reflexivity|].
    destruct (Z.eqb_spec y 1) as [->|Hy1]; [now rewrite Z.pow_1_r|].
    rewrite Eo. destruct (even_rem y ltac:(lia) Eo) as [E Hq]. set (q := Z.quot y 2) in *. clearbody q.
    assert (Hx2 : fx (x * x)).
    { rewrite <- Z.pow_2_r. destruct (Z.eq_dec q 1) as [->|].
      - now rewrite E in Hp.
      - apply (pow_fits_sub x 2 y); [assumption|lia|lia|assumption]. }
    rewrite lng_ok by (unfold fx in Hx2; lia). cbn [abind].
    rewrite assert_true by now apply in_fx_spec.
    assert (Epw : (x * x) ^ q = x ^ y) by (rewrite E, Z.pow_mul_r, Z.pow_2_r by lia; reflexivity).
    rewrite IH; [now rewrite Epw|assumption|lia|now rewrite Epw|lia]. }
  destruct fuel as [|fuel]; [lia|].
  destruct (Z.rem y 2 =? 1) eqn:Eo; [|apply Hev; [lia|lia|assumption|assumption]].
  cbn [fxpow].
  destruct (Z.eqb_spec y 0) as [->|Hy0]; [reflexivity|].
  destruct (Z.eqb_spec y 1) as [->|Hy1]; [now rewrite Z.pow_1_r|].
  rewrite Eo. destruct (odd_rem y ltac:(lia) Eo) as (hf & E & Hhf).
  assert (Hsub : fx (x ^ (y - 1))) by (apply (pow_fits_sub x (y - 1) y); [assumption|lia|lia|assumption]).
  rewrite Hev; [|lia|lia|assumption|].
  2:{ replace (y - 1) with (hf * 2) by lia. rewrite Z.rem_mul by lia. reflexivity. }
  cbn [abind]. rewrite lng_ok by (now apply fx_prod_long). cbn [abind].
  assert (Epw : x * x ^ (y - 1) = x ^ y).
  { replace (x ^ y) with (x ^ (Z.succ (y - 1))) by (f_equal; lia). rewrite Z.pow_succ_r by lia. reflexivity. }
  rewrite Epw, assert_true; [reflexivity|]. now apply in_fx_spec.
Qed.

(** in a checked build a returned power is right *)
Lemma fxpow_checked : forall fuel x y r, fx x -> 0 <= y -> fxpow fuel true x y = AVal r ->
  r = x ^ y /\ fx r.
Proof.
  induction fuel as [|fuel IH]; intros x y r Hx Hy; [discriminate|]. cbn [fxpow].
  destruct (Z.eqb_spec y 0) as [->|Hy0]; [injection 1 as <-; split; [reflexivity|unfold fx; lia]|].
  destruct (Z.eqb_spec y 1) as [->|Hy1]; [injection 1 as <-; now rewrite Z.pow_1_r|].
  destruct (Z.rem y 2 =? 1) eqn:Eo.
  - destruct (fxpow fuel true x (y - 1)) as [p| | |] eqn:Ep; try discriminate. cbn [abind].
    destruct (IH x (y - 1) p Hx ltac:(lia) Ep) as [-> Hp].
    rewrite lng_ok by (now apply fx_prod_long). cbn [abind].
    destruct (in_fx (x * x ^ (y - 1))) eqn:Ei; [|discriminate]. cbn. injection 1 as <-.
    split; [|now apply in_fx_spec].
    replace (x ^ y) with (x ^ (Z.succ (y - 1))) by (f_equal; lia). rewrite Z.pow_succ_r by lia. reflexivity.
  - destruct (even_rem y ltac:(lia) Eo) as [E Hq].
    rewrite lng_ok by (now apply fx_prod_long). cbn [abind].
    destruct (in_fx (x * x)) eqn:Ei; [|discriminate]. cbn [assert_ andb negb]. intros H.
    apply IH in H; [|now apply in_fx_spec|lia]. destruct H as [-> Hf]. split; [|assumption].
    replace (x ^ y) with (x ^ (2 * Z.quot y 2)) by (f_equal; lia).
    rewrite Z.pow_mul_r, Z.pow_2_r by lia. reflexivity.
Qed.

Lemma box_fx : forall z, fx z -> box z = z.
Proof. intros z H. unfold box, fx in *. rewrite Z.mod_small by lia. lia. Qed.
Lemma int32_fx : forall z, fx z -> int32 z = AVal z.
Proof.
  intros z H. unfold int32, fx, INT_MIN, INT_MAX in *.
  replace ((-2147483648 <=? z) && (z <=? 2147483647)) with true by lia. reflexivity.
Qed.

Lemma xs_fxexpt_ok : forall k fuel x y, fx x -> 0 <= y < 2 ^ Z.of_nat k -> fx (x ^ y) ->
  (2 * k < fuel)%nat -> xs_fxexpt fuel x y = AVal (x ^ y).
Proof.
  induction k as [|k IH]; intros fuel x y Hx Hy Hp Hf.
  { change (2 ^ Z.of_nat 0) with 1 in Hy. assert (y = 0) by lia. subst y. destruct fuel; [lia|]. reflexivity. }
  rewrite Nat2Z.inj_succ, Z.pow_succ_r in Hy by lia.
  assert (Hev : forall fuel y, (2 * k + 1 < fuel)%nat -> 0 <= y < 2 * 2 ^ Z.of_nat k ->
     fx (x ^ y) -> (Z.rem y 2 =? 1) = false -> xs_fxexpt fuel x y = AVal (x ^ y)).
  { clear fuel y Hy Hp Hf. intros fuel y Hf Hy Hp Eo. destruct fuel as [|fuel]; [lia|]. cbn [xs_fxexpt].
    destruct (Z.eqb_spec y 0) as [->|Hy0]; [reflexivity|].
    destruct (Z.eqb_spec x 0) as [->|Hx0]; [now rewrite Z.pow_0_l by lia|].
    replace (y <? 0) with false by lia.
    destruct (Z.eqb_spec y 1) as [->|Hy1]; [now rewrite Z.pow_1_r|].
    destruct (even_rem y ltac:(lia) Eo) as [E Hq].
    replace (Z.rem y 2 =? 0) with true by (pose proof (Z.quot_rem y 2 ltac:(lia)); lia). cbn [negb].
    set (q := Z.quot y 2) in *. clearbody q.
    assert (Hxq : fx (x ^ q)) by (apply (pow_fits_sub x q y); [assumption|lia|lia|assumption]).
    assert (Epw : x ^ q * x ^ q = x ^ y) by (rewrite <- Z.pow_add_r by lia; f_equal; lia).
    rewrite IH; [|assumption|lia|assumption|lia]. cbn [abind]. rewrite Epw, int32_fx by assumption.
    cbn [abind]. now rewrite box_fx. }
  destruct fuel as [|fuel]; [lia|].
  destruct (Z.rem y 2 =? 1) eqn:Eo; [|apply Hev; [lia|lia|assumption|assumption]].
  cbn [xs_fxexpt].
  destruct (Z.eqb_spec y 0) as [->|Hy0]; [reflexivity|].
  destruct (Z.eqb_spec x 0) as [->|Hx0]; [now rewrite Z.pow_0_l by lia|].
  replace (y <? 0) with false by lia.
  destruct (Z.eqb_spec y 1) as [->|Hy1]; [now rewrite Z.pow_1_r|].
  replace (Z.rem y 2 =? 0) with false by lia. cbn [negb].
  destruct (odd_rem y ltac:(lia) Eo) as (hf & E & Hhf).
  assert (Hsub : fx (x ^ (y - 1))) by (apply (pow_fits_sub x (y - 1) y); [assumption|lia|lia|assumption]).
  rewrite Hev; [|lia|lia|assumption|].
  2:{ replace (y - 1) with (hf * 2) by lia. rewrite Z.rem_mul by lia. reflexivity. }
  assert (Epw : x * x ^ (y - 1) = x ^ y).
  { replace (x ^ y) with (x ^ (Z.succ (y - 1))) by (f_equal; lia). rewrite Z.pow_succ_r by lia. reflexivity. }
  cbn [abind]. rewrite Epw, int32_fx by assumption. cbn [abind]. now rewrite box_fx.
Qed.

(** ** square root *)
Lemma fxsqrt_ok : forall k fuel dbg x, 0 <= x < 4 ^ Z.of_nat k -> x <= 4611686018427387903 -> (k < fuel)%nat ->
  exists s, fxsqrt fuel dbg x = AVal s /\ 0 <= s /\ s * s <= x < (s + 1) * (s + 1).
Proof.
  induction k as [|k IH]; intros fuel dbg x Hx Hl Hf.
  { change (4 ^ Z.of_nat 0) with 1 in Hx. assert (x = 0) by lia. subst x. destruct fuel; [lia|].
    exists 0. cbn [fxsqrt]. rewrite assert_true by reflexivity. split; [reflexivity|lia]. }
  destruct fuel as [|fuel]; [lia|]. cbn [fxsqrt]. rewrite assert_true by lia.
  destruct (Z.ltb_spec x 2) as [H2|H2].
  { exists x. split; [reflexivity|]. assert (x = 0 \/ x = 1) as [-> | ->] by lia; lia. }
  rewrite Nat2Z.inj_succ, Z.pow_succ_r in Hx by lia.
  rewrite Z.shiftr_div_pow2 by lia. change (2 ^ 2) with 4.
  assert (Hq : 4 * (x / 4) <= x < 4 * (x / 4) + 4) by zdm.
  destruct (IH fuel dbg (x / 4)) as (s & -> & Hs0 & Hs); [lia|lia|lia|].
  cbn [abind]. rewrite Z.shiftl_mul_pow2 by lia. change (2 ^ 1) with 2.
  assert (Hsb : s < 2147483648) by nia.
  rewrite lng_ok by lia. cbn [abind]. rewrite lng_ok by lia. cbn [abind].
  rewrite lng_ok by nia. cbn [abind].
  eexists; split; [reflexivity|].
  destruct (Z.gtb_spec ((s * 2 + 1) * (s * 2 + 1)) x); nia.
Qed.

Lemma exact_integer_sqrt_ok : forall fuel dbg x, 0 <= x -> fx x -> (16 <= fuel)%nat ->
  exists r d, exact_integer_sqrt fuel dbg x = Some (r, d) /\ x = r * r + d /\ 0 <= d <= 2 * r /\ 0 <= r.
Proof.
  intros fuel dbg x H0 Hx Hf. unfold fx in Hx.
  destruct (fxsqrt_ok 15 fuel dbg x) as (s & E & Hs0 & Hs).
  { change (4 ^ Z.of_nat 15) with 1073741824. lia. } { lia. } { lia. }
  unfold exact_integer_sqrt. rewrite E. exists s, (x - s * s).
  unfold fxmul, fxsub. rewrite assert_true by (apply in_fx_spec; unfold fx; nia).
  rewrite lng_ok by nia. cbn [abind]. rewrite lng_ok by nia. cbn [abind].
  rewrite assert_true by (apply in_fx_spec; unfold fx; nia). split; [reflexivity|nia].
Qed.

(** ** checked arithmetic: a result is returned exactly when it fits *)
Lemma checked_iff : forall z c, -9223372036854775808 <= z <= 9223372036854775807 ->
  (c = true <-> fx z) ->
  (fx z -> assert_ true c (lng z) = AVal z) /\ (~ fx z -> assert_ true c (lng z) = AFail).
Proof.
  intros z c Hl Hc. split; intros H.
  - rewrite assert_true by tauto. now apply lng_ok.
  - destruct c; [tauto|reflexivity].
Qed.

Lemma checked_post : forall z, -9223372036854775808 <= z <= 9223372036854775807 ->
  (fx z -> abind (lng z) (fun z => assert_ true (in_fx z) (AVal z)) = AVal z) /\
  (~ fx z -> abind (lng z) (fun z => assert_ true (in_fx z) (AVal z)) = AFail).
Proof.
  intros z Hl. rewrite lng_ok by assumption. cbn [abind]. split; intros H.
  - now rewrite assert_true by (now apply in_fx_spec).
  - apply in_fx_false in H. now rewrite H.
Qed.

Lemma checked_ops : forall x y, fx x -> fx y ->
  ((fx (- x) -> fxneg true x = AVal (- x)) /\ (~ fx (- x) -> fxneg true x = AFail)) /\
  ((fx (Z.abs x) -> fxabs true x = AVal (Z.abs x)) /\ (~ fx (Z.abs x) -> fxabs true x = AFail)) /\
  ((fx (x + y) -> fxadd true x y = AVal (x + y)) /\ (~ fx (x + y) -> fxadd true x y = AFail)) /\
  ((fx (x - y) -> fxsub true x y = AVal (x - y)) /\ (~ fx (x - y) -> fxsub true x y = AFail)) /\
  ((fx (x * y) -> fxmul true x y = AVal (x * y)) /\ (~ fx (x * y) -> fxmul true x y = AFail)).
Proof.
  intros x y Hx Hy. pose proof (fx_prod_long x y Hx Hy) as Hm.
  split; [|split; [|split; [|split]]].
  - apply checked_iff; unfold fx, FXMIN in *; lia.
  - apply checked_iff; unfold fx, FXMIN in *; lia.
  - apply checked_post; unfold fx in *; lia.
  - apply checked_post; unfold fx in *; lia.
  - apply checked_iff; [assumption|apply in_fx_spec].
Qed.

Lemma unchecked_ops : forall x y, fx x -> fx y ->
  fxneg false x = AVal (- x) /\ fxabs false x = AVal (Z.abs x) /\
  fxadd false x y = AVal (x + y) /\ fxsub false x y = AVal (x - y) /\ fxmul false x y = AVal (x * y).
Proof.
  intros x y Hx Hy. pose proof (fx_prod_long x y Hx Hy) as Hm. unfold fx in *.
  unfold fxneg, fxabs, fxadd, fxsub, fxmul, labs, assert_; cbn [andb].
  rewrite !lng_ok by lia. repeat split.
Qed.

End Width.
