From Coq Require Import ZArith List Bool Lia Sorted.
From Verif Require Import Base Model_Imm Model_Imm2 Proofs_Imm Proofs_Imm2.
Import ListNotations.
Open Scope Z_scope.

Definition sumZ (l : list Z) : Z := fold_right Z.add 0 l.
Definition prodZ (l : list Z) : Z := fold_right Z.mul 1 l.
Definition fxrange (x : Z) : Prop := -8388608 <= x <= 8388607.

Lemma ckint_in z : -2147483648 <= z <= 2147483647 -> ckint z = Val z.
Proof.
  intros. unfold ckint. replace (_ && _) with true; [reflexivity|].
  symmetry. apply andb_true_iff. split; apply Z.leb_le; unfold INT_MIN, INT_MAX; lia.
Qed.
Lemma ckint_val z v : ckint z = Val v -> v = z.
Proof. unfold ckint. destruct (_ && _); intros E; [now injection E|discriminate]. Qed.

Lemma sum_bound l : Forall fxrange l ->
  - 8388608 * Z.of_nat (length l) <= sumZ l <= 8388607 * Z.of_nat (length l).
Proof.
  induction 1 as [|x l Hx Hl IH]; [cbn; lia|]. cbn [sumZ fold_right length]. fold (sumZ l).
  unfold fxrange in Hx. lia.
Qed.

Lemma nary_cons op u x y l : fx_nary op u (x :: y :: l) = rbind (fx_nary op u (y :: l)) (fun r => op x r).
Proof. reflexivity. Qed.

Lemma fx_plus_ok : forall l, (length l <= 255)%nat -> Forall fxrange l -> fx_plus l = Val (sumZ l).
Proof.
  induction l as [|x l IH]; intros Hn H; [reflexivity|].
  destruct l as [|y l]; [cbn; f_equal; lia|].
  unfold fx_plus in *. rewrite nary_cons. rewrite IH; [|cbn in *; lia|now inversion H]. cbn [rbind].
  unfold fxadd. pose proof (sum_bound _ H) as B.
  assert (Hl : Z.of_nat (length (x :: y :: l)) <= 255) by lia.
  apply ckint_in. change (x + sumZ (y :: l)) with (sumZ (x :: y :: l)). lia.
Qed.

Lemma fx_plus_exact : forall l v, fx_plus l = Val v -> v = sumZ l.
Proof.
  induction l as [|x l IH]; intros v E; [now injection E as <-|].
  destruct l as [|y l]; [injection E as <-; cbn; lia|].
  unfold fx_plus in *. rewrite nary_cons in E. destruct (fx_nary fxadd 0 (y :: l)) as [r|]; [|discriminate].
  cbn [rbind] in E. apply ckint_val in E. rewrite (IH r eq_refl) in E. exact E.
Qed.
Lemma fx_times_exact : forall l v, fx_times l = Val v -> v = prodZ l.
Proof.
  induction l as [|x l IH]; intros v E; [now injection E as <-|].
  destruct l as [|y l]; [injection E as <-; cbn; lia|].
  unfold fx_times in *. rewrite nary_cons in E. destruct (fx_nary fxmul 1 (y :: l)) as [r|]; [|discriminate].
  cbn [rbind] in E. apply ckint_val in E. rewrite (IH r eq_refl) in E. exact E.
Qed.

Lemma fx_minus_ok x l : (length l <= 254)%nat -> fxrange x -> Forall fxrange l ->
  fx_minus x l = Val (match l with [] => - x | _ => x - sumZ l end).
Proof.
  intros Hn Hx H. unfold fxrange in Hx. destruct l as [|y [|z l]].
  - apply ckint_in. lia.
  - cbn [fx_minus sumZ fold_right]. inversion_clear H. unfold fxrange in *. unfold fxsub. rewrite Z.add_0_r. apply ckint_in. lia.
  - cbn [fx_minus]. rewrite fx_plus_ok by (auto; lia). cbn [rbind]. unfold fxsub. pose proof (sum_bound _ H) as B.
    apply ckint_in. assert (Z.of_nat (length (y :: z :: l)) <= 254) by lia. lia.
Qed.

Lemma bits_nary op (f : Z -> Z -> Z) u : (forall x y, op x y = Val (f x y)) -> (forall x, f x u = x) ->
  forall l, fx_nary op u l = Val (fold_right f u l).
Proof.
  intros Ho Hu l. induction l as [|x l IH]; [reflexivity|].
  destruct l as [|y l]; [cbn; now rewrite Hu|]. rewrite nary_cons, IH. cbn [rbind]. rewrite Ho. reflexivity.
Qed.
Lemma fx_logand_ok l : fx_logand l = Val (fold_right Z.land (-1) l).
Proof. apply bits_nary; [reflexivity|intros; apply Z.land_m1_r]. Qed.
Lemma fx_logor_ok l : fx_logor l = Val (fold_right Z.lor 0 l).
Proof. apply bits_nary; [reflexivity|intros; apply Z.lor_0_r]. Qed.
Lemma fx_logxor_ok l : fx_logxor l = Val (fold_right Z.lxor 0 l).
Proof. apply bits_nary; [reflexivity|intros; apply Z.lxor_0_r]. Qed.

(** comparison chains *)
Lemma chain_sorted (cmp : Z -> Z -> bool) (R : Z -> Z -> Prop) :
  (forall x y, cmp x y = true <-> R x y) -> (forall x y z, R x y -> R y z -> R x z) ->
  forall l x y, fx_chain cmp x y l = true <-> StronglySorted R (x :: y :: l).
Proof.
  intros Hc Ht l. induction l as [|z l IH]; intros x y; cbn [fx_chain].
  - rewrite Hc. split.
    + intros H. repeat constructor; auto.
    + intros H. inversion_clear H. now inversion_clear H1.
  - rewrite andb_true_iff, Hc, IH. split.
    + intros [A B]. constructor; [exact B|]. constructor; [exact A|].
      inversion_clear B. eapply Forall_impl; [|exact H0]. intros a Ha. eapply Ht; eauto.
    + intros H. inversion_clear H. split; [now inversion_clear H1|exact H0].
Qed.

Lemma fxsrl_ok x y : fxrange x -> fxrange y ->
  fxsrl x y = if (0 <=? y) && (y <? 32) then Val (x / 2 ^ y) else UB.
Proof.
  intros Hx Hy. unfold fxsrl. destruct (Z.leb_spec 0 y); cbn [andb]; [|reflexivity].
  destruct (y <? 32); [|reflexivity]. now rewrite Z.shiftr_div_pow2.
Qed.
Lemma fxsll_ok x y : fxrange x -> fxrange y ->
  fxsll x y = if (0 <=? y) && (y <? 32) && (0 <=? x) && (x * 2 ^ y <=? 2147483647) then Val (x * 2 ^ y) else UB.
Proof.
  intros Hx Hy. unfold fxsll. destruct (Z.leb_spec 0 y); cbn [andb]; [|reflexivity].
  destruct (y <? 32); cbn [andb]; [|reflexivity]. destruct (Z.leb_spec 0 x); cbn [andb]; [|reflexivity].
  rewrite Z.shiftl_mul_pow2 by lia. unfold ckint.
  assert (0 <= x * 2 ^ y) by (apply Z.mul_nonneg_nonneg; [lia|apply Z.pow_nonneg; lia]).
  replace (INT_MIN <=? x * 2 ^ y) with true; [reflexivity|]. symmetry. apply Z.leb_le. unfold INT_MIN. lia.
Qed.

Lemma srl_boxed x y : fxrange x -> 0 <= y < 32 -> boxed (fxsrl x y) = Val (x / 2 ^ y).
Proof.
  intros Hx Hy. unfold fxsrl. replace ((0 <=? y) && (y <? 32)) with true.
  2:{ symmetry. apply andb_true_iff. split; [apply Z.leb_le|apply Z.ltb_lt]; lia. }
  cbn [boxed rbind]. rewrite Z.shiftr_div_pow2 by lia. apply fixnum_roundtrip.
  assert (P : 0 < 2 ^ y) by (apply Z.pow_pos_nonneg; lia). unfold fxrange in Hx. split.
  - apply Z.div_le_lower_bound; nia.
  - destruct (Z_lt_le_dec x 0) as [H|H].
    + assert (x / 2 ^ y < 0) by (apply Z.div_lt_upper_bound; lia). lia.
    + apply Z.le_trans with x; [|lia]. apply Z.div_le_upper_bound; nia.
Qed.

Lemma tests_ok x y : fxrange x -> fxrange y ->
  (fxevenp x = true <-> exists k, x = 2 * k) /\ (fxoddp x = true <-> exists k, x = 2 * k + 1) /\
  (fxzerop x = true <-> x = 0) /\ (fxnegativep x = true <-> x < 0) /\ (fxpositivep x = true <-> x > 0) /\
  fxmin2 x y = Z.min x y /\ fxmax2 x y = Z.max x y.
Proof.
  intros Hx Hy.
  assert (E : Z.rem x 2 = 0 <-> exists k, x = 2 * k).
  { split; intros H.
    - exists (Z.quot x 2). pose proof (Z.quot_rem' x 2). lia.
    - destruct H as [k ->]. rewrite Z.mul_comm. apply Z.rem_mul. lia. }
  split; [unfold fxevenp; rewrite Z.eqb_eq; exact E|].
  split.
  { unfold fxoddp. rewrite negb_true_iff, Z.eqb_neq. split.
    - intros H. exists (x / 2). pose proof (Z.div_mod x 2 ltac:(lia)). pose proof (Z.mod_pos_bound x 2 ltac:(lia)).
      assert (x mod 2 <> 0); [|lia]. intros C. apply H. apply E. exists (x / 2). lia.
    - intros [k Hk] H. apply E in H. destruct H as [j Hj]. lia. }
  unfold fxzerop, fxnegativep, fxpositivep, fxmin2, fxmax2.
  rewrite Z.eqb_eq, !Z.ltb_lt. destruct (Z.ltb_spec x y), (Z.ltb_spec y x); repeat split; lia.
Qed.
