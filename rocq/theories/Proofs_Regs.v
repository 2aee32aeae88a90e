From Coq Require Import ZArith List Bool Lia.
From Verif Require Import Model_Regs Spec_Regs.
Import ListNotations.
Open Scope Z_scope.

Lemma copy_up_ok : forall n f src dst, dst < src ->
  let '(f', rd) := copy_up n f src dst in
  (forall i, 0 <= i < Z.of_nat n -> f' (dst + i) = f (src + i)) /\
  (forall x, ~ (dst <= x < dst + Z.of_nat n) -> f' x = f x) /\
  rd = map (fun i => src + Z.of_nat i) (seq 0 n).
Proof.
  induction n as [|n IH]; intros f src dst H; cbn [copy_up].
  - split; [intros; lia|]. split; [reflexivity|reflexivity].
  - specialize (IH (rset f dst (f src)) (src + 1) (dst + 1) ltac:(lia)).
    destruct (copy_up n (rset f dst (f src)) (src + 1) (dst + 1)) as [f' rd].
    destruct IH as (A & B & C). split; [|split].
    + intros i Hi. destruct (Z.eq_dec i 0) as [->|Hne].
      * rewrite !Z.add_0_r. rewrite B by lia. unfold rset. now rewrite Z.eqb_refl.
      * replace (dst + i) with (dst + 1 + (i - 1)) by lia. rewrite A by lia.
        replace (src + 1 + (i - 1)) with (src + i) by lia. unfold rset.
        destruct (Z.eqb_spec (src + i) dst); [lia|reflexivity].
    + intros x Hx. rewrite B by lia. unfold rset. destruct (Z.eqb_spec x dst); [lia|reflexivity].
    + cbn [seq map]. f_equal; [lia|]. rewrite C, <- seq_shift, map_map. apply map_ext. intros; lia.
Qed.

(** compaction: live registers keep their values, room for [needs] *)
Lemma cxm_rgc_ok : forall fresh s off needs, 0 <= off -> 0 < needs ->
  let '(s', rd) := cxm_rgc fresh s off needs in
  cap s' = Z.max (cap s) needs /\
  (forall i, 0 <= i < needs -> off + i < cap s -> rf s' i = rf s (off + i)) /\
  rd = (if 0 <? off then map (fun i => off + Z.of_nat i) (seq 0 (Z.to_nat needs)) else []).
Proof.
  intros fresh s off needs Ho Hn. unfold cxm_rgc.
  set (s1 := if cap s <? needs then _ else s).
  assert (Hc : cap s1 = Z.max (cap s) needs).
  { unfold s1. destruct (Z.ltb_spec (cap s) needs); cbn [cap]; lia. }
  assert (Hr : forall x, x < cap s -> rf s1 x = rf s x).
  { intros x Hx. unfold s1. destruct (cap s <? needs); [|reflexivity]. cbn [rf].
    destruct (Z.ltb_spec x (cap s)); [reflexivity|lia]. }
  destruct (Z.ltb_spec 0 off) as [H0|H0].
  - pose proof (copy_up_ok (Z.to_nat needs) (rf s1) off 0 H0) as C.
    destruct (copy_up (Z.to_nat needs) (rf s1) off 0) as [f rd]. destruct C as (A & B & C).
    cbn [cap rf]. split; [exact Hc|]. split; [|exact C].
    intros i Hi Hb. specialize (A i). rewrite Z2Nat.id in A by lia. rewrite Z.add_0_l in A.
    rewrite A by lia. now apply Hr.
  - split; [exact Hc|]. split; [|reflexivity]. intros i Hi Hb. replace off with 0 by lia.
    rewrite Z.add_0_l. apply Hr. lia.
Qed.

Lemma rreserve_ok : forall fresh s off m, 0 <= off -> 0 < m ->
  let '(s', off', rd) := rreserve fresh s off m in
  0 <= off' /\ off' + m <= cap s' /\ cap s <= cap s' /\
  (forall i, 0 <= i < m -> off + i < cap s -> rf s' (off' + i) = rf s (off + i)) /\
  (rd = [] \/ rd = map (fun i => off + Z.of_nat i) (seq 0 (Z.to_nat m))).
Proof.
  intros fresh s off m Ho Hm. unfold rreserve. destruct (Z.leb_spec (cap s) (off + m)) as [H|H].
  - pose proof (cxm_rgc_ok fresh s off m Ho Hm) as C. destruct (cxm_rgc fresh s off m) as [s' rd].
    destruct C as (A & B & C). split; [lia|]. split; [lia|]. split; [lia|]. split.
    + intros i Hi Hb. rewrite Z.add_0_l. now apply B.
    + destruct (0 <? off); [now right|now left].
  - split; [lia|]. split; [lia|]. split; [lia|]. split; [reflexivity|now left].
Qed.

(** the invariant of a run *)
Definition rinv (s : rstate) (w : window) : Prop :=
  0 <= r_off s /\ 0 <= w_room w <= w_max w /\ w_max w = r_max s /\ 0 < r_max s /\
  r_off s + w_room w <= cap (r_file s) /\
  (forall i v, w_val w i = Some v -> 0 <= i < w_room w /\ rf (r_file s) (r_off s + i) = v).

Lemma cut_some n f i v : cut n f i = Some v -> 0 <= i < n /\ f i = Some v.
Proof.
  unfold cut. destruct (Z.leb_spec 0 i), (Z.ltb_spec i n); cbn [andb]; try discriminate. intros; split; [lia|assumption].
Qed.

Lemma rstep_ok : forall fresh s w o w', rinv s w -> wstep w o = Some w' -> rinv (rstep fresh s o) w'.
Proof.
  intros fresh s w o w' (I1 & I2 & I3 & I4 & I5 & I6) E. destruct o as [i v|l|l|m']; cbn [wstep rstep] in *.
  - destruct (Z.leb_spec 0 i), (Z.ltb_spec i (w_room w)); cbn [andb] in E; try discriminate. injection E as <-.
    repeat (split; [cbn; lia || assumption|]). cbn [w_val r_file rf r_off w_room]. intros j u Hj.
    unfold rset. destruct (Z.eqb_spec j i) as [->|Hne].
    + injection Hj as <-. split; [lia|]. now rewrite Z.eqb_refl.
    + destruct (I6 _ _ Hj) as [A B]. split; [exact A|]. destruct (Z.eqb_spec (r_off s + j) (r_off s + i)); [lia|exact B].
  - destruct (Z.leb_spec 0 l), (Z.leb_spec l (w_room w)); cbn [andb] in E; try discriminate. injection E as <-.
    repeat (split; [cbn; lia || assumption|]). cbn [w_val r_file rf r_off w_room]. intros j u Hj.
    apply cut_some in Hj. destruct Hj as [Hj1 Hj2]. destruct (I6 _ _ Hj2) as [A B].
    split; [lia|]. rewrite <- B. f_equal. lia.
  - destruct (Z.leb_spec 0 l), (Z.leb_spec l (w_room w)); cbn [andb] in E; try discriminate. injection E as <-.
    pose proof (rreserve_ok fresh (r_file s) (r_off s + l) (r_max s) ltac:(lia) I4) as R.
    destruct (rreserve fresh (r_file s) (r_off s + l) (r_max s)) as [[f off] rd].
    destruct R as (R1 & R2 & R3 & R4 & _). unfold rinv. cbn [r_file r_off r_max w_val w_room w_max].
    split; [exact R1|]. split; [lia|]. split; [exact I3|]. split; [exact I4|]. split; [lia|].
    intros j u Hj. apply cut_some in Hj. destruct Hj as [Hj1 Hj2]. destruct (I6 _ _ Hj2) as [A B].
    split; [lia|]. rewrite R4 by lia. rewrite <- B. f_equal. lia.
  - destruct (Z.ltb_spec 0 m'); try discriminate. injection E as <-.
    pose proof (cxm_rgc_ok fresh (r_file s) (r_off s) (r_max s) I1 I4) as G.
    destruct (cxm_rgc fresh (r_file s) (r_off s) (r_max s)) as [f rd]. destruct G as (G1 & G2 & _).
    pose proof (rreserve_ok fresh f 0 m' ltac:(lia) H) as R.
    destruct (rreserve fresh f 0 m') as [[f' off] rd']. destruct R as (R1 & R2 & R3 & R4 & _).
    unfold rinv. cbn [r_file r_off r_max w_val w_room w_max].
    split; [exact R1|]. split; [lia|]. split; [reflexivity|]. split; [exact H|]. split; [lia|].
    intros j u Hj. apply cut_some in Hj. destruct Hj as [Hj1 Hj2]. destruct (I6 _ _ Hj2) as [A B].
    split; [lia|]. rewrite R4 by lia. rewrite Z.add_0_l. rewrite G2 by lia. exact B.
Qed.

Lemma rrun_ok : forall l s w w', rinv s w -> wrun w (map fst l) = Some w' -> rinv (rrun s l) w'.
Proof.
  induction l as [|[o fresh] l IH]; intros s w w' I E; cbn [map wrun rrun fst] in *.
  - injection E as <-. exact I.
  - destruct (wstep w o) as [w1|] eqn:E1; [|discriminate]. eapply IH; [|exact E]. eapply rstep_ok; eauto.
Qed.
