(** C09: the register window. *)
From Coq Require Import ZArith List Bool Lia.
From Verif Require Import Model_Regs Spec_Regs Proofs_Regs.
Import ListNotations.
Open Scope Z_scope.

(** one compaction: the file never shrinks and holds [needs] registers, and every
    register of the window that lies in the file keeps its value *)
Theorem C09_compaction_preserves_the_window :
  forall fresh s off needs, 0 <= off -> 0 < needs ->
  let '(s', rd) := cxm_rgc fresh s off needs in
  cap s' = Z.max (cap s) needs /\
  (forall i, 0 <= i < needs -> off + i < cap s -> rf s' i = rf s (off + i)) /\
  rd = (if 0 <? off then map (fun i => off + Z.of_nat i) (seq 0 (Z.to_nat needs)) else []).
Proof. exact cxm_rgc_ok. Qed.
Print Assumptions C09_compaction_preserves_the_window.

Theorem C09_reserve_gives_room :
  forall fresh s off m, 0 <= off -> 0 < m ->
  let '(s', off', rd) := rreserve fresh s off m in
  0 <= off' /\ off' + m <= cap s' /\ cap s <= cap s' /\
  (forall i, 0 <= i < m -> off + i < cap s -> rf s' (off' + i) = rf s (off + i)) /\
  (rd = [] \/ rd = map (fun i => off + Z.of_nat i) (seq 0 (Z.to_nat m))).
Proof. exact rreserve_ok. Qed.
Print Assumptions C09_reserve_gives_room.

(** Every run of register stores, window shifts, calls and host changes, from start-up:
    whatever values the added registers have, the machine agrees with an unbounded
    window, and the registers the code may use (so all its stores) lie in the file. *)
Theorem C09_runs_agree_with_an_unbounded_window :
  forall fresh0 m0 l w', 0 < m0 ->
  wrun (mkw (fun _ => None) m0 m0) (map fst l) = Some w' ->
  let '(f0, off0, _) := rreserve fresh0 (rgc_init fresh0) 0 m0 in
  let s := rrun (mkrs f0 off0 m0 []) l in
  0 <= r_off s /\ r_off s + w_room w' <= cap (r_file s) /\
  forall i v, w_val w' i = Some v -> 0 <= i < w_room w' /\ rf (r_file s) (r_off s + i) = v.
Proof.
  intros fresh0 m0 l w' H0 E.
  pose proof (rreserve_ok fresh0 (rgc_init fresh0) 0 m0 ltac:(lia) H0) as R.
  destruct (rreserve fresh0 (rgc_init fresh0) 0 m0) as [[f0 off0] rd]. destruct R as (R1 & R2 & _).
  destruct (rrun_ok l (mkrs f0 off0 m0 []) (mkw (fun _ => None) m0 m0) w') as (I1 & _ & _ & _ & I5 & I6); auto.
  repeat split; cbn; try lia; discriminate.
Qed.
Print Assumptions C09_runs_agree_with_an_unbounded_window.

(** The claim that compaction never reads outside the register file is false: a
    window shift near the end of the initial file makes it read behind the end. *)
Definition ex_run : list (rop * (Z -> Z)) :=
  (RSet 3 42, fun _ => 0) :: repeat (RCall 7, fun _ => 0) 583.
Theorem C09_reads_stay_inside_refuted :
  exists m0 l w', wrun (mkw (fun _ => None) m0 m0) (map fst l) = Some w' /\
    let '(f0, off0, _) := rreserve (fun _ => 0) (rgc_init (fun _ => 0)) 0 m0 in
    let s := rrun (mkrs f0 off0 m0 []) l in
    exists i, In i (r_reads s) /\ cap (r_file s) <= i.
Proof.
  exists 12, ex_run.
  assert (Hw : exists w', wrun (mkw (fun _ => None) 12 12) (map fst ex_run) = Some w').
  { assert (C : match wrun (mkw (fun _ => None) 12 12) (map fst ex_run) with Some _ => true | None => false end = true)
      by (vm_compute; reflexivity).
    revert C. generalize (wrun (mkw (fun _ => None) 12 12) (map fst ex_run)).
    intros [w'|] C; [exists w'; reflexivity|discriminate]. }
  destruct Hw as [w' Hw]. exists w'. split; [exact Hw|].
  assert (C : (let '(f0, off0, _) := rreserve (fun _ => 0) (rgc_init (fun _ => 0)) 0 12 in
               let s := rrun (mkrs f0 off0 12 []) ex_run in
               existsb (Z.eqb 4092) (r_reads s) && (cap (r_file s) =? 4092)) = true) by (vm_compute; reflexivity).
  destruct (rreserve (fun _ => 0) (rgc_init (fun _ => 0)) 0 12) as [[f0 off0] rd].
  cbv zeta in C |- *. revert C. generalize (rrun (mkrs f0 off0 12 []) ex_run). clear Hw. intros s C.
  apply andb_prop in C. destruct C as [C1 C2]. apply Z.eqb_eq in C2. exists 4092.
  split; [|lia]. apply existsb_exists in C1. destruct C1 as (x & Hx & E). apply Z.eqb_eq in E. now subst x.
Qed.
Print Assumptions C09_reads_stay_inside_refuted.

(** exactly how far: the last register read is [off + needs - 1] *)
Theorem C09_reads_inside_iff :
  forall fresh s off needs, 0 < off -> 0 < needs ->
  let '(s', rd) := cxm_rgc fresh s off needs in
  (forall i, In i rd -> 0 <= i < cap s') <-> off + needs <= Z.max (cap s) needs.
Proof.
  intros fresh s off needs Ho Hn. pose proof (cxm_rgc_ok fresh s off needs ltac:(lia) Hn) as C.
  destruct (cxm_rgc fresh s off needs) as [s' rd]. destruct C as (A & _ & C). rewrite A, C.
  destruct (Z.ltb_spec 0 off); [|lia]. split.
  - intros Hall. specialize (Hall (off + Z.of_nat (Z.to_nat needs - 1))). 
    assert (Hin : In (off + Z.of_nat (Z.to_nat needs - 1)) (map (fun i => off + Z.of_nat i) (seq 0 (Z.to_nat needs)))).
    { apply in_map_iff. exists (Z.to_nat needs - 1)%nat. split; [reflexivity|]. apply in_seq. lia. }
    specialize (Hall Hin). lia.
  - intros Hle i Hin. apply in_map_iff in Hin. destruct Hin as (k & <- & Hk). apply in_seq in Hk. lia.
Qed.
Print Assumptions C09_reads_inside_iff.

(** four values survive a shift that forces compaction *)
Example C09_example :
  let l : list (rop * (Z -> Z)) := [(RSet 0 5, fun _ => 9); (RSet 4000 11, fun _ => 9); (RSet 4001 12, fun _ => 9); (RCall 4000, fun _ => 9); (RHost 5000, fun _ => 7)] in
  match wrun (mkw (fun _ => None) 4090 4090) (map fst l) with
  | Some w' => w_val w' 0 = Some 11 /\ w_val w' 1 = Some 12 /\ w_val w' 2 = None
  | None => False
  end.
Proof. vm_compute. auto. Qed.
