From Coq Require Import ZArith List Bool Lia.
From Verif Require Import Base Model_Imm Proofs_Imm Model_GC Model_List Spec_List.
Import ListNotations.
Open Scope Z_scope.

Lemma mknull_eq : mknull = NULL.
Proof. reflexivity. Qed.

Section Heap.
Variables heap hs : Z.
Hypothesis Hok : heap_ok heap hs.
Notation hm := (hmask hs).

Lemma isobjptr_iff o : isobjptr o heap hm = true <-> in_heap heap hs o.
Proof. destruct Hok as [[(k & Hk & Hs) _] _]. unfold in_heap. apply (isobjptr_spec o heap hs k Hk Hs). Qed.

Lemma notobjptr_false o : in_heap heap hs o -> notobjptr o heap hm = false.
Proof. intros H. apply isobjptr_iff in H. unfold isobjptr in H. destruct (notobjptr o heap hm); [discriminate|reflexivity]. Qed.

Lemma null_not_in_heap : ~ in_heap heap hs NULL.
Proof. unfold in_heap, NULL. destruct Hok as [_ Hm]. intros [_ H]. zdm. Qed.

Lemma size_of n : 0 <= n < 2147483648 -> size_from_obj (2 * n + 1) = n.
Proof. intros H. rewrite <- obj_from_size_eq. apply size_from_obj_size. exact H. Qed.

Lemma notaptr_odd n : notaptr (2 * n + 1) = true.
Proof. rewrite notaptr_spec. apply Z.eqb_eq. zdm. Qed.

Lemma istagged_at : forall m o t n, in_heap heap hs o -> 1 <= n < 2147483648 ->
  m (o - 8) = 2 * n + 1 -> m o = 2 * t + 1 -> istagged heap hm m o t = true.
Proof.
  intros m o t n Hi Hn H1 H2. unfold istagged. rewrite notobjptr_false by assumption.
  rewrite H1, H2, notaptr_odd, size_of, obj_from_size_eq by lia.
  replace (1 <=? n) with true by lia. rewrite Z.eqb_refl. reflexivity.
Qed.

Lemma pair_ispair : forall m p, pair_at heap hs m p -> ispair heap hm m p = true.
Proof. intros m p (H1 & H2 & H3). apply (istagged_at m p 3 3); [assumption|lia|assumption|assumption]. Qed.

Lemma pair_ref : forall m p i, pair_at heap hs m p -> 0 <= i < 2 ->
  taggedref heap hm m p PAIR_BTAG i = LVal (p + 8 * (i + 1)).
Proof.
  intros m p i H Hi. unfold taggedref. pose proof (pair_ispair m p H) as E. unfold ispair in E.
  rewrite E. destruct H as (_ & -> & _). rewrite size_of by lia.
  replace ((0 <=? i) && (i <? 3 - 1)) with true by lia. reflexivity.
Qed.

Lemma car_ok : forall m p, pair_at heap hs m p -> car heap hm m p = LVal (car_at m p).
Proof. intros m p H. unfold car. rewrite pair_ref by (assumption || lia). reflexivity. Qed.
Lemma cdr_ok : forall m p, pair_at heap hs m p -> cdr heap hm m p = LVal (cdr_at m p).
Proof.
  intros m p H. unfold cdr. rewrite pair_ref by (assumption || lia). cbn [lbind]. unfold cdr_at.
  do 2 f_equal.
Qed.

Lemma pair_not_null : forall m p, pair_at heap hs m p -> (p =? mknull) = false.
Proof.
  intros m p (H & _). apply Z.eqb_neq. intros ->. rewrite mknull_eq in H. now apply null_not_in_heap in H.
Qed.

(** ** list? *)
Section IsList.
Variable m : mem.
Fixpoint path (l : Z) (n : nat) : Z :=
  match n with O => l | S n' => cdr_at m (path l n') end.

Variable l0 : Z.
Notation pa := (path l0).
Notation P x := (pair_at heap hs m x).

Lemma path_add : forall a b, path l0 (a + b) = path (path l0 b) a.
Proof. induction a; intros b; cbn; [reflexivity|now rewrite IHa]. Qed.

Lemma proper_path : proper heap hs m l0 <-> exists n, (forall i, (i < n)%nat -> P (pa i)) /\ pa n = NULL.
Proof.
  split.
  - induction 1 as [|p Hp Hd [n [IH1 IH2]]].
    + exists 0%nat. split; [intros; lia|reflexivity].
    + exists (S n). assert (Es : forall k, path p (S k) = path (cdr_at m p) k).
      { induction k as [|k IHk]; [reflexivity|]. cbn [path] in *. now rewrite IHk. }
      split; [|now rewrite Es]. intros [|i] Hi; [exact Hp|]. rewrite Es. apply IH1. lia.
  - intros (n & H1 & H2).
    assert (H : forall k, (k <= n)%nat -> proper heap hs m (pa (n - k))).
    { induction k as [|k IH]; intros Hk.
      - rewrite Nat.sub_0_r, H2. constructor.
      - apply proper_cons; [apply H1; lia|]. specialize (IH ltac:(lia)).
        replace (n - k)%nat with (S (n - S k)) in IH by lia. exact IH. }
    specialize (H n (le_n n)). now rewrite Nat.sub_diag in H.
Qed.

(** a repetition on the path excludes that it ends *)
Lemma cycle_not_proper : forall a b, (a < b)%nat -> (forall i, (i < b)%nat -> P (pa i)) ->
  pa a = pa b -> ~ proper heap hs m l0.
Proof.
  intros a b Hab HP E Hp. apply proper_path in Hp. destruct Hp as (n & H1 & H2).
  assert (Hall : forall k, (k < b + k)%nat -> P (pa k)).
  { intros k _. induction k as [k IH] using (well_founded_induction lt_wf).
    destruct (Nat.lt_ge_cases k b) as [Hk|Hk]; [now apply HP|].
    replace (pa k) with (pa (k - b + a)); [apply IH; lia|].
    replace k with (k - b + b)%nat at 2 by lia. rewrite !path_add, E. reflexivity. }
  specialize (Hall n ltac:(lia)). rewrite H2 in Hall. destruct Hall as [Hn _]. now apply null_not_in_heap in Hn.
Qed.

Lemma nonpair_not_proper : forall b, (forall i, (i < b)%nat -> P (pa i)) -> ~ P (pa b) ->
  pa b <> NULL -> ~ proper heap hs m l0.
Proof.
  intros b HP Hb Hn Hp. apply proper_path in Hp. destruct Hp as (n & H1 & H2).
  destruct (Nat.lt_trichotomy n b) as [Hlt|[->|Hlt]].
  - specialize (HP n Hlt). rewrite H2 in HP. destruct HP as [HP _]. now apply null_not_in_heap in HP.
  - contradiction.
  - apply Hb. now apply H1.
Qed.

Hypothesis Hpairs : well_tagged heap hs m l0.

Lemma path_reach : forall n, (forall i, (i < n)%nat -> P (pa i)) -> cdr_reach heap hs m l0 (pa n).
Proof.
  induction n as [|n IH]; intros H; [constructor|]. cbn [path]. constructor; [|apply H; lia].
  apply IH. intros; apply H; lia.
Qed.

Lemma ispair_iff : forall n, (forall i, (i < n)%nat -> P (pa i)) -> ispair heap hm m (pa n) = true <-> P (pa n).
Proof.
  intros n Hn. split; [|apply pair_ispair]. intros H. pose proof (Hpairs _ (path_reach n Hn)) as Hs.
  unfold ispair, istagged in H. destruct (notobjptr (pa n) heap hm) eqn:E; [discriminate|].
  apply andb_prop in H. destruct H as [_ H]. apply Z.eqb_eq in H. rewrite obj_from_size_eq in H.
  assert (Hin : in_heap heap hs (pa n)) by (apply isobjptr_iff; unfold isobjptr; now rewrite E).
  split; [exact Hin|]. split; [now apply Hs|exact H].
Qed.

Lemma islist_loop_ok : forall fuel t, (forall i, (i < 2 * t)%nat -> P (pa i)) ->
  (exists b, islist_loop heap hm fuel m (pa t) (pa (2 * t)) = LVal b /\
             (b = true <-> proper heap hs m l0)) \/
  (islist_loop heap hm fuel m (pa t) (pa (2 * t)) = LFuel /\
   forall t', (t <= t' < t + fuel)%nat -> pa (2 * t' + 1) <> pa t' /\
     (forall i, (i <= 2 * t' + 1)%nat -> P (pa i))).
Proof.
  induction fuel as [|fuel IH]; intros t HP.
  { right. split; [reflexivity|]. intros; lia. }
  cbn [islist_loop]. unfold isnull. rewrite mknull_eq.
  assert (Yes : forall n, (forall i, (i < n)%nat -> P (pa i)) -> pa n = NULL ->
            exists b, LVal true = LVal b /\ (b = true <-> proper heap hs m l0)).
  { intros n H1 H2. exists true. split; [reflexivity|]. split; [intros _|reflexivity].
    apply proper_path. eauto. }
  assert (No : ~ proper heap hs m l0 -> exists b, LVal false = LVal b /\ (b = true <-> proper heap hs m l0)).
  { intros H. exists false. split; [reflexivity|]. split; [discriminate|tauto]. }
  destruct (Z.eqb_spec (pa (2 * t)) NULL) as [E|En]; [left; eauto|].
  destruct (ispair heap hm m (pa (2 * t))) eqn:Ep; cbn [negb].
  2:{ left. apply No. apply (nonpair_not_proper (2 * t) HP); [|assumption].
      rewrite <- (ispair_iff _ HP). congruence. }
  apply (ispair_iff _ HP) in Ep. rewrite (cdr_ok _ _ Ep). cbn [lbind].
  change (cdr_at m (pa (2 * t))) with (pa (S (2 * t))).
  assert (HP1 : forall i, (i < S (2 * t))%nat -> P (pa i)).
  { intros i Hi. destruct (Nat.eq_dec i (2 * t)) as [->|]; [assumption|apply HP; lia]. }
  destruct (Z.eqb_spec (pa (S (2 * t))) (pa t)) as [E|Ene1].
  { left. apply No. apply (cycle_not_proper t (S (2 * t))); [lia|assumption|congruence]. }
  destruct (Z.eqb_spec (pa (S (2 * t))) NULL) as [E|En1]; [left; eauto|].
  destruct (ispair heap hm m (pa (S (2 * t)))) eqn:Ep1; cbn [negb].
  2:{ left. apply No. apply (nonpair_not_proper (S (2 * t)) HP1); [|assumption].
      rewrite <- (ispair_iff _ HP1). congruence. }
  apply (ispair_iff _ HP1) in Ep1. rewrite (cdr_ok _ _ Ep1). cbn [lbind].
  change (cdr_at m (pa (S (2 * t)))) with (pa (S (S (2 * t)))).
  assert (HP2 : forall i, (i < S (S (2 * t)))%nat -> P (pa i)).
  { intros i Hi. destruct (Nat.eq_dec i (S (2 * t))) as [->|]; [assumption|apply HP1; lia]. }
  destruct (Z.eqb_spec (pa (S (S (2 * t)))) (pa t)) as [E|Ene2].
  { left. apply No. apply (cycle_not_proper t (S (S (2 * t)))); [lia|assumption|congruence]. }
  rewrite (cdr_ok _ _ (HP2 t ltac:(lia))). cbn [lbind].
  change (cdr_at m (pa t)) with (pa (S t)).
  replace (S (S (2 * t))) with (2 * S t)%nat in * by lia.
  destruct (IH (S t) HP2) as [H|[H1 H2]]; [left; exact H|right]. split; [exact H1|].
  intros t' Ht'. destruct (Nat.eq_dec t' t) as [->|Hne].
  - split; [now rewrite Nat.add_1_r|]. intros i Hi. apply HP2. lia.
  - apply H2. lia.
Qed.

(** pigeonhole *)
Lemma dup_or_nodup : forall (f : nat -> Z) n,
  (exists i j, (i < j < n)%nat /\ f i = f j) \/ NoDup (map f (seq 0 n)).
Proof.
  intros f. induction n as [|n IH]; [right; constructor|].
  destruct IH as [(i & j & H & E)|IH]; [left; exists i, j; split; [lia|assumption]|].
  destruct (in_dec Z.eq_dec (f n) (map f (seq 0 n))) as [Hin|Hn].
  - left. apply in_map_iff in Hin. destruct Hin as (i & E & Hi). apply in_seq in Hi.
    exists i, n. split; [lia|assumption].
  - right. rewrite seq_S, map_app. cbn [map]. rewrite Nat.add_0_l.
    apply NoDup_rev in IH. rewrite <- (rev_involutive (_ ++ _)), rev_app_distr. apply NoDup_rev.
    cbn [rev app]. constructor; [|assumption]. now rewrite <- in_rev.
Qed.

Lemma islist_ok : forall fuel, (Z.to_nat (8 * hs) + 1 < fuel)%nat ->
  exists b, islist heap hm fuel m l0 = LVal b /\ (b = true <-> proper heap hs m l0).
Proof.
  intros fuel Hf. unfold islist.
  destruct (islist_loop_ok fuel 0) as [H|[H1 H2]]; [intros; lia|exact H|]. exfalso.
  set (N := Z.to_nat (8 * hs)) in *.
  set (L := map (fun i => heap + Z.of_nat i) (seq 0 N)).
  assert (HL : forall x, P x -> In x L).
  { intros x ([Hx _] & _). apply in_map_iff. exists (Z.to_nat (x - heap)).
    split; [lia|]. apply in_seq. unfold N. lia. }
  assert (HPall : forall i, (i <= N + 1)%nat -> P (pa i)).
  { intros i Hi. apply (H2 i ltac:(lia)). lia. }
  destruct (dup_or_nodup pa (S N)) as [(i & j & Hij & E)|Hnd].
  - (* take t' = the last multiple of the period minus one, not before i *)
    set (p := (j - i)%nat).
    set (t' := (p * (i / p + 1) - 1)%nat).
    assert (Hp : (p <> 0)%nat) by (unfold p; lia).
    assert (Ht1 : (i <= t')%nat).
    { unfold t'. pose proof (Nat.mul_succ_div_gt i p Hp). rewrite <- Nat.add_1_r in H. lia. }
    assert (Ht2 : (t' < j)%nat).
    { unfold t'. pose proof (Nat.mul_div_le i p Hp). rewrite Nat.mul_add_distr_l, Nat.mul_1_r. lia. }
    assert (Hper : forall k x, (i <= x)%nat -> pa (x + p * k) = pa x).
    { assert (H1p : forall x, (i <= x)%nat -> pa (x + p) = pa x).
      { intros x Hx. replace (x + p)%nat with ((x - i) + j)%nat by (unfold p; lia).
        replace x with ((x - i) + i)%nat at 2 by lia. now rewrite !path_add, E. }
      induction k as [|k IHk]; intros x Hx; [now rewrite Nat.mul_0_r, Nat.add_0_r|].
      replace (x + p * S k)%nat with (x + p * k + p)%nat by lia. rewrite H1p by lia. now apply IHk. }
    destruct (H2 t' ltac:(lia)) as [Hne _]. apply Hne.
    replace (2 * t' + 1)%nat with (t' + p * (i / p + 1))%nat.
    + now apply Hper.
    + enough (1 <= p * (i / p + 1))%nat by (unfold t' in *; lia). nia.
  - assert (Hlen : (length (map pa (seq 0 (S N))) <= length L)%nat).
    { apply NoDup_incl_length; [exact Hnd|]. intros x Hx. apply in_map_iff in Hx.
      destruct Hx as (i & <- & Hi). apply in_seq in Hi. apply HL, HPall. lia. }
    unfold L in Hlen. rewrite !map_length, !seq_length in Hlen. lia.
Qed.
End IsList.
End Heap.
