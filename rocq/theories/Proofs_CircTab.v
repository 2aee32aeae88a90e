(** The hash table of objects behaves as a finite set; marking reachable objects. *)
From Coq Require Import ZArith List Bool Lia.
From Verif Require Import Base Model_Circ Spec_Circ.
Import ListNotations.
Open Scope Z_scope.

(** ** Keys *)
Definition key (x : Z) : Z := Z.land x (-2).
Lemma key_eq x : key x = x - x mod 2.
Proof.
  unfold key. change (-2) with (Z.lnot (Z.ones 1)). rewrite <- Z.ldiff_land, Z.ldiff_ones_r by lia.
  rewrite Z.shiftl_mul_pow2, Z.shiftr_div_pow2 by lia. change (2 ^ 1) with 2. pose proof (Z.div_mod x 2). lia.
Qed.
Lemma key_even o : Z.even o = true -> key o = o.
Proof. intros E. rewrite key_eq. rewrite Zeven_mod in E. apply Zeq_bool_eq in E. lia. Qed.
Lemma key_mark x : key (Z.lor x 1) = key x.
Proof.
  unfold key. rewrite Z.land_lor_distr_l. change (Z.land 1 (-2)) with 0. apply Z.lor_0_r.
Qed.
Lemma mark_nz x : Z.lor x 1 <> 0.
Proof. intros E. apply Z.lor_eq_0_iff in E as [_ E]. discriminate. Qed.

(** ** Probing *)
Section Table.
Variable k : Z.
Hypothesis Hk : 0 <= k.
Let sz := 2 ^ k.
Lemma sz_pos : 0 < sz. Proof. apply Z.pow_pos_nonneg; lia. Qed.
Lemma mask i : Z.land i (sz - 1) = i mod sz.
Proof. unfold sz. replace (2 ^ k - 1) with (Z.ones k) by (rewrite Z.ones_equiv; lia). now apply Z.land_ones. Qed.
Definition ix (o t : Z) : Z := (o - t) mod sz.
Lemma ix_range o t : 0 <= ix o t < sz.
Proof. apply Z.mod_pos_bound, sz_pos. Qed.
Lemma ix_next o t : Z.land (ix o t - 1) (sz - 1) = ix o (t + 1).
Proof. rewrite mask. unfold ix. rewrite Zminus_mod_idemp_l. f_equal. lia. Qed.
Lemma ix_hit o j : 0 <= j < sz -> exists t, 0 <= t < sz /\ ix o t = j.
Proof.
  intros H. exists ((o - j) mod sz). split; [apply Z.mod_pos_bound, sz_pos|]. unfold ix.
  rewrite Zminus_mod_idemp_r. replace (o - (o - j)) with j by lia. now apply Z.mod_small.
Qed.

Lemma probe_ok v o : forall n t0 t, t0 <= t < t0 + Z.of_nat n -> v (ix o t) = 0 \/ key (v (ix o t)) = o ->
  exists t', t0 <= t' <= t /\ (forall s, t0 <= s < t' -> v (ix o s) <> 0 /\ key (v (ix o s)) <> o) /\
    (v (ix o t') = 0 /\ probe n v sz o (ix o t0) = PEmpty (ix o t') \/
     v (ix o t') <> 0 /\ key (v (ix o t')) = o /\ probe n v sz o (ix o t0) = PFound (ix o t')).
Proof.
  induction n as [|n IH]; intros t0 t B H; [lia|]. cbn [probe].
  destruct (Z.eqb_spec (v (ix o t0)) 0) as [E|E].
  - exists t0. split; [lia|]. split; [lia|auto].
  - fold (key (v (ix o t0))). destruct (Z.eqb_spec (key (v (ix o t0))) o) as [E'|E'].
    + exists t0. split; [lia|]. split; [lia|auto].
    + assert (t <> t0) by (intros ->; tauto). rewrite ix_next.
      destruct (IH (t0 + 1) t) as (t' & B' & N & R); [lia|auto|]. exists t'. split; [lia|]. split; [|exact R].
      intros s Hs. destruct (Z.eq_dec s t0) as [->|]; [auto|]. apply N. lia.
Qed.
Lemma vacant_ok v o : forall n t0 t, t0 <= t < t0 + Z.of_nat n -> v (ix o t) = 0 ->
  exists t', t0 <= t' <= t /\ (forall s, t0 <= s < t' -> v (ix o s) <> 0) /\ v (ix o t') = 0 /\
    vacant n v sz (ix o t0) = Some (ix o t').
Proof.
  induction n as [|n IH]; intros t0 t B H; [lia|]. cbn [vacant].
  destruct (Z.eqb_spec (v (ix o t0)) 0) as [E|E].
  - exists t0. split; [lia|]. split; [lia|auto].
  - assert (t <> t0) by congruence. rewrite ix_next.
    destruct (IH (t0 + 1) t) as (t' & B' & N & R); [lia|auto|]. exists t'. split; [lia|]. split; [|exact R].
    intros s Hs. destruct (Z.eq_dec s t0) as [->|]; [auto|]. apply N. lia.
Qed.

(** the table [v] holds the keys [ks] *)
Record tab (v : Z -> Z) (ks : list Z) : Prop := {
  t_in : forall i, 0 <= i < sz -> v i <> 0 -> key (v i) <> 0 /\ In (key (v i)) ks;
  t_path : forall o, In o ks -> exists t, 0 <= t < sz /\ v (ix o t) <> 0 /\ key (v (ix o t)) = o /\
                                     forall s, 0 <= s < t -> v (ix o s) <> 0;
  t_one : forall i j, 0 <= i < sz -> 0 <= j < sz -> v i <> 0 -> v j <> 0 -> key (v i) = key (v j) -> i = j }.

Lemma NoDup_map_on A B (f : A -> B) l : (forall a b, In a l -> In b l -> f a = f b -> a = b) -> NoDup l -> NoDup (map f l).
Proof.
  intros H N. induction N as [|a l NI N IH]; cbn; constructor.
  - intros I. apply in_map_iff in I as (b & E & I). apply NI. rewrite (H a b); cbn; auto.
  - apply IH. intros a' b' Ia Ib. apply H; now right.
Qed.
Lemma has_empty v ks : tab v ks -> Z.of_nat (length ks) < sz -> exists j, 0 <= j < sz /\ v j = 0.
Proof.
  intros T L. pose proof sz_pos as P.
  destruct (existsb (fun i => v (Z.of_nat i) =? 0) (seq 0 (Z.to_nat sz))) eqn:E.
  - apply existsb_exists in E as (i & I & E). apply in_seq in I. apply Z.eqb_eq in E. exists (Z.of_nat i). split; [lia|auto].
  - exfalso.
    assert (NZ : forall i, 0 <= i < sz -> v i <> 0).
    { intros i B Z. assert (existsb (fun i => v (Z.of_nat i) =? 0) (seq 0 (Z.to_nat sz)) = true) as C; [|congruence].
      apply existsb_exists. exists (Z.to_nat i). split; [apply in_seq; lia|]. apply Z.eqb_eq. rewrite Z2Nat.id; [auto|lia]. }
    assert (N : NoDup (map (fun i => key (v (Z.of_nat i))) (seq 0 (Z.to_nat sz)))).
    { apply NoDup_map_on; [|apply seq_NoDup]. intros a b Ia Ib E'. apply in_seq in Ia, Ib. apply Nat2Z.inj.
      apply (t_one _ _ T); try lia; try (apply NZ; lia); auto. }
    assert (I : incl (map (fun i => key (v (Z.of_nat i))) (seq 0 (Z.to_nat sz))) ks).
    { intros x I. apply in_map_iff in I as (i & <- & I). apply in_seq in I. apply (t_in _ _ T); [lia|]. apply NZ. lia. }
    pose proof (NoDup_incl_length N I) as LL. rewrite map_length, seq_length in LL. lia.
Qed.

Lemma probe_start v o : probe (probes sz) v sz o (Z.land o (sz - 1)) = probe (probes sz) v sz o (ix o 0).
Proof. rewrite mask. unfold ix. now rewrite Z.sub_0_r. Qed.
Lemma probes_nat : Z.of_nat (probes sz) = sz + 1.
Proof. unfold probes. pose proof sz_pos. lia. Qed.

Lemma probe_found v ks o : tab v ks -> In o ks ->
  exists i, probe (probes sz) v sz o (Z.land o (sz - 1)) = PFound i /\ 0 <= i < sz /\ v i <> 0 /\ key (v i) = o.
Proof.
  intros T I. destruct (t_path _ _ T o I) as (t & B & NZ & K & P). rewrite probe_start.
  destruct (probe_ok v o (probes sz) 0 t) as (t' & B' & N & [[Z R]|(NZ' & K' & R)]).
  - rewrite probes_nat. lia.
  - auto.
  - exfalso. destruct (Z.eq_dec t t') as [->|]; [auto|]. apply (P t'); [lia|auto].
  - exists (ix o t'). split; [auto|]. split; [apply ix_range|auto].
Qed.
Lemma probe_empty v ks o : tab v ks -> ~ In o ks -> Z.of_nat (length ks) < sz ->
  exists t, 0 <= t < sz /\ probe (probes sz) v sz o (Z.land o (sz - 1)) = PEmpty (ix o t) /\ v (ix o t) = 0 /\
            forall s, 0 <= s < t -> v (ix o s) <> 0.
Proof.
  intros T NI L. destruct (has_empty v ks T L) as (j & Bj & Zj). destruct (ix_hit o j Bj) as (t & B & E). rewrite probe_start.
  destruct (probe_ok v o (probes sz) 0 t) as (t' & B' & N & [[Z R]|(NZ' & K' & R)]).
  - rewrite probes_nat. lia.
  - rewrite E. auto.
  - exists t'. split; [lia|]. split; [auto|]. split; [auto|]. intros s Hs. now apply N.
  - exfalso. apply NI. rewrite <- K'. apply (t_in _ _ T); [apply ix_range|auto].
Qed.
Lemma vacant_empty v ks o : tab v ks -> Z.of_nat (length ks) < sz ->
  exists t, 0 <= t < sz /\ vacant (probes sz) v sz (Z.land o (sz - 1)) = Some (ix o t) /\ v (ix o t) = 0 /\
            forall s, 0 <= s < t -> v (ix o s) <> 0.
Proof.
  intros T L. destruct (has_empty v ks T L) as (j & Bj & Zj). destruct (ix_hit o j Bj) as (t & B & E).
  destruct (vacant_ok v o (probes sz) 0 t) as (t' & B' & N & Z & R).
  - rewrite probes_nat. lia.
  - now rewrite E.
  - exists t'. split; [lia|]. split; [|auto]. rewrite mask. unfold ix at 1 in R. rewrite Z.sub_0_r in R. exact R.
Qed.

Lemma put_same v i x : put v i x i = x. Proof. unfold put. now rewrite Z.eqb_refl. Qed.
Lemma put_other v i x j : j <> i -> put v i x j = v j.
Proof. intros H. unfold put. destruct (Z.eqb_spec j i); congruence. Qed.

Lemma tab_add v ks o x t : tab v ks -> ~ In o ks -> key x = o -> o <> 0 -> x <> 0 -> 0 <= t < sz -> v (ix o t) = 0 ->
  (forall s, 0 <= s < t -> v (ix o s) <> 0) -> tab (put v (ix o t) x) (o :: ks).
Proof.
  intros T NI K Ho Hx B E P. set (i := ix o t) in *.
  assert (Same : forall j, v j <> 0 -> put v i x j = v j) by (intros j H; apply put_other; congruence).
  split.
  - intros j Bj NZ. unfold put in *. destruct (Z.eqb_spec j i).
    + rewrite K. split; [auto|now left].
    + destruct (t_in _ _ T j Bj NZ). split; [auto|now right].
  - intros a [<-|Ia].
    + exists t. split; [auto|]. fold i. rewrite put_same. split; [auto|]. split; [auto|]. intros s Hs.
      rewrite Same; now apply P.
    + destruct (t_path _ _ T a Ia) as (ta & Ba & NZ & Ka & Pa). exists ta. split; [auto|]. rewrite Same by auto.
      split; [auto|]. split; [auto|]. intros s Hs. rewrite Same; now apply Pa.
  - intros a b Ba Bb Na Nb Kab. unfold put in *. destruct (Z.eqb_spec a i), (Z.eqb_spec b i); try congruence.
    + exfalso. apply NI. rewrite <- K, Kab. now apply (t_in _ _ T).
    + exfalso. apply NI. rewrite <- K, <- Kab. now apply (t_in _ _ T).
    + now apply (t_one _ _ T).
Qed.
Lemma tab_mark v ks i : tab v ks -> 0 <= i < sz -> v i <> 0 -> tab (put v i (Z.lor (v i) 1)) ks.
Proof.
  intros T B NZ.
  assert (K : forall j, key (put v i (Z.lor (v i) 1) j) = key (v j)).
  { intros j. unfold put. destruct (Z.eqb_spec j i); [subst; apply key_mark|auto]. }
  assert (N : forall j, put v i (Z.lor (v i) 1) j <> 0 <-> v j <> 0).
  { intros j. unfold put. destruct (Z.eqb_spec j i); [subst|tauto]. split; [auto|intros _; apply mark_nz]. }
  split.
  - intros j Bj Nj. rewrite K. apply (t_in _ _ T); [auto|now apply N].
  - intros o Io. destruct (t_path _ _ T o Io) as (t & Bt & Nt & Kt & Pt). exists t. split; [auto|]. rewrite N, K.
    split; [auto|]. split; [auto|]. intros s Hs. rewrite N. now apply Pt.
  - intros a b Ba Bb Na Nb. rewrite !K. apply N in Na, Nb. now apply (t_one _ _ T).
Qed.
Lemma tab_none : tab (fun _ => 0) [].
Proof. split; [congruence|contradiction|congruence]. Qed.
Lemma tab_same v ks ks' : (forall o, In o ks <-> In o ks') -> tab v ks -> tab v ks'.
Proof.
  intros E [A B C]. split; auto.
  - intros i Bi N. destruct (A i Bi N). split; [auto|now apply E].
  - intros o I. apply B. now apply E.
Qed.
End Table.

(** ** Growing *)
Lemma rehash_ok k v sz : 0 <= k -> sz = 2 ^ k ->
  (forall i j, 0 <= i < sz -> 0 <= j < sz -> v i <> 0 -> v j <> 0 -> key (v i) = key (v j) -> i = j) ->
  (forall i, 0 <= i < sz -> v i <> 0 -> key (v i) <> 0) ->
  forall n i nv done, 0 <= i -> i + Z.of_nat n = sz -> tab (k + 1) nv done ->
    Z.of_nat (length done) <= i -> (forall o, In o done <-> exists j, 0 <= j < i /\ v j <> 0 /\ key (v j) = o) -> NoDup done ->
    exists nv' done', rehash n i v nv (2 * sz) = Some nv' /\ tab (k + 1) nv' done' /\ NoDup done' /\
      (forall o, In o done' <-> exists j, 0 <= j < sz /\ v j <> 0 /\ key (v j) = o).
Proof.
  intros Hk Hsz One Nz. induction n as [|n IH]; intros i nv done Hi Hn T L D ND; cbn [rehash].
  { assert (i = sz) as -> by lia. exists nv, done. auto. }
  fold (key (v i)).
  assert (Hs2 : 2 * sz = 2 ^ (k + 1)) by (rewrite Z.pow_add_r, Hsz by lia; change (2 ^ 1) with 2; lia).
  destruct (Z.eqb_spec (key (v i)) 0) as [E|E].
  - assert (V0 : v i = 0). { destruct (Z.eq_dec (v i) 0); [auto|]. exfalso. apply (Nz i); auto; lia. }
    apply IH with (done := done); auto; try lia. intros o. rewrite D. split; intros (j & B & R); exists j.
    + split; [lia|auto].
    + split; [|auto]. destruct (Z.eq_dec j i) as [->|]; [tauto|lia].
  - assert (Vn : v i <> 0) by (intros Z; rewrite Z in E; now apply E).
    rewrite Hs2. destruct (vacant_empty (k + 1) ltac:(lia) nv done (key (v i)) T ltac:(lia)) as (t & Bt & -> & Z & P).
    rewrite <- Hs2.
    assert (NI : ~ In (key (v i)) done).
    { intros I. apply D in I as (j & Bj & Nj & Kj). assert (j = i); [|lia]. apply One; auto; lia. }
    apply IH with (done := key (v i) :: done).
    + lia.
    + lia.
    + apply tab_add; auto; lia.
    + cbn [length]. lia.
    + intros o. cbn [In]. rewrite D. split.
      * intros [<-|(j & B & R)]; [exists i; split; [lia|auto]|exists j; split; [lia|auto]].
      * intros (j & B & Nj & Kj). destruct (Z.eq_dec j i) as [->|]; [now left|right]. exists j. split; [lia|auto].
    + now constructor.
Qed.

(** ** stabnew *)
Record wf (p : stab) (ks : list Z) : Prop := {
  w_tab : exists k, 1 <= k /\ tsz p = 2 ^ k /\ tab k (tv p) ks;
  w_max : tmaxu p = tsz p / 2;
  w_u : tu p = Z.of_nat (length ks);
  w_le : tu p <= tmaxu p;
  w_nd : NoDup ks }.
Lemma wf_start : wf staballoc [].
Proof.
  split; try reflexivity; try (cbn; lia); [|constructor]. exists 6. split; [lia|]. split; [reflexivity|]. apply tab_none.
Qed.

Lemma stabnew_ok w p ks o : wf p ks -> heap_obj w o = true -> 0 < o -> Z.even o = true ->
  exists p', stabnew w o p = Some (negb (if in_dec Z.eq_dec o ks then true else false), p') /\
             wf p' (if in_dec Z.eq_dec o ks then ks else o :: ks).
Proof.
  intros [(k & Hk & Hsz & T) Hm Hu Hle ND] Ho Po Eo. unfold stabnew. rewrite Ho. cbn [negb].
  assert (Hlt : Z.of_nat (length ks) < 2 ^ k).
  { rewrite <- Hu, <- Hsz. rewrite Hm in Hle. pose proof (sz_pos k ltac:(lia)). rewrite <- Hsz in H. pose proof (Z.div_lt_upper_bound (tsz p) 2 (tsz p)). lia. }
  destruct (in_dec Z.eq_dec o ks) as [I|NI]; cbn [negb].
  - rewrite Hsz. destruct (probe_found k ltac:(lia) _ _ _ T I) as (i & -> & B & NZ & K). eexists. split; [reflexivity|].
    split; cbn; auto; try congruence. exists k. split; [lia|]. split; [auto|]. apply tab_mark; auto; lia.
  - rewrite Hsz. destruct (probe_empty k ltac:(lia) _ _ _ T NI Hlt) as (t & B & -> & Z & P).
    destruct (Z.eqb_spec (tu p) (tmaxu p)) as [E|E].
    + destruct (rehash_ok k (tv p) (2 ^ k) ltac:(lia) eq_refl (t_one _ _ _ T) (fun i Bi Ni => proj1 (t_in _ _ _ T i Bi Ni))
                  (Z.to_nat (2 ^ k)) 0 (fun _ => 0) []) as (nv & done & E1 & T1 & ND1 & D1).
      { lia. } { rewrite Z2Nat.id; [lia|]. pose proof (sz_pos k ltac:(lia)). lia. } { apply tab_none. } { cbn. lia. }
      { intros a. split; [contradiction|]. intros (j & Bj & _). lia. } { constructor. }
      rewrite (Z.mul_comm (2 ^ k) 2), E1.
      assert (Same : forall a, In a done <-> In a ks).
      { intros a. rewrite D1. split.
        - intros (j & Bj & Nj & <-). now apply (t_in _ _ _ T).
        - intros I. destruct (t_path _ _ _ T a I) as (s & Bs & Ns & Ks & _). exists (ix k a s).
          split; [apply ix_range; lia|auto]. }
      pose proof (tab_same _ _ _ _ Same T1) as T2.
      assert (Hs2 : 2 * 2 ^ k = 2 ^ (k + 1)) by (rewrite Z.pow_add_r by lia; change (2 ^ 1) with 2; lia).
      rewrite Hs2. destruct (vacant_empty (k + 1) ltac:(lia) nv ks o T2 ltac:(lia)) as (t' & B' & -> & Z' & P').
      eexists. split; [reflexivity|]. split; cbn [tv tsz tu tmaxu].
      * exists (k + 1). split; [lia|]. split; [auto|]. apply tab_add; auto; try lia. now apply key_even.
      * reflexivity.
      * rewrite Hu. cbn [length]. lia.
      * rewrite <- Hs2, E, Hm, Hsz. rewrite (Z.mul_comm 2), Z.div_mul by lia.
        assert (2 <= 2 ^ k) by (change 2 with (2 ^ 1) at 1; apply Z.pow_le_mono_r; lia). zdm.
      * now constructor.
    + eexists. split; [reflexivity|]. split; cbn [tv tsz tu tmaxu].
      * exists k. split; [lia|]. split; [auto|]. apply tab_add; auto; try lia. now apply key_even.
      * now rewrite <- Hsz.
      * rewrite Hu. cbn [length]. lia.
      * lia.
      * now constructor.
Qed.

(** ** stabshared *)
Definition closed_from (w : world) (old new : list Z) : Prop :=
  forall a, In a new -> ~ In a old -> forall f, In f (words (at_ w a)) -> heap_obj w f = true -> In f new.

Definition each (w : world) (d : nat) := fix each (l : list Z) (p : stab) : option stab :=
  match l with
  | [] => Some p
  | f :: l' => match stabshared w d f p with None => None | Some p' => each l' p' end
  end.

Lemma stabshared_ok w dom : finite_heap w dom -> forall d o p ks, wf p ks -> incl ks dom ->
  (length dom < d + length ks)%nat ->
  exists p' ks', stabshared w d o p = Some p' /\ wf p' ks' /\ incl ks' dom /\ incl ks ks' /\
                 (heap_obj w o = true -> In o ks') /\ closed_from w ks ks'.
Proof.
  intros (H1 & H2 & _). induction d as [|d IH]; intros o p ks W I L.
  { exfalso. pose proof (NoDup_incl_length (w_nd _ _ W) I). lia. }
  cbn [stabshared]. destruct (heap_obj w o) eqn:Ho.
  - destruct (H2 o (proj1 (H1 o) Ho)) as [Po Eo].
    destruct (stabnew_ok w p ks o W Ho Po Eo) as (p1 & -> & W1).
    destruct (in_dec Z.eq_dec o ks) as [Io|NIo]; cbn [negb].
    + exists p1, ks. split; [auto|]. split; [auto|]. split; [auto|]. split; [apply incl_refl|]. split; [auto|].
      intros a Ia Na. contradiction.
    + fold (each w d).
      assert (I1 : incl (o :: ks) dom) by (intros a [<-|Ia]; [now apply H1|now apply I]).
      assert (Lo : forall l p2 ks2, wf p2 ks2 -> incl ks2 dom -> incl (o :: ks) ks2 ->
        exists p3 ks3, each w d l p2 = Some p3 /\ wf p3 ks3 /\ incl ks3 dom /\ incl ks2 ks3 /\
          (forall f, In f l -> heap_obj w f = true -> In f ks3) /\ closed_from w ks2 ks3).
      { induction l as [|f l IHl]; intros p2 ks2 W2 I2 M2; cbn [each].
        - exists p2, ks2. split; [auto|]. split; [auto|]. split; [auto|]. split; [apply incl_refl|]. split; [contradiction|].
          intros a Ia Na. contradiction.
        - assert (LL : (S (length ks) <= length ks2)%nat).
          { apply (NoDup_incl_length (l := o :: ks)); [constructor; [auto|exact (w_nd _ _ W)]|exact M2]. }
          destruct (IH f p2 ks2 W2 I2 ltac:(lia)) as (p3 & ks3 & -> & W3 & I3 & M3 & F3 & C3).
          destruct (IHl p3 ks3 W3 I3 (incl_tran M2 M3)) as (p4 & ks4 & -> & W4 & I4 & M4 & F4 & C4).
          exists p4, ks4. split; [auto|]. split; [auto|]. split; [auto|]. split; [eapply incl_tran; eauto|]. split.
          + intros g [<-|Ig] Hg; [apply M4; auto|auto].
          + intros a Ia Na g Ig Hg. destruct (in_dec Z.eq_dec a ks3) as [Ia3|Na3].
            * apply M4. apply (C3 a); auto.
            * apply (C4 a); auto. }
      destruct (Lo (words (at_ w o)) p1 (o :: ks) W1 I1 (incl_refl _)) as (p3 & ks3 & -> & W3 & I3 & M3 & F3 & C3).
      exists p3, ks3. split; [auto|]. split; [auto|]. split; [auto|].
      split; [intros a Ia; apply M3; now right|]. split; [intros _; apply M3; now left|].
      intros a Ia Na f If Hf. destruct (Z.eq_dec a o) as [->|Ne]; [now apply F3|].
      apply (C3 a); auto. intros [E|E]; [now apply Ne|contradiction].
  - unfold stabnew. rewrite Ho. cbn [negb]. exists p, ks. split; [auto|]. split; [auto|]. split; [auto|].
    split; [apply incl_refl|]. split; [discriminate|]. intros a Ia Na. contradiction.
Qed.
