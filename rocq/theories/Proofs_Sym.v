From Coq Require Import ZArith List Bool Lia.
From Verif Require Import Base Model_Sym.
Import ListNotations.
Open Scope Z_scope.

Lemma cstr_eqb_eq : forall s t, cstr_eqb s t = true <-> s = t.
Proof.
  induction s as [|x s IH]; destruct t as [|y t]; cbn; try (split; congruence).
  rewrite andb_true_iff, Z.eqb_eq, IH. split; [intros [-> ->]; reflexivity|intros E; now injection E].
Qed.
Lemma cstr_dec : forall s t : cstr, {s = t} + {s <> t}.
Proof. intros. apply list_eq_dec. apply Z.eq_dec. Qed.

(** ** probing *)
Section Probe.
Variable k : Z.
Hypothesis Hk : 0 <= k.
Variable sz : Z.
Hypothesis Hsz : sz = 2 ^ k.

Lemma sz_pos : 0 < sz. Proof. subst. apply Z.pow_pos_nonneg; lia. Qed.
Lemma mask_mod h : mask sz h = h mod sz.
Proof. unfold mask. subst. rewrite <- Z.land_ones by lia. rewrite Z.ones_equiv. now rewrite Z.sub_1_r. Qed.
Lemma next_mod h d : next sz ((h - d) mod sz) = (h - (d + 1)) mod sz.
Proof.
  unfold next. change (Z.land ?a (sz - 1)) with (mask sz a). rewrite mask_mod.
  rewrite Zminus_mod_idemp_l. f_equal. lia.
Qed.

Definition at_dist (h d : Z) : Z := (h - d) mod sz.
Lemma at_dist_range h d : 0 <= at_dist h d < sz.
Proof. apply Z.mod_pos_bound. apply sz_pos. Qed.
Lemma at_dist_next h d : next sz (at_dist h d) = at_dist h (d + 1).
Proof. apply next_mod. Qed.
Lemma at_dist_onto h i : 0 <= i < sz -> exists d, 0 <= d < sz /\ at_dist h d = i.
Proof.
  intros Hi. exists ((h - i) mod sz). split; [apply Z.mod_pos_bound, sz_pos|].
  unfold at_dist. rewrite Zminus_mod_idemp_r. replace (h - (h - i)) with i by lia. now apply Z.mod_small.
Qed.

Definition filled_to (v : Z -> option nat) (h d : Z) : Prop := forall e, 0 <= e < d -> v (at_dist h e) <> None.

Lemma first_empty v h : (exists i, 0 <= i < sz /\ v i = None) ->
  exists d, 0 <= d < sz /\ v (at_dist h d) = None /\ filled_to v h d.
Proof.
  intros (i & Hi & Hv). destruct (at_dist_onto h i Hi) as (d & Hd & E). subst i.
  assert (G : forall n : nat, forall b, 0 <= b -> filled_to v h b -> b <= d -> d - b = Z.of_nat n ->
     exists d, 0 <= d < sz /\ v (at_dist h d) = None /\ filled_to v h d).
  { induction n as [|n IH]; intros b Hb Hf Hle Hn.
    - exists d. replace b with d in Hf by lia. auto.
    - destruct (v (at_dist h b)) as [j|] eqn:E.
      + apply (IH (b + 1)); try lia. intros e He. destruct (Z.eq_dec e b) as [->|]; [congruence|apply Hf; lia].
      + exists b. split; [lia|auto]. }
  apply (G (Z.to_nat d) 0); try lia. intros e He. lia.
Qed.

Lemma empty_slot_ok v h d : 0 <= d -> v (at_dist h d) = None -> filled_to v h d ->
  forall fuel b, 0 <= b <= d -> (Z.to_nat (d - b) < fuel)%nat ->
  empty_slot fuel v sz (at_dist h b) = Some (at_dist h d).
Proof.
  intros Hd Hv Hf. induction fuel as [|f IH]; intros b Hb Hlt; [lia|]. cbn [empty_slot].
  destruct (Z.eq_dec b d) as [->|Hne]; [now rewrite Hv|].
  destruct (v (at_dist h b)) as [j|] eqn:E; [|exfalso; apply (Hf b); [lia|exact E]].
  rewrite at_dist_next. apply IH; lia.
Qed.

(** table contents: exactly the entries in [S], each on its own probe path *)
Definition placed (home : nat -> Z) (S : nat -> Prop) (v : Z -> option nat) : Prop :=
  (forall i j, 0 <= i < sz -> v i = Some j -> S j) /\
  (forall j, S j -> exists d, 0 <= d < sz /\ v (at_dist (home j) d) = Some j /\ filled_to v (home j) d) /\
  (forall i i' j, 0 <= i < sz -> 0 <= i' < sz -> v i = Some j -> v i' = Some j -> i = i').

Lemma has_empty home S v n : placed home S v -> (forall j, S j -> (j < n)%nat) -> Z.of_nat n < sz ->
  exists i, 0 <= i < sz /\ v i = None.
Proof.
  intros (P1 & _ & P3) Hn Hlt.
  assert (D : forall m : nat, Z.of_nat m <= sz ->
     (exists i, 0 <= i < Z.of_nat m /\ v i = None) \/ (forall i, 0 <= i < Z.of_nat m -> v i <> None)).
  { induction m as [|m IH]; intros Hm; [right; intros; lia|].
    destruct (IH ltac:(lia)) as [(i & Hi & E)|A]; [left; exists i; split; [lia|exact E]|].
    destruct (v (Z.of_nat m)) as [j|] eqn:E; [right|left; exists (Z.of_nat m); split; [lia|exact E]].
    intros i Hi. destruct (Z.eq_dec i (Z.of_nat m)) as [->|]; [congruence|apply A; lia]. }
  pose proof sz_pos. destruct (D (Z.to_nat sz) ltac:(lia)) as [(i & Hi & E)|A]; [exists i; split; [lia|exact E]|].
  exfalso. rewrite Z2Nat.id in A by lia.
  set (g := fun m : nat => match v (Z.of_nat m) with Some j => j | None => 0%nat end).
  assert (G : forall m, (m < Z.to_nat sz)%nat -> v (Z.of_nat m) = Some (g m)).
  { intros m Hm. unfold g. specialize (A (Z.of_nat m) ltac:(lia)). destruct (v (Z.of_nat m)); congruence. }
  assert (N : NoDup (map g (seq 0 (Z.to_nat sz)))).
  {
    assert (H' : forall l, NoDup l -> (forall m, In m l -> (m < Z.to_nat sz)%nat) -> NoDup (map g l)).
    { induction l as [|m l IH]; intros Nd Hin; [constructor|]. apply NoDup_cons_iff in Nd. destruct Nd as [Nd1 Nd2].
      cbn. constructor; [|apply IH; [exact Nd2|intros; apply Hin; now right]].
      intros C. apply in_map_iff in C. destruct C as (m' & E & Hm'). apply Nd1.
      assert (Hb' := Hin m' (or_intror Hm')). assert (Hb := Hin m (or_introl eq_refl)).
      assert (Z.of_nat m = Z.of_nat m').
      { apply (P3 _ _ (g m)); try lia; [now apply G|rewrite <- E; now apply G]. }
      replace m with m' by lia. exact Hm'. }
    apply H'; [apply seq_NoDup|]. intros m Hm. apply in_seq in Hm. lia. }
  assert (L : (length (map g (seq 0 (Z.to_nat sz))) <= length (seq 0 n))%nat).
  { apply NoDup_incl_length; [exact N|]. intros j Hj. apply in_map_iff in Hj. destruct Hj as (m & <- & Hm).
    apply in_seq in Hm. apply in_seq. split; [lia|]. apply Hn. apply (P1 (Z.of_nat m)); [lia|]. apply G. lia. }
  rewrite map_length, !seq_length in L. lia.
Qed.

Lemma insert_ok home S v j d : placed home S v -> ~ S j -> 0 <= d < sz ->
  v (at_dist (home j) d) = None -> filled_to v (home j) d ->
  placed home (fun x => S x \/ x = j) (vset v (at_dist (home j) d) j).
Proof.
  intros (P1 & P2 & P3) Hj Hd Hv Hf. set (p := at_dist (home j) d) in *.
  assert (Fk : forall h e, filled_to v h e -> filled_to (vset v p j) h e).
  { intros h e F x Hx. unfold vset. destruct (Z.eqb_spec (at_dist h x) p); [discriminate|now apply F]. }
  split; [|split].
  - intros i x Hi. unfold vset. destruct (Z.eqb_spec i p).
    + intros E. injection E as <-. now right.
    + intros E. left. eapply P1; eauto.
  - intros x [Hx|Hx].
    + destruct (P2 x Hx) as (e & He & E & F). exists e. split; [exact He|]. split; [|now apply Fk].
      unfold vset. destruct (Z.eqb_spec (at_dist (home x) e) p) as [Ep|]; [|exact E]. congruence.
    + subst x. exists d. split; [exact Hd|]. split; [|now apply Fk]. unfold vset. fold p. now rewrite Z.eqb_refl.
  - intros i i' x Hi Hi'. unfold vset. destruct (Z.eqb_spec i p), (Z.eqb_spec i' p).
    + congruence.
    + intros E E'. injection E as <-. exfalso. apply Hj. eapply P1; [|exact E']. exact Hi'.
    + intros E E'. injection E' as <-. exfalso. apply Hj. eapply P1; [|exact E]. exact Hi.
    + apply P3; assumption.
Qed.
End Probe.

Section Table.
Variable hash : cstr -> Z.
Definition home (a : list cstr) (j : nat) : Z := hash (nth j a []).

Definition inv (t : symt) : Prop :=
  (st_sz t = 0 /\ st_a t = []) \/
  (exists k, 6 <= k /\ st_sz t = 2 ^ k /\ 2 * Z.of_nat (length (st_a t)) <= st_sz t /\ NoDup (st_a t) /\
    placed (st_sz t) (home (st_a t)) (fun j => (j < length (st_a t))%nat) (st_v t)).

Lemma lookup_ok k t name : 0 <= k -> st_sz t = 2 ^ k ->
  Z.of_nat (length (st_a t)) < st_sz t ->
  placed (st_sz t) (home (st_a t)) (fun j => (j < length (st_a t))%nat) (st_v t) -> NoDup (st_a t) ->
  (exists j, (j < length (st_a t))%nat /\ nth j (st_a t) [] = name /\
     lookup (Z.to_nat (st_sz t)) t name (mask (st_sz t) (hash name)) = Some (inr j)) \/
  (~ In name (st_a t) /\ exists d, 0 <= d < st_sz t /\ st_v t (at_dist (st_sz t) (hash name) d) = None /\
     filled_to (st_sz t) (st_v t) (hash name) d /\
     lookup (Z.to_nat (st_sz t)) t name (mask (st_sz t) (hash name)) = Some (inl (at_dist (st_sz t) (hash name) d))).
Proof.
  intros Hk Hs Hlt P Nd. set (sz := st_sz t) in *. set (h := hash name).
  pose proof (sz_pos k Hk sz Hs) as Hpos.
  destruct (first_empty k Hk sz Hs (st_v t) h (has_empty k Hk sz Hs _ _ _ (length (st_a t)) P (fun j H => H) Hlt))
    as (d & Hd & Ed & Fd).
  rewrite (mask_mod k Hk sz Hs h). replace (h mod sz) with (at_dist sz h 0) by (unfold at_dist; f_equal; lia).
  (* walk *)
  assert (W : forall n b fuel, 0 <= b <= d -> d - b = Z.of_nat n -> (n < fuel)%nat ->
     (forall e j, 0 <= e < b -> st_v t (at_dist sz h e) = Some j -> nth j (st_a t) [] <> name) ->
     (exists j, (j < length (st_a t))%nat /\ nth j (st_a t) [] = name /\ lookup fuel t name (at_dist sz h b) = Some (inr j)) \/
     ((forall e j, 0 <= e < d -> st_v t (at_dist sz h e) = Some j -> nth j (st_a t) [] <> name) /\
      lookup fuel t name (at_dist sz h b) = Some (inl (at_dist sz h d)))).
  { induction n as [|n IH]; intros b fuel Hb Hn Hf Hno; (destruct fuel as [|fuel]; [lia|]); cbn [lookup].
    - replace b with d in * by lia. rewrite Ed. right. split; [exact Hno|reflexivity].
    - destruct (st_v t (at_dist sz h b)) as [j|] eqn:E; [|exfalso; apply (Fd b); [lia|exact E]].
      destruct P as (P1 & _ & _).
      assert (Hj : (j < length (st_a t))%nat) by (eapply P1; [apply (at_dist_range k Hk sz Hs)|exact E]).
      destruct (cstr_eqb name (nth j (st_a t) [])) eqn:Eq.
      + apply cstr_eqb_eq in Eq. left. exists j. auto.
      + fold sz. rewrite (at_dist_next k Hk sz Hs). apply IH; try lia.
        intros e j' He Ej'. destruct (Z.eq_dec e b) as [->|]; [|eapply Hno; [|exact Ej']; lia].
        replace j' with j by congruence. intros C. symmetry in C. apply cstr_eqb_eq in C. congruence. }
  destruct (W (Z.to_nat d) 0 (Z.to_nat sz)) as [A|[A B]]; try lia.
  - left. exact A.
  - right. split; [|exists d; auto].
    intros Hin. destruct (In_nth _ _ [] Hin) as (j & Hj & Ej).
    destruct P as (P1 & P2 & P3). destruct (P2 j Hj) as (e & He & Ev & Fe).
    assert (Hh : home (st_a t) j = h) by (unfold home, h; f_equal; exact Ej). rewrite Hh in *.
    destruct (Z_lt_le_dec e d) as [L|L]; [exact (A e j (conj (proj1 He) L) Ev Ej)|].
    destruct (Z.eq_dec e d) as [->|]; [congruence|]. apply (Fe d); [lia|exact Ed].
Qed.

Lemma rehash_ok k t : 0 <= k -> st_sz t = 2 ^ k -> 2 * Z.of_nat (length (st_a t)) <= st_sz t ->
  placed (st_sz t) (home (st_a t)) (fun j => (j < length (st_a t))%nat) (st_v t) ->
  forall n i nv, 0 <= i -> i + Z.of_nat n = st_sz t ->
  placed (st_sz t * 2) (home (st_a t)) (fun j => exists x, 0 <= x < i /\ st_v t x = Some j) nv ->
  exists nv', rehash hash n t (st_sz t * 2) i nv = Some nv' /\
    placed (st_sz t * 2) (home (st_a t)) (fun j => (j < length (st_a t))%nat) nv'.
Proof.
  intros Hk Hs Hu (P1 & P2 & P3).
  pose proof (sz_pos k Hk _ Hs) as Hpos.
  assert (Hk1 : 0 <= k + 1) by lia.
  assert (Hs2 : st_sz t * 2 = 2 ^ (k + 1)) by (rewrite Hs, Z.pow_add_r by lia; reflexivity).
  induction n as [|n IH]; intros i nv Hi Hn Pn; cbn [rehash].
  - exists nv. split; [reflexivity|]. destruct Pn as (Q1 & Q2 & Q3). split; [|split; [|exact Q3]].
    + intros x j Hx E. destruct (Q1 x j Hx E) as (y & Hy & Ey). eapply P1; [|exact Ey]. lia.
    + intros j Hj. apply Q2. destruct (P2 j Hj) as (d & _ & E & _).
      exists (at_dist (st_sz t) (home (st_a t) j) d). split; [|exact E].
      pose proof (at_dist_range k Hk _ Hs (home (st_a t) j) d). lia.
  - destruct (st_v t i) as [j|] eqn:E.
    + assert (Hj : (j < length (st_a t))%nat) by (eapply P1; [|exact E]; lia).
      assert (He : exists x, 0 <= x < st_sz t * 2 /\ nv x = None).
      { eapply (has_empty (k + 1) Hk1 _ Hs2) with (n := length (st_a t)); [exact Pn| |lia].
        intros x (y & Hy & Ey). eapply P1; [|exact Ey]. lia. }
      destruct (first_empty (k + 1) Hk1 _ Hs2 nv (home (st_a t) j) He) as (d & Hd & Ed & Fd).
      rewrite (mask_mod (k + 1) Hk1 _ Hs2). fold (home (st_a t) j).
      replace (home (st_a t) j mod (st_sz t * 2)) with (at_dist (st_sz t * 2) (home (st_a t) j) 0)
        by (unfold at_dist; f_equal; lia).
      rewrite (empty_slot_ok (k + 1) Hk1 _ Hs2 nv _ d) by (auto; lia).
      apply IH; try lia.
      assert (Ins := insert_ok (st_sz t * 2) _ _ nv j d Pn). 
      specialize (Ins ltac:(intros (y & Hy & Ey); assert (y = i) by (eapply P3; eauto; lia); lia) Hd Ed Fd).
      destruct Ins as (Q1 & Q2 & Q3). split; [|split; [|exact Q3]].
      * intros x y Hx Exy. destruct (Q1 x y Hx Exy) as [(z & Hz & Ez)| ->].
        -- exists z. split; [lia|exact Ez].
        -- exists i. split; [lia|exact E].
      * intros y (z & Hz & Ez). apply Q2. destruct (Z.eq_dec z i) as [->|].
        -- right. congruence.
        -- left. exists z. split; [lia|exact Ez].
    + apply IH; try lia. destruct Pn as (Q1 & Q2 & Q3). split; [|split; [|exact Q3]].
      * intros x y Hx Exy. destruct (Q1 x y Hx Exy) as (z & Hz & Ez). exists z. split; [lia|exact Ez].
      * intros y (z & Hz & Ez). apply Q2. destruct (Z.eq_dec z i) as [->|]; [congruence|]. exists z. split; [lia|exact Ez].
Qed.

Lemma placed_ext sz h1 h2 S1 S2 v :
  (forall j, S1 j <-> S2 j) -> (forall j, S1 j -> h1 j = h2 j) -> placed sz h1 S1 v -> placed sz h2 S2 v.
Proof.
  intros HS Hh (P1 & P2 & P3). split; [|split; [|exact P3]].
  - intros i j Hi E. apply HS. eapply P1; eauto.
  - intros j Hj. apply HS in Hj. rewrite <- Hh by assumption. now apply P2.
Qed.

Lemma add_inv k sz a v name d : 6 <= k -> sz = 2 ^ k -> 2 * Z.of_nat (length a) < sz -> NoDup a -> ~ In name a ->
  placed sz (home a) (fun j => (j < length a)%nat) v ->
  0 <= d < sz -> v (at_dist sz (hash name) d) = None -> filled_to sz v (hash name) d ->
  inv (fst (add_at (mkst a v sz) (at_dist sz (hash name) d) name)).
Proof.
  intros Hk Hs Hu Nd Hni P Hd Hv Hf. right. exists k. cbn [add_at fst st_a st_v st_sz].
  assert (Heven : sz mod 2 = 0).
  { rewrite Hs. replace k with (1 + (k - 1)) by lia. rewrite Z.pow_add_r by lia. change (2 ^ 1) with 2.
    rewrite Z.mul_comm. apply Z.mod_mul. lia. }
  split; [exact Hk|]. split; [exact Hs|]. split; [rewrite app_length; cbn [length]; pose proof (Z.div_mod sz 2 ltac:(lia)); lia|].
  split.
  { apply NoDup_rev in Nd. rewrite <- (rev_involutive (a ++ [name])). apply NoDup_rev. rewrite rev_app_distr. cbn.
    constructor; [|exact Nd]. now rewrite <- in_rev. }
  assert (Hh : home (a ++ [name]) (length a) = hash name).
  { unfold home. rewrite app_nth2 by lia. now rewrite Nat.sub_diag. }
  rewrite <- Hh in *.
  assert (P' : placed sz (home (a ++ [name])) (fun j => (j < length a)%nat) v).
  { eapply placed_ext; [..|exact P]; [tauto|]. intros j Hj. unfold home. now rewrite app_nth1. }
  pose proof (insert_ok sz _ _ v (length a) d P' (Nat.lt_irrefl _) Hd Hv Hf) as Q.
  eapply placed_ext; [..|exact Q]; [|reflexivity]. intros j. rewrite app_length. cbn. lia.
Qed.

Lemma nth_inj (l : list cstr) i j : NoDup l -> (i < length l)%nat -> (j < length l)%nat -> nth i l [] = nth j l [] -> i = j.
Proof. intros. eapply NoDup_nth; eauto. Qed.

(** one call: the table stays consistent, the answer is the index of the name *)
Lemma internsym_ok t name : inv t ->
  exists t' j, internsym hash t name = Some (t', j) /\ inv t' /\
    nth_error (st_a t') j = Some name /\
    st_a t' = (if in_dec cstr_dec name (st_a t) then st_a t else st_a t ++ [name]).
Proof.
  intros I. unfold internsym. destruct I as [[S0 A0]|(k & Hk & Hs & Hu & Nd & P)].
  - rewrite S0. cbn [Z.eqb]. eexists. eexists. split; [reflexivity|].
    cbn [add_at fst snd st_a st_v st_sz app length].
    split; [|split; [reflexivity|]].
    + replace (mask 64 (hash name)) with (at_dist 64 (hash name) 0).
      2:{ rewrite (mask_mod 6 ltac:(lia) 64 eq_refl). unfold at_dist. f_equal. lia. }
      apply (add_inv 6 64 [] (fun _ => None) name 0); cbn; auto; try lia.
      * constructor.
      * split; [|split]; cbn; [discriminate|intros; lia|discriminate].
      * intros e He. lia.
    + rewrite A0. destruct (in_dec cstr_dec name []) as [[]|]. reflexivity.
  - assert (Hpos : 64 <= st_sz t).
    { rewrite Hs. change 64 with (2 ^ 6). apply Z.pow_le_mono_r; lia. }
    destruct (Z.eqb_spec (st_sz t) 0); [lia|].
    destruct (lookup_ok k t name ltac:(lia) Hs ltac:(lia) P Nd) as [(j & Hj & En & ->)|(Hni & d & Hd & Ed & Fd & ->)].
    + exists t, j. split; [reflexivity|]. split; [right; exists k; auto 10|]. split.
      * rewrite (nth_error_nth' _ [] Hj). now rewrite En.
      * destruct (in_dec cstr_dec name (st_a t)) as [|Hn]; [reflexivity|]. exfalso. apply Hn. rewrite <- En. now apply nth_In.
    + assert (Hna : st_a t ++ [name] = (if in_dec cstr_dec name (st_a t) then st_a t else st_a t ++ [name])).
      { destruct (in_dec cstr_dec name (st_a t)); [contradiction|reflexivity]. }
      assert (Hnn : nth_error (st_a t ++ [name]) (length (st_a t)) = Some name).
      { rewrite nth_error_app2 by lia. now rewrite Nat.sub_diag. }
      destruct (Z.eqb_spec (Z.of_nat (length (st_a t))) (st_sz t / 2)) as [Hfull|Hnf].
      * destruct (rehash_ok k t ltac:(lia) Hs Hu P (Z.to_nat (st_sz t)) 0 (fun _ => None) ltac:(lia) ltac:(lia))
          as (nv & -> & Pn).
        { split; [|split]; cbn; [discriminate|intros j (x & Hx & _); lia|discriminate]. }
        assert (Hs2 : st_sz t * 2 = 2 ^ (k + 1)) by (rewrite Hs, Z.pow_add_r by lia; reflexivity).
        pose proof (has_empty (k + 1) ltac:(lia) _ Hs2 _ _ _ (length (st_a t)) Pn (fun j H => H) ltac:(lia)) as He.
        destruct (first_empty (k + 1) ltac:(lia) _ Hs2 nv (hash name) He) as (d' & Hd' & Ed' & Fd').
        rewrite (mask_mod (k + 1) ltac:(lia) _ Hs2).
        replace (hash name mod (st_sz t * 2)) with (at_dist (st_sz t * 2) (hash name) 0)
          by (unfold at_dist; f_equal; lia).
        rewrite (empty_slot_ok (k + 1) ltac:(lia) _ Hs2 nv _ d') by (auto; lia).
        eexists. eexists. split; [reflexivity|]. split; [|split; [exact Hnn|exact Hna]].
        apply (add_inv (k + 1)); auto; lia.
      * eexists. eexists. split; [reflexivity|]. split; [|split; [exact Hnn|exact Hna]].
        destruct t as [a v sz]. cbn [st_a st_v st_sz] in *. apply (add_inv k); auto. 
        assert (2 * (sz / 2) <= sz) by (pose proof (Z.div_mod sz 2 ltac:(lia)); pose proof (Z.mod_pos_bound sz 2 ltac:(lia)); lia).
        assert (Heven : sz mod 2 = 0).
        { rewrite Hs. replace k with (1 + (k - 1)) by lia. rewrite Z.pow_add_r by lia. change (2 ^ 1) with 2.
          rewrite Z.mul_comm. apply Z.mod_mul. lia. }
        pose proof (Z.div_mod sz 2 ltac:(lia)). lia.
Qed.

Lemma inv_nodup t : inv t -> NoDup (st_a t).
Proof. intros [[_ ->]|(k & _ & _ & _ & H & _)]; [constructor|exact H]. Qed.

Lemma intern_all_ok : forall l t, inv t ->
  exists t' js, intern_all hash t l = Some (t', js) /\ inv t' /\
    (exists ext, st_a t' = st_a t ++ ext) /\
    length js = length l /\
    forall i, (i < length l)%nat -> symbolname t' (nth i js 0%nat) = Some (nth i l []).
Proof.
  induction l as [|n l IH]; intros t I; cbn [intern_all].
  - exists t, []. split; [reflexivity|]. split; [exact I|]. split; [exists []; now rewrite app_nil_r|].
    split; [reflexivity|cbn; intros; lia].
  - destruct (internsym_ok t n I) as (t1 & j & -> & I1 & Hn & Ha).
    destruct (IH t1 I1) as (t2 & js & -> & I2 & (ext & He) & Hl & Hj).
    eexists. eexists. split; [reflexivity|]. split; [exact I2|]. split.
    + destruct (in_dec cstr_dec n (st_a t)); rewrite He, Ha; [eexists; reflexivity|].
      exists ([n] ++ ext). now rewrite app_assoc.
    + split; [cbn; now rewrite Hl|]. intros i Hi. destruct i as [|i]; cbn [nth].
      * unfold symbolname. rewrite He. rewrite nth_error_app1; [exact Hn|].
        apply nth_error_Some. congruence.
      * apply Hj. cbn in Hi. lia.
Qed.

Lemma inv0 : inv symt0. Proof. left. split; reflexivity. Qed.
End Table.
