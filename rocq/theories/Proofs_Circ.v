(** equal? of the large library: both stages answer whether the unfoldings are equal. *)
From Coq Require Import ZArith List Bool Lia.
From Verif Require Import Base Model_Circ Spec_Circ Proofs_CircTab.
Import ListNotations.
Open Scope Z_scope.

(** ** Agreement to a depth is an equivalence *)
Lemma upto_refl w n x : upto w n x x.
Proof. destruct n; cbn; auto. Qed.
Lemma same_leaf_sym a b : same_leaf a b -> same_leaf b a.
Proof. intros []; constructor. now symmetry. Qed.
Lemma same_leaf_trans a b c : same_leaf a b -> same_leaf b c -> same_leaf a c.
Proof. intros H1 H2. destruct H1; inversion H2; subst; constructor; congruence. Qed.
Lemma Forall2_flip' A B (R : A -> B -> Prop) l l' : Forall2 R l l' -> Forall2 (fun b a => R a b) l' l.
Proof. induction 1; constructor; auto. Qed.
Lemma Forall2_imp A B (R R' : A -> B -> Prop) l l' : (forall a b, R a b -> R' a b) -> Forall2 R l l' -> Forall2 R' l l'.
Proof. intros H F. induction F; constructor; auto. Qed.
Lemma Forall2_trans' A (R : A -> A -> Prop) : (forall a b c, R a b -> R b c -> R a c) ->
  forall l1 l2 l3, Forall2 R l1 l2 -> Forall2 R l2 l3 -> Forall2 R l1 l3.
Proof. intros H l1 l2 l3 F. revert l3. induction F; intros l3 G; inversion G; subst; constructor; eauto. Qed.
Lemma upto_sym w n : forall x y, upto w n x y -> upto w n y x.
Proof.
  induction n as [|n IH]; intros x y; cbn; [auto|]. intros [->|(Hx & Hy & H)]; [auto|right].
  split; [auto|split; [auto|]]. destruct H as [H|(t & xs & ys & Ex & Ey & F)]; [left; now apply same_leaf_sym|right].
  exists t, ys, xs. split; [auto|split; [auto|]]. apply Forall2_flip' in F. eapply Forall2_imp; [|exact F]. intros a b. apply IH.
Qed.
Lemma upto_trans w n : forall x y z, upto w n x y -> upto w n y z -> upto w n x z.
Proof.
  induction n as [|n IH]; intros x y z; cbn; [auto|]. intros [->|(Hx & Hy & H)]; [auto|].
  intros [<-|(_ & Hz & G)]; [right; auto|]. right. split; [auto|split; [auto|]].
  destruct H as [H|(t & xs & ys & Ex & Ey & F)], G as [G|(t' & ys' & zs & Ey' & Ez & F')].
  - left. eapply same_leaf_trans; eauto.
  - rewrite Ey' in H. inversion H.
  - rewrite Ey in G. inversion G.
  - rewrite Ey in Ey'. injection Ey' as <- <-. right. exists t, xs, zs. split; [auto|split; [auto|]].
    eapply Forall2_trans'; eauto.
Qed.

(** ** One object *)
Lemma same_chars_ok a : forall b, In 0 a -> In 0 b -> same_chars a b = true <-> chars a = chars b.
Proof.
  induction a as [|x a IH]; intros b Ia Ib; [contradiction|]. destruct b as [|y b]; [contradiction|]. cbn [same_chars chars].
  destruct (Z.eqb_spec x y) as [->|N]; cbn [andb].
  - destruct (Z.eqb_spec y 0) as [->|N0]; cbn [orb]; [tauto|].
    destruct Ia as [E|Ia]; [congruence|]. destruct Ib as [E|Ib]; [congruence|]. rewrite IH by auto. split; [congruence|].
    intros H. now injection H.
  - split; [discriminate|]. destruct (Z.eqb_spec x 0), (Z.eqb_spec y 0); try discriminate; congruence.
Qed.
Lemma same_bytes_ok a : forall b, same_bytes a b = true <-> a = b.
Proof.
  induction a as [|x a IH]; intros [|y b]; cbn; try tauto; try (split; discriminate).
  rewrite andb_true_iff, Z.eqb_eq, IH. split; [intros [-> ->]; auto|]. intros H. injection H. auto.
Qed.

Section W.
Variable w : world.
Variable dom : list Z.
Hypothesis FH : finite_heap w dom.

Lemma compare_yes x y : compare w x y = VYes -> x = y \/ heap_obj w x = true /\ heap_obj w y = true /\ same_leaf (at_ w x) (at_ w y).
Proof.
  unfold compare. destruct (Z.eqb_spec x y) as [->|N]; [auto|].
  destruct (heap_obj w x) eqn:Hx; cbn [negb orb]; [|discriminate]. destruct (heap_obj w y) eqn:Hy; cbn [negb]; [|discriminate].
  intros H. right. split; [auto|split; [auto|]]. destruct FH as (D & _ & S).
  pose proof (proj1 (D x) Hx) as Ix. pose proof (proj1 (D y) Hy) as Iy.
  destruct (at_ w x) as [a|a|a|a|a] eqn:Ex, (at_ w y) as [b|b|b|b|b] eqn:Ey; try discriminate;
    try (destruct a; discriminate).
  - destruct (feq a b) eqn:F; [|discriminate]. destruct a, b; cbn in F; try discriminate. apply Z.eqb_eq in F. subst. constructor.
  - destruct (same_chars a b) eqn:F; [|discriminate]. constructor. apply same_chars_ok; eauto.
  - destruct (same_bytes a b) eqn:F; [|discriminate]. apply same_bytes_ok in F. subst. constructor.
  - destruct a as [|a0 a], b as [|b0 b]; try discriminate. destruct (Nat.eqb _ _); [|discriminate]. destruct (_ =? _); discriminate.
Qed.
Lemma compare_parts x y a b : compare w x y = VParts a b ->
  x <> y /\ heap_obj w x = true /\ heap_obj w y = true /\ length a = length b /\
  exists t, at_ w x = NBlk (t :: a) /\ at_ w y = NBlk (t :: b).
Proof.
  unfold compare. destruct (Z.eqb_spec x y) as [->|N]; [discriminate|].
  destruct (heap_obj w x) eqn:Hx; cbn [negb orb]; [|discriminate]. destruct (heap_obj w y) eqn:Hy; cbn [negb]; [|discriminate].
  destruct (at_ w x) as [a'|a'|a'|a'|a'] eqn:Ex, (at_ w y) as [b'|b'|b'|b'|b'] eqn:Ey; try discriminate;
    try (destruct a'; discriminate).
  - destruct (feq a' b'); discriminate.
  - destruct (same_chars a' b'); discriminate.
  - destruct (same_bytes a' b'); discriminate.
  - destruct a' as [|a0 a'], b' as [|b0 b']; try discriminate. destruct (Nat.eqb_spec (length a') (length b')) as [L|]; [|discriminate].
    destruct (Z.eqb_spec a0 b0) as [->|]; [|discriminate]. intros H. injection H as <- <-.
    split; [auto|]. split; [auto|]. split; [auto|]. split; [auto|]. eauto.
Qed.
Lemma compare_no x y : compare w x y = VNo -> ~ upto w 1 x y.
Proof.
  unfold compare. destruct (Z.eqb_spec x y) as [->|N]; [discriminate|].
  intros H [E|(Hx & Hy & [L|(t & xs & ys & Ex & Ey & F)])]; [auto| |].
  - rewrite Hx, Hy in H. cbn [negb orb] in H. destruct FH as (D & _ & S). pose proof (proj1 (D x) Hx). pose proof (proj1 (D y) Hy).
    inversion L as [a Ex Ey|a b C Ex Ey|a Ex Ey]; rewrite <- Ex, <- Ey in H.
    + cbn in H. now rewrite Z.eqb_refl in H.
    + rewrite (proj2 (same_chars_ok a b ltac:(eauto) ltac:(eauto)) C) in H. discriminate.
    + rewrite (proj2 (same_bytes_ok a a) eq_refl) in H. discriminate.
  - rewrite Hx, Hy, Ex, Ey in H. cbn [negb orb] in H.
    assert (LL : length xs = length ys) by (clear - F; induction F; cbn; auto).
    rewrite LL, Nat.eqb_refl, Z.eqb_refl in H. discriminate.
Qed.
Lemma yes_upto x y : compare w x y = VYes -> forall n, upto w n x y.
Proof. intros H [|n]; cbn; [auto|]. apply compare_yes in H as [->|(Hx & Hy & L)]; auto. Qed.
Lemma parts_upto x y a b n : compare w x y = VParts a b -> upto w (S n) x y <-> Forall2 (upto w n) a b.
Proof.
  intros H. apply compare_parts in H as (N & Hx & Hy & L & t & Ex & Ey). cbn. rewrite Ex, Ey. split.
  - intros [E|(_ & _ & [L'|(t' & xs & ys & E1 & E2 & F)])]; [contradiction|inversion L'|]. congruence.
  - intros F. right. split; [auto|split; [auto|right]]. exists t, a, b. auto.
Qed.

(** ** The bounded comparison *)
Definition bparts (d : nat) := fix parts (a b : list Z) (fuel : Z) : option Z :=
  match a, b with
  | [x], [y] => boundequal w d x y fuel
  | x :: a', y :: b' =>
    match boundequal w d x y fuel with
    | None => None
    | Some f => if f <=? 0 then Some f else parts a' b' f
    end
  | _, _ => Some fuel
  end.

Lemma boundequal_ok : forall d x y fuel, 0 < fuel < Z.of_nat d ->
  exists f, boundequal w d x y fuel = Some f /\ f < fuel /\ (0 < f -> same_unfolding w x y) /\ (f < 0 -> exists n, ~ upto w n x y).
Proof.
  induction d as [|d IH]; intros x y fuel B; [lia|]. cbn [boundequal].
  assert (fuel >? 0 = true) as -> by (apply Z.gtb_lt; lia). cbn [negb].
  destruct (compare w x y) as [| |a b] eqn:C.
  - exists (fuel - 1). split; [auto|]. split; [lia|]. split; [|lia]. intros _. exact (yes_upto _ _ C).
  - exists (-1). split; [auto|]. split; [lia|]. split; [lia|]. intros _. exists 1%nat. now apply compare_no.
  - destruct (Z.eqb_spec (fuel - 1) 0) as [E|E].
    + exists 0. split; [auto|]. lia.
    + fold (bparts d).
      assert (P : forall a b fuel, length a = length b -> 0 < fuel < Z.of_nat d ->
        exists f, bparts d a b fuel = Some f /\ f <= fuel /\ (0 < f -> forall n, Forall2 (upto w n) a b) /\
                  (f < 0 -> exists n, ~ Forall2 (upto w n) a b)).
      { clear - IH. induction a as [|x a IHa]; intros b fuel L B.
        - destruct b; [|discriminate]. cbn. exists fuel. split; [auto|]. split; [lia|]. split; [constructor|lia].
        - destruct b as [|y b]; [discriminate|]. injection L as L.
          destruct (IH x y fuel B) as (f & E & Lf & Pos & Neg).
          destruct a as [|x' a]; destruct b as [|y' b]; try discriminate.
          + cbn [bparts]. rewrite E. exists f. split; [auto|]. split; [lia|]. split.
            * intros Hf n. constructor; [now apply Pos|constructor].
            * intros Hf. destruct (Neg Hf) as [n Hn]. exists n. intros F. inversion F; subst. contradiction.
          + change (bparts d (x :: x' :: a) (y :: y' :: b) fuel) with
              (match boundequal w d x y fuel with None => None
               | Some f => if f <=? 0 then Some f else bparts d (x' :: a) (y' :: b) f end).
            rewrite E. destruct (Z.leb_spec f 0) as [L0|L0].
            * exists f. split; [auto|]. split; [lia|]. split; [lia|]. intros Hf. destruct (Neg Hf) as [n Hn]. exists n.
              intros F. inversion F; subst. contradiction.
            * destruct (IHa (y' :: b) f L ltac:(lia)) as (g & Eg & Lg & Pg & Ng). exists g. split; [auto|]. split; [lia|]. split.
              -- intros Hg n. constructor; [now apply Pos|now apply Pg].
              -- intros Hg. destruct (Ng Hg) as [n Hn]. exists n. intros F. inversion F; subst. contradiction. }
      pose proof (compare_parts _ _ _ _ C) as (_ & _ & _ & L & _).
      destruct (P a b (fuel - 1) L ltac:(lia)) as (f & -> & Lf & Pos & Neg). exists f. split; [auto|]. split; [lia|]. split.
      * intros Hf [|n]; [exact I|]. apply (parts_upto _ _ _ _ n C). now apply Pos.
      * intros Hf. destruct (Neg Hf) as [n Hn]. exists (S n). rewrite (parts_upto _ _ _ _ n C). exact Hn.
Qed.

(** ** Classes *)
Section UF.
Variable p : stab.
Variable ks : list Z.
Hypothesis WP : wf p ks.

Definition used (i : Z) : Prop := 0 <= i < tsz p /\ tv p i <> 0.
(** [leads r i n j]: from [i], [n] steps, to the class [j] *)
Inductive leads (r : Z -> Z) : Z -> nat -> Z -> Prop :=
| ld_here i : r i < 0 -> leads r i 0 i
| ld_step i n j : 0 <= r i -> leads r (r i) n j -> leads r i (S n) j.
Definition uf (r : Z -> Z) : Prop := forall i, used i -> (0 <= r i -> used (r i)) /\ exists n j, leads r i n j.

Lemma leads_fun r i n j : leads r i n j -> forall n' j', leads r i n' j' -> n = n' /\ j = j'.
Proof.
  induction 1 as [i H|i n j H L IH]; intros n' j' L'; inversion L' as [i' H'|i' m j1 H' L1]; subst; try lia; auto.
  destruct (IH _ _ L1) as [-> ->]. auto.
Qed.
Lemma leads_neg r i n j : leads r i n j -> r j < 0.
Proof. induction 1; auto. Qed.
Lemma leads_used r i n j : uf r -> used i -> leads r i n j -> used j.
Proof. intros U Ui L. induction L as [i H|i n j H L IH]; auto. apply IH. now apply (U i Ui). Qed.

(** the slots passed on the way are all different, so there are at most [tsz p] of them *)
Lemma leads_short r i n j : uf r -> used i -> leads r i n j -> Z.of_nat n < tsz p.
Proof.
  intros U Ui L.
  assert (exists l, length l = S n /\ NoDup l /\ Forall used l /\
                    (forall a, In a l -> exists m j', (m <= n)%nat /\ leads r a m j')) as (l & Ll & ND & F & _).
  { clear - U Ui L. induction L as [i H|i n j H L IH].
    - exists [i]. split; [auto|]. split; [constructor; [auto|constructor]|]. split; [auto|].
      intros a [<-|[]]. exists 0%nat, i. split; [auto|now constructor].
    - destruct (IH (proj1 (U i Ui) H)) as (l & Ll & ND & F & A). exists (i :: l). split; [cbn; lia|]. split; [|split; [auto|]].
      + constructor; [|auto]. intros Hin. destruct (A i Hin) as (m & j' & Hm & Lm).
        destruct (leads_fun _ _ _ _ (ld_step r i n j H L) _ _ Lm). lia.
      + intros a [<-|Ha]; [exists (S n), j; split; [auto|now constructor]|].
        destruct (A a Ha) as (m & j' & Hm & Lm). exists m, j'. split; [lia|auto]. }
  assert (I : incl l (map Z.of_nat (seq 0 (Z.to_nat (tsz p))))).
  { intros a Ha. rewrite Forall_forall in F. destruct (F a Ha) as [B _]. apply in_map_iff. exists (Z.to_nat a).
    split; [lia|]. apply in_seq. lia. }
  pose proof (NoDup_incl_length ND I) as LL. rewrite map_length, seq_length in LL. lia.
Qed.
Lemma root_ok r i n j : leads r i n j -> forall m, (n < m)%nat -> root m r i = Some j.
Proof.
  induction 1 as [i H|i n j H L IH]; intros m Hm; (destruct m as [|m]; [lia|]); cbn [root].
  - apply Z.ltb_lt in H. now rewrite H.
  - assert (r i <? 0 = false) as -> by (apply Z.ltb_ge; lia). apply IH. lia.
Qed.

(** the representative of a slot's class *)
Definition rep (r : Z -> Z) (i j : Z) : Prop := exists n, leads r i n j.
Lemma rep_fun r i j j' : rep r i j -> rep r i j' -> j = j'.
Proof. intros [n L] [n' L']. now apply (leads_fun _ _ _ _ L _ _ L'). Qed.
Lemma rep_self r j : r j < 0 -> rep r j j.
Proof. intros H. exists 0%nat. now constructor. Qed.
Lemma rep_step r i j : 0 <= r i -> rep r (r i) j -> rep r i j.
Proof. intros H [n L]. exists (S n). now constructor. Qed.

Definition classes (r : Z -> Z) : list Z := filter (fun i => r i <? 0) (filter (fun i => negb (tv p i =? 0)) (map Z.of_nat (seq 0 (Z.to_nat (tsz p))))).
Lemma in_slots i : In i (filter (fun i => negb (tv p i =? 0)) (map Z.of_nat (seq 0 (Z.to_nat (tsz p))))) <-> used i.
Proof.
  rewrite filter_In, in_map_iff, negb_true_iff, Z.eqb_neq. unfold used. split.
  - intros ((n & <- & I) & N). apply in_seq in I. split; [lia|auto].
  - intros (B & N). split; [|auto]. exists (Z.to_nat i). split; [lia|]. apply in_seq. lia.
Qed.
Lemma filter_len_le A (f g : A -> bool) l : (forall a, In a l -> f a = true -> g a = true) -> (length (filter f l) <= length (filter g l))%nat.
Proof.
  induction l as [|a l IH]; intros H; cbn; [auto|]. specialize (IH (fun b Ib => H b (or_intror Ib))).
  destruct (f a) eqn:F; [rewrite (H a (or_introl eq_refl) F); cbn; lia|]. destruct (g a); cbn; lia.
Qed.
Lemma filter_len_lt A (f g : A -> bool) l x : (forall a, In a l -> f a = true -> g a = true) -> In x l -> f x = false -> g x = true ->
  (length (filter f l) < length (filter g l))%nat.
Proof.
  induction l as [|a l IH]; intros H I Fx Gx; [contradiction|]. cbn.
  pose proof (filter_len_le _ f g l (fun b Ib => H b (or_intror Ib))).
  destruct I as [->|I].
  - rewrite Fx, Gx. cbn. lia.
  - specialize (IH (fun b Ib => H b (or_intror Ib)) I Fx Gx). destruct (f a) eqn:F; [rewrite (H a (or_introl eq_refl) F); cbn; lia|].
    destruct (g a); cbn; lia.
Qed.
Definition nclasses r := length (classes r).

Lemma find_class_ok r i : uf r -> used i ->
  exists j r', find_class (tsz p) r i = Some (j, r') /\ rep r i j /\ used j /\ r' j < 0 /\ uf r' /\
    (forall a b, used a -> rep r a b <-> rep r' a b) /\ nclasses r' = nclasses r /\ (forall a, r a < 0 -> r' a = r a).
Proof.
  intros U Ui. destruct (U i Ui) as (_ & n & j & L). unfold find_class.
  pose proof (leads_short _ _ _ _ U Ui L) as Sh.
  rewrite (root_ok _ _ _ _ L (probes (tsz p))) by (unfold probes; lia).
  pose proof (leads_used _ _ _ _ U Ui L) as Uj. pose proof (leads_neg _ _ _ _ L) as Nj.
  destruct (Z.eqb_spec j i) as [->|N].
  - exists i, r. split; [auto|]. split; [now exists n|]. split; [auto|]. split; [auto|]. split; [auto|]. split; [tauto|auto].
  - set (r' := put r i j). assert (Hi : 0 <= r i).
    { inversion L; subst; [congruence|auto]. }
    assert (Rj : rep r' j j) by (apply rep_self; unfold r'; now rewrite put_other).
    assert (F : forall a n b, leads r a n b -> rep r' a b).
    { intros a m b La. induction La as [a H|a m b H La IH].
      - apply rep_self. unfold r'. rewrite put_other; [auto|]. intros ->. lia.
      - destruct (Z.eq_dec a i) as [->|Na].
        + destruct (leads_fun _ _ _ _ (ld_step r i m b H La) _ _ L) as [_ ->].
          apply rep_step; unfold r'; rewrite put_same; [destruct Uj; lia|auto].
        + apply rep_step; unfold r'; rewrite put_other; auto. }
    assert (U' : uf r').
    { intros a Ua. destruct (U a Ua) as (P & m & b & La). split.
      - unfold r', put. destruct (Z.eqb_spec a i); auto.
      - destruct (F a m b La) as [m' L']. eauto. }
    exists j, r'. split; [auto|]. split; [now exists n|]. split; [auto|]. split; [unfold r'; now rewrite put_other|]. split; [auto|].
    split; [|split].
    + intros a b Ua. split; [intros [m La]; eauto|]. intros R. destruct (U a Ua) as (_ & m & b' & La).
      rewrite (rep_fun _ _ _ _ R (F _ _ _ La)). now exists m.
    + unfold nclasses, classes. f_equal. apply filter_ext_in. intros a Ha. unfold r', put.
      destruct (Z.eqb_spec a i) as [->|]; [|auto]. destruct (Z.ltb_spec j 0), (Z.ltb_spec (r i) 0); auto; try lia.
      destruct Uj. lia.
    + intros a Ha. unfold r'. apply put_other. intros ->. lia.
Qed.

Lemma join_ok r x y c : uf r -> used x -> used y -> r x < 0 -> r y < 0 -> x <> y -> c < 0 ->
  let r' := put (put r x c) y x in
  uf r' /\ (forall a b, used a -> rep r a b -> rep r' a (if b =? y then x else b)) /\ (nclasses r' < nclasses r)%nat.
Proof.
  intros U Ux Uy Nx Ny N Hc r'.
  assert (Rx : rep r' x x) by (apply rep_self; unfold r'; rewrite put_other, put_same; auto).
  assert (F : forall a n b, leads r a n b -> rep r' a (if b =? y then x else b)).
  { intros a n b La. induction La as [a H|a n b H La IH].
    - destruct (Z.eqb_spec a y) as [->|Na].
      + apply rep_step; unfold r'; rewrite put_same; [destruct Ux; lia|auto].
      + destruct (Z.eq_dec a x) as [->|Na']; [auto|]. apply rep_self. unfold r'. now rewrite !put_other.
    - apply rep_step.
      + unfold r'. rewrite !put_other; [auto|intros ->; lia|intros ->; lia].
      + unfold r' at 2. rewrite !put_other; [auto|intros ->; lia|intros ->; lia]. }
  split; [|split].
  - intros a Ua. destruct (U a Ua) as (P & n & b & La). split.
    + unfold r', put. destruct (Z.eqb_spec a y); [auto|]. destruct (Z.eqb_spec a x); [lia|auto].
    + destruct (F _ _ _ La) as [m L]. eauto.
  - intros a b Ua [n La]. eauto.
  - unfold nclasses, classes. apply filter_len_lt with (x := y).
    + intros a Ha. unfold r', put. destruct (Z.eqb_spec a y) as [->|]; [destruct Ux; intros LT; apply Z.ltb_lt in LT; lia|].
      destruct (Z.eqb_spec a x) as [->|]; [intros _; now apply Z.ltb_lt|auto].
    + now apply in_slots.
    + unfold r'. rewrite put_same. apply Z.ltb_ge. now destruct Ux.
    + now apply Z.ltb_lt.
Qed.

(** slots of objects *)
Lemma slot_ok o : In o ks -> exists i, slot_of p o = Some i /\ used i /\ key (tv p i) = o.
Proof.
  intros I. destruct (w_tab _ _ WP) as (k & Hk & Hsz & T). unfold slot_of. rewrite Hsz.
  destruct (probe_found k ltac:(lia) _ _ _ T I) as (i & -> & B & N & K). exists i. split; [auto|]. split; [|auto].
  split; [now rewrite Hsz|auto].
Qed.
Lemma slot_inj o o' i : In o ks -> In o' ks -> slot_of p o = Some i -> slot_of p o' = Some i -> o = o'.
Proof.
  intros I I' E E'. destruct (slot_ok o I) as (j & Ej & _ & Kj), (slot_ok o' I') as (j' & Ej' & _ & Kj'). congruence.
Qed.

(** two objects in one class *)
Definition sc (r : Z -> Z) (x y : Z) : Prop :=
  In x ks /\ In y ks /\ exists i j c, slot_of p x = Some i /\ slot_of p y = Some j /\ rep r i c /\ rep r j c.

Lemma stabufind_ok r x y : uf r -> In x ks -> In y ks ->
  exists b r', stabufind p x y r = Some (b, r') /\ uf r' /\ sc r' x y /\ (forall a b, sc r a b -> sc r' a b) /\
    (b = true -> sc r x y /\ nclasses r' = nclasses r /\ forall a b, sc r' a b -> sc r a b) /\
    (b = false -> (nclasses r' < nclasses r)%nat /\
                  forall a b, sc r' a b -> sc r a b \/ sc r a x /\ sc r y b \/ sc r a y /\ sc r x b).
Proof.
  intros U Ix Iy. unfold stabufind.
  destruct (slot_ok x Ix) as (sx & -> & Usx & Kx). destruct (find_class_ok r sx U Usx) as (cx & r1 & -> & Rx & Ucx & Ncx & U1 & E1 & C1 & N1).
  destruct (slot_ok y Iy) as (sy & Esy & Usy & Ky). rewrite Esy.
  destruct (find_class_ok r1 sy U1 Usy) as (cy & r2 & -> & Ry & Ucy & Ncy & U2 & E2 & C2 & N2).
  destruct (slot_ok x Ix) as (sx' & Esx & Usx' & Kx').
  assert (sx' = sx) as ->.
  { destruct (w_tab _ _ WP) as (k & Hk & Hsz & T). apply (t_one _ _ _ T); try (rewrite <- Hsz); try apply Usx; try apply Usx'. congruence. }
  assert (E12 : forall a b, used a -> rep r a b <-> rep r2 a b) by (intros a b Ua; rewrite (E1 a b Ua); now apply E2).
  assert (Rx2 : rep r2 sx cx) by now apply E12.
  assert (Ry2 : rep r2 sy cy) by now apply E2.
  assert (Ry0 : rep r sy cy) by now apply E12.
  assert (Ncx2 : r2 cx < 0) by (rewrite N2; auto).
  assert (S02 : forall a b, sc r a b <-> sc r2 a b).
  { intros a b. unfold sc. split; intros (Ia & Ib & i & j & c & Ei & Ej & Ri & Rj); split; auto; split; auto; exists i, j, c;
      destruct (slot_ok a Ia) as (i' & Ei' & Ui & _), (slot_ok b Ib) as (j' & Ej' & Uj & _);
      rewrite Ei in Ei'; injection Ei' as <-; rewrite Ej in Ej'; injection Ej' as <-;
      (split; [auto|split; [auto|split; now apply E12]]). }
  destruct (Z.eqb_spec cx cy) as [->|N].
  { exists true, r2. split; [auto|]. split; [auto|].
    assert (Sxy : sc r x y) by (split; [auto|split; [auto|]]; exists sx, sy, cy; auto).
    split; [now apply S02|]. split; [intros a b; apply S02|]. split; [|discriminate]. intros _. split; [auto|].
    split; [congruence|]. intros a b. apply S02. }
  (* joining the classes c1 and c2, c1 being kept *)
  assert (J : forall c1 c2 r', c1 <> c2 -> used c1 -> used c2 -> r2 c1 < 0 -> r2 c2 < 0 ->
     r' = put (put r2 c1 (r2 c1 + r2 c2)) c2 c1 -> (c1 = cx /\ c2 = cy \/ c1 = cy /\ c2 = cx) ->
     exists b r'', Some (false, r') = Some (b, r'') /\ uf r'' /\ sc r'' x y /\ (forall a b, sc r a b -> sc r'' a b) /\
    (b = true -> sc r x y /\ nclasses r'' = nclasses r /\ forall a b, sc r'' a b -> sc r a b) /\
    (b = false -> (nclasses r'' < nclasses r)%nat /\
                  forall a b, sc r'' a b -> sc r a b \/ sc r a x /\ sc r y b \/ sc r a y /\ sc r x b)).
  { intros c1 c2 r' Nc Uc1 Uc2 N1' N2' Er' Hc. exists false, r'. split; [auto|].
    destruct (join_ok r2 c1 c2 (r2 c1 + r2 c2) U2 Uc1 Uc2 N1' N2' Nc ltac:(lia)) as (U' & F & L). rewrite <- Er' in U', F, L.
    split; [auto|].
    assert (Fwd : forall a b, sc r2 a b -> sc r' a b).
    { intros a b (Ia & Ib & i & j & c & Ei & Ej & Ri & Rj). split; [auto|split; [auto|]].
      destruct (slot_ok a Ia) as (i' & Ei' & Ui & _), (slot_ok b Ib) as (j' & Ej' & Uj & _).
      rewrite Ei in Ei'; injection Ei' as <-; rewrite Ej in Ej'; injection Ej' as <-.
      exists i, j. eexists. split; [auto|split; [auto|split; apply F; eauto]]. }
    split.
    { split; [auto|split; [auto|]]. exists sx, sy, c1. split; [auto|split; [auto|]].
      pose proof (F sx cx Usx Rx2) as Fx. pose proof (F sy cy Usy Ry2) as Fy.
      destruct Hc as [[-> ->]|[-> ->]].
      - assert (cx =? cy = false) as E by now apply Z.eqb_neq. rewrite E in Fx. rewrite Z.eqb_refl in Fy. auto.
      - assert (cy =? cx = false) as E by (apply Z.eqb_neq; auto). rewrite E in Fy. rewrite Z.eqb_refl in Fx. auto. }
    split; [intros a b S; apply Fwd, S02, S|]. split; [discriminate|]. intros _. split; [lia|].
    intros a b (Ia & Ib & i & j & c & Ei & Ej & Ri & Rj).
    destruct (slot_ok a Ia) as (i' & Ei' & Ui & _), (slot_ok b Ib) as (j' & Ej' & Uj & _).
    rewrite Ei in Ei'; injection Ei' as <-; rewrite Ej in Ej'; injection Ej' as <-.
    destruct (U i Ui) as (_ & ni & ci & Li), (U j Uj) as (_ & nj & cj & Lj).
    assert (Ri0 : rep r i ci) by now exists ni. assert (Rj0 : rep r j cj) by now exists nj.
    pose proof (F i ci Ui (proj1 (E12 _ _ Ui) Ri0)) as Fi. pose proof (F j cj Uj (proj1 (E12 _ _ Uj) Rj0)) as Fj.
    pose proof (rep_fun _ _ _ _ Fi Ri) as Ei1. pose proof (rep_fun _ _ _ _ Fj Rj) as Ej1.
    assert (K : ci = cj \/ ci = cx /\ cj = cy \/ ci = cy /\ cj = cx).
    { destruct (Z.eqb_spec ci c2), (Z.eqb_spec cj c2); subst; auto; destruct Hc as [[-> ->]|[-> ->]]; auto. }
    destruct K as [->|[[-> ->]|[-> ->]]].
    - left. split; [auto|split; [auto|]]. exists i, j, cj. auto.
    - right. left. split; (split; [auto|split; [auto|]]).
      + exists i, sx, cx. auto.
      + exists sy, j, cy. auto.
    - right. right. split; (split; [auto|split; [auto|]]).
      + exists i, sy, cy. auto.
      + exists sx, j, cx. auto. }
  destruct (r2 cx <? r2 cy).
  - apply (J cx cy); auto.
  - apply (J cy cx); auto.
Qed.

(** ** The comparison with classes *)
Hypothesis Closed : forall a, In a ks -> forall f, In f (words (at_ w a)) -> heap_obj w f = true -> In f ks.

Definition related (r : Z -> Z) (x y : Z) : Prop :=
  x = y \/ heap_obj w x = true /\ heap_obj w y = true /\ same_leaf (at_ w x) (at_ w y) \/ sc r x y.
(** a joined pair whose parts have all been found related *)
Definition settled (r : Z -> Z) (ab : Z * Z) : Prop :=
  heap_obj w (fst ab) = true /\ heap_obj w (snd ab) = true /\
  exists t xs ys, at_ w (fst ab) = NBlk (t :: xs) /\ at_ w (snd ab) = NBlk (t :: ys) /\ Forall2 (related r) xs ys.
Inductive clos (B : Z -> Z -> Prop) : Z -> Z -> Prop :=
| cl_base a b : B a b -> clos B a b
| cl_sym a b : clos B a b -> clos B b a
| cl_trans a b c : clos B a b -> clos B b c -> clos B a c.
Lemma clos_mono (B B' : Z -> Z -> Prop) a b : (forall a b, B a b -> clos B' a b) -> clos B a b -> clos B' a b.
Proof. intros H C. induction C; [auto|now apply cl_sym|eapply cl_trans; eauto]. Qed.
Definition base (r : Z -> Z) (G : list (Z * Z)) (a b : Z) : Prop := sc r a b \/ In (a, b) G.

Lemma related_mono r r' x y : (forall a b, sc r a b -> sc r' a b) -> related r x y -> related r' x y.
Proof. intros H [E|[E|E]]; [now left|right; now left|right; right; auto]. Qed.
Lemma settled_mono r r' ab : (forall a b, sc r a b -> sc r' a b) -> settled r ab -> settled r' ab.
Proof.
  intros H (Hx & Hy & t & xs & ys & E1 & E2 & F). split; [auto|split; [auto|]]. exists t, xs, ys. split; [auto|split; [auto|]].
  eapply Forall2_imp; [|exact F]. intros a b. now apply related_mono.
Qed.

Definition post (r : Z -> Z) (res : bool) (r' : Z -> Z) (bad : nat -> Prop) (good : Prop) : Prop :=
  uf r' /\ (nclasses r' <= nclasses r)%nat /\ (forall a b, sc r a b -> sc r' a b) /\
  (res = false -> exists n, bad n) /\
  (res = true -> good /\ exists G, (forall a b, sc r' a b -> clos (base r G) a b) /\ Forall (settled r') G).

Definition sparts (d : nat) := fix parts (a b : list Z) (r : Z -> Z) : option (bool * (Z -> Z)) :=
  match a, b with
  | x :: a', y :: b' =>
    match stabequal w p d x y r with
    | None => None
    | Some (false, r) => Some (false, r)
    | Some (true, r) => parts a' b' r
    end
  | _, _ => Some (true, r)
  end.

Lemma stabequal_ok : forall d x y r, uf r -> (nclasses r < d)%nat ->
  (heap_obj w x = true -> In x ks) -> (heap_obj w y = true -> In y ks) ->
  exists res r', stabequal w p d x y r = Some (res, r') /\ post r res r' (fun n => ~ upto w n x y) (related r' x y).
Proof.
  induction d as [|d IH]; intros x y r U L Hx Hy; [lia|]. cbn [stabequal].
  destruct (compare w x y) as [| |a b] eqn:C.
  - exists true, r. split; [auto|]. split; [auto|]. split; [auto|]. split; [auto|]. split; [discriminate|]. intros _. split.
    + apply compare_yes in C as [E|E]; [now left|right; now left].
    + exists []. split; [|constructor]. intros a b S. apply cl_base. now left.
  - exists false, r. split; [auto|]. split; [auto|]. split; [auto|]. split; [auto|]. split; [|discriminate]. intros _.
    exists 1%nat. now apply compare_no.
  - pose proof (compare_parts _ _ _ _ C) as (N & Hhx & Hhy & Lab & t & Ex & Ey).
    specialize (Hx Hhx). specialize (Hy Hhy).
    destruct (stabufind_ok r x y U Hx Hy) as (same & r1 & -> & U1 & S1 & M1 & T1 & F1).
    destruct same.
    + destruct (T1 eq_refl) as (Sxy & NC & B). exists true, r1. split; [auto|]. split; [auto|]. split; [lia|]. split; [auto|].
      split; [discriminate|]. intros _. split; [right; now right|]. exists []. split; [|constructor]. intros a' b' S'. apply cl_base. left. auto.
    + destruct (F1 eq_refl) as (NC & B). fold (sparts d).
      assert (P : forall a b r, length a = length b -> uf r -> (nclasses r < d)%nat ->
         (forall f, In f a -> heap_obj w f = true -> In f ks) -> (forall f, In f b -> heap_obj w f = true -> In f ks) ->
         exists res r', sparts d a b r = Some (res, r') /\
           post r res r' (fun n => ~ Forall2 (upto w n) a b) (Forall2 (related r') a b)).
      { clear - IH. induction a as [|x a IHa]; intros b r Lab U L Ha Hb; (destruct b as [|y b]; [try discriminate Lab|try discriminate Lab]).
        - exists true, r. split; [auto|]. split; [auto|]. split; [auto|]. split; [auto|]. split; [discriminate|]. intros _.
          split; [constructor|]. exists []. split; [|constructor]. intros a b S. apply cl_base. now left.
        - injection Lab as Lab. cbn [sparts].
          destruct (IH x y r U L (Ha x (or_introl eq_refl)) (Hb y (or_introl eq_refl))) as (res & r1 & -> & U1 & L1 & M1 & Bd & Gd).
          destruct res.
          + destruct (IHa b r1 Lab U1 ltac:(lia) (fun f I => Ha f (or_intror I)) (fun f I => Hb f (or_intror I)))
              as (res & r2 & -> & U2 & L2 & M2 & Bd2 & Gd2).
            exists res, r2. split; [auto|]. split; [auto|]. split; [lia|]. split; [auto|]. split.
            * intros E. destruct (Bd2 E) as [n Hn]. exists n. intros F. inversion F; subst. contradiction.
            * intros E. destruct (Gd eq_refl) as (R1 & G1 & C1 & S1). destruct (Gd2 E) as (R2 & G2 & C2 & S2). split.
              -- constructor; [eapply related_mono; eauto|auto].
              -- exists (G1 ++ G2). split.
                 ++ intros a' b' S. apply C2 in S. eapply clos_mono; [|exact S]. intros u v [H|H].
                    ** apply C1 in H. eapply clos_mono; [|exact H]. intros u' v' [K|K]; apply cl_base; [now left|right].
                       apply in_or_app. now left.
                    ** apply cl_base. right. apply in_or_app. now right.
                 ++ apply Forall_app. split; [|auto]. eapply Forall_impl; [|exact S1]. intros ab. now apply settled_mono.
          + exists false, r1. split; [auto|]. split; [auto|]. split; [auto|]. split; [auto|]. split; [|discriminate]. intros _.
            destruct (Bd eq_refl) as [n Hn]. exists n. intros F. inversion F; subst. contradiction. }
      assert (Ca : forall f, In f a -> heap_obj w f = true -> In f ks).
      { intros f If. apply (Closed x Hx). rewrite Ex. cbn. now right. }
      assert (Cb : forall f, In f b -> heap_obj w f = true -> In f ks).
      { intros f If. apply (Closed y Hy). rewrite Ey. cbn. now right. }
      destruct (P a b r1 Lab U1 ltac:(lia) Ca Cb) as (res & r2 & -> & U2 & L2 & M2 & Bd & Gd).
      exists res, r2. split; [auto|]. split; [auto|]. split; [lia|]. split; [auto|]. split.
      * intros E. destruct (Bd E) as [n Hn]. exists (S n). now rewrite (parts_upto _ _ _ _ n C).
      * intros E. destruct (Gd E) as (R & G & CG & SG). split; [right; right; auto|]. exists ((x, y) :: G). split.
        -- intros a' b' S. apply CG in S. eapply clos_mono; [|exact S]. intros u v [H|H].
           ++ assert (XY : clos (base r ((x, y) :: G)) x y) by (apply cl_base; right; now left).
              apply B in H as [H|[[H1 H2]|[H1 H2]]].
              ** apply cl_base. now left.
              ** apply cl_trans with x; [apply cl_base; now left|]. apply cl_trans with y; [exact XY|]. apply cl_base. now left.
              ** apply cl_trans with y; [apply cl_base; now left|]. apply cl_trans with x; [now apply cl_sym|]. apply cl_base. now left.
           ++ apply cl_base. right. now right.
        -- constructor; [|auto]. split; [auto|split; [auto|]]. exists t, a, b. auto.
Qed.

(** ** From settled classes to unfoldings *)
Lemma related_upto r G : (forall a b, sc r a b -> clos (fun a b => a = b \/ In (a, b) G) a b) -> Forall (settled r) G ->
  forall n x y, related r x y -> upto w n x y.
Proof.
  intros C SG. induction n as [|n IH]; intros x y R; [exact I|].
  destruct R as [->|[(Hx & Hy & L)|S]]; [apply upto_refl|cbn; auto|].
  apply C in S. induction S as [a b [->|I]|a b S IHS|a b c S1 IH1 S2 IH2].
  - apply upto_refl.
  - rewrite Forall_forall in SG. destruct (SG _ I) as (Ha & Hb & t & xs & ys & E1 & E2 & F). cbn. right.
    split; [auto|split; [auto|right]]. exists t, xs, ys. split; [auto|split; [auto|]]. eapply Forall2_imp; [|exact F]. auto.
  - now apply upto_sym.
  - eapply upto_trans; eauto.
Qed.
End UF.

Definition r0 (p : stab) : Z -> Z := fun i => if Z.land (tv p i) (-2) =? 0 then 0 else -1.

Lemma stab_stage p ks d x y : wf p ks -> incl ks dom -> (length dom < d)%nat ->
  (forall a, In a ks -> forall f, In f (words (at_ w a)) -> heap_obj w f = true -> In f ks) ->
  (heap_obj w x = true -> In x ks) -> (heap_obj w y = true -> In y ks) ->
  exists res r', stabequal w p d x y (r0 p) = Some (res, r') /\ (res = true -> same_unfolding w x y) /\
                 (res = false -> exists n, ~ upto w n x y).
Proof.
  intros WP I L Cl Hx Hy.
  assert (Neg : forall i, used p i -> r0 p i < 0).
  { intros i Ui. destruct (w_tab _ _ WP) as (k & Hk & Hsz & T). destruct Ui as [B N]. rewrite Hsz in B.
    destruct (t_in _ _ _ T i B N) as [Kn _]. unfold r0. fold (key (tv p i)). destruct (Z.eqb_spec (key (tv p i)) 0); [contradiction|lia]. }
  assert (U : uf p (r0 p)).
  { intros i Ui. specialize (Neg i Ui). split; [lia|]. exists 0%nat, i. now constructor. }
  assert (NC : (nclasses p (r0 p) < d)%nat).
  { assert (length (classes p (r0 p)) <= length ks)%nat; [|pose proof (NoDup_incl_length (w_nd _ _ WP) I); unfold nclasses; lia].
    destruct (w_tab _ _ WP) as (k & Hk & Hsz & T).
    set (cl := classes p (r0 p)).
    assert (Uc : forall i, In i cl -> used p i) by (intros i Ii; unfold cl, classes in Ii; apply filter_In in Ii as [Ii _]; now apply in_slots in Ii).
    assert (NoDup (map (fun i => key (tv p i)) cl)) as NDk.
    { apply NoDup_map_on.
      - intros a b Ia Ib E. apply Uc in Ia as [Ba Na], Ib as [Bb Nb]. rewrite Hsz in Ba, Bb. now apply (t_one _ _ _ T).
      - unfold cl, classes. apply NoDup_filter, NoDup_filter. apply NoDup_map_on; [|apply seq_NoDup].
        intros a b _ _ E. now apply Nat2Z.inj. }
    rewrite <- (map_length (fun i => key (tv p i)) cl). apply NoDup_incl_length; [exact NDk|].
    intros o Io. apply in_map_iff in Io as (i & <- & Ii). apply Uc in Ii as [B N]. rewrite Hsz in B. now apply (t_in _ _ _ T). }
  destruct (stabequal_ok p ks WP Cl d x y (r0 p) U NC Hx Hy) as (res & r' & -> & U' & _ & _ & Bd & Gd).
  exists res, r'. split; [auto|]. split; [|exact Bd]. intros E n. destruct (Gd E) as (R & G & CG & SG).
  apply (related_upto p ks r' G); auto. intros a b S. apply CG in S. eapply clos_mono; [|exact S].
  intros u v [H|H]; apply cl_base; [left|now right].
  destruct H as (Iu & Iv & i & j & c & Ei & Ej & Ri & Rj).
  destruct (slot_ok p ks WP u Iu) as (i' & Ei' & Ui & _), (slot_ok p ks WP v Iv) as (j' & Ej' & Uj & _).
  rewrite Ei in Ei'; injection Ei' as <-; rewrite Ej in Ej'; injection Ej' as <-.
  assert (Rep : forall i c, used p i -> rep (r0 p) i c -> i = c).
  { intros a' c' Ua [m Ln]. specialize (Neg a' Ua). inversion Ln; subst; [auto|]. lia. }
  apply Rep in Ri; [|auto]. apply Rep in Rj; [|auto]. subst. apply (slot_inj p ks WP u v c); auto.
Qed.

Lemma isequal_ok d x y : (length dom < d)%nat ->
  exists b, isequal w d x y = Some b /\ (b = true <-> same_unfolding w x y).
Proof.
  intros L. unfold isequal.
  destruct (boundequal_ok 501 x y 500 ltac:(lia)) as (f & -> & _ & Pos & Neg).
  assert (Fin : forall b, (b = true -> same_unfolding w x y) -> (b = false -> exists n, ~ upto w n x y) -> b = true <-> same_unfolding w x y).
  { intros b Y N. split; [auto|]. intros S. destruct b; [auto|]. destruct (N eq_refl) as [n Hn]. elim Hn. apply S. }
  destruct (Z.eqb_spec f 0) as [->|NZ]; cbn [negb].
  - destruct (stabshared_ok w dom FH d x staballoc [] wf_start (incl_nil_l _) ltac:(cbn; lia)) as (p1 & k1 & -> & W1 & I1 & _ & X1 & C1).
    destruct (stabshared_ok w dom FH d y p1 k1 W1 I1 ltac:(lia)) as (p2 & k2 & -> & W2 & I2 & M2 & Y2 & C2).
    assert (Cl : forall a, In a k2 -> forall g, In g (words (at_ w a)) -> heap_obj w g = true -> In g k2).
    { intros a Ia g Ig Hg. destruct (in_dec Z.eq_dec a k1) as [Ia1|Na1]; [apply M2; apply (C1 a); auto|apply (C2 a); auto]. }
    destruct (stab_stage p2 k2 d x y W2 I2 L Cl (fun H => M2 _ (X1 H)) Y2) as (res & r' & E & Y & N).
    unfold r0 in E. rewrite E. exists res. split; [auto|]. now apply Fin.
  - exists (f >? 0). split; [auto|]. apply Fin; intros H.
    + apply Pos. apply Z.gtb_lt in H. lia.
    + apply Neg. rewrite Z.gtb_ltb in H. apply Z.ltb_ge in H. lia.
Qed.
End W.
