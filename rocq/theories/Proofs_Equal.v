From Coq Require Import ZArith List Bool Lia.
From Verif Require Import Base Model_Imm Proofs_Imm Model_GC Model_List Spec_List Spec_Equal Proofs_List Proofs_List2.
Import ListNotations.
Open Scope Z_scope.

Lemma Forall2_len {A B} {R : A -> B -> Prop} {l l'} : Forall2 R l l' -> length l = length l'.
Proof. induction 1; cbn; congruence. Qed.

Section Search.
Variables heap hs : Z.
Hypothesis Hok : heap_ok heap hs.
Notation hm := (hmask hs).
(** ** searches *)
Lemma mem_loop_ok : forall m (test : Z -> lres bool) (P : Z -> Prop) ps fuel l,
  chain heap hs m l ps -> (length ps < fuel)%nat ->
  Forall (fun p => exists b, test (car_at m p) = LVal b /\ (b = true <-> P p)) ps ->
  exists r, mem_loop heap hm fuel m test l = LVal r /\ first_such P ps r.
Proof.
  intros m test P ps. induction ps as [|p ps IH]; intros fuel l H Hf HT; destruct fuel as [|f]; try (cbn in Hf; lia);
    cbn [mem_loop].
  - cbn in H. subst. rewrite mknull_eq, Z.eqb_refl. exists 0. split; [reflexivity|]. left. split; [reflexivity|constructor].
  - destruct H as (-> & Hp & H). rewrite (pair_not_null heap hs Hok m p Hp).
    rewrite (car_ok heap hs Hok m p Hp). cbn [lbind].
    destruct (Forall_inv HT) as (b & -> & Hb). cbn [lbind]. destruct b.
    + exists p. split; [reflexivity|]. right. exists [], ps. split; [reflexivity|]. split; [constructor|tauto].
    + rewrite (cdr_ok heap hs Hok m p Hp). cbn [lbind].
      destruct (IH f _ H ltac:(cbn in Hf; lia) (Forall_inv_tail HT)) as (r & Er & Hr).
      assert (Hnp : ~ P p) by (intros X; apply Hb in X; discriminate).
      exists r. split; [exact Er|]. destruct Hr as [[-> Hr]|(pre & post & E & Hr1 & Hr2)].
      * left. split; [reflexivity|]. now constructor.
      * right. exists (p :: pre), post. split; [rewrite E; reflexivity|]. split; [now constructor|exact Hr2].
Qed.

(** association lists: the chain's cars are pairs *)
Lemma ass_loop_ok : forall m (test : Z -> lres bool) (P : Z -> Prop) ps fuel l,
  chain heap hs m l ps -> (length ps < fuel)%nat ->
  Forall (fun p => pair_at heap hs m (car_at m p)) ps ->
  Forall (fun p => exists b, test (car_at m (car_at m p)) = LVal b /\ (b = true <-> P (car_at m p))) ps ->
  exists r, ass_loop heap hm fuel m test l = LVal r /\ first_such P (elems m ps) r.
Proof.
  intros m test P ps. induction ps as [|p ps IH]; intros fuel l H Hf HA HT; destruct fuel as [|f]; try (cbn in Hf; lia);
    cbn [ass_loop].
  - cbn in H. subst. rewrite mknull_eq, Z.eqb_refl. exists 0. split; [reflexivity|]. left. split; [reflexivity|constructor].
  - destruct H as (-> & Hp & H). rewrite (pair_not_null heap hs Hok m p Hp).
    rewrite (car_ok heap hs Hok m p Hp). cbn [lbind]. rewrite (car_ok heap hs Hok m _ (Forall_inv HA)). cbn [lbind].
    destruct (Forall_inv HT) as (b & -> & Hb). cbn [lbind elems map]. destruct b.
    + eexists. split; [reflexivity|]. right. exists [], (elems m ps). split; [reflexivity|]. split; [constructor|tauto].
    + rewrite (cdr_ok heap hs Hok m p Hp). cbn [lbind].
      destruct (IH f _ H ltac:(cbn in Hf; lia) (Forall_inv_tail HA) (Forall_inv_tail HT)) as (r & Er & Hr).
      assert (Hnp : ~ P (car_at m p)) by (intros X; apply Hb in X; discriminate).
      exists r. split; [exact Er|]. unfold elems in Hr. destruct Hr as [[-> Hr]|(pre & post & E & Hr1 & Hr2)].
      * left. split; [reflexivity|]. constructor; assumption.
      * right. exists (car_at m p :: pre), post. split; [unfold elems; rewrite E; reflexivity|].
        split; [now constructor|exact Hr2].
Qed.

End Search.

Section Trees.
Variable F : Type.
Variable feq : F -> F -> bool.
Variable flo : Z -> F.
Variable str : Z -> list Z.
Variables flonum_ntag string_ntag : Z.
Variables heap hs : Z.
Hypothesis Hok : heap_ok heap hs.
(** type descriptors are two different aligned addresses *)
Hypothesis Hfl : flonum_ntag mod 2 = 0.
Hypothesis Hst : string_ntag mod 2 = 0.
Hypothesis Hne : flonum_ntag <> string_ntag.
Notation hm := (hmask hs).
Notation denotes := (denotes F flo str flonum_ntag string_ntag heap hs).
Notation teq := (teq F feq).
Notation no_nan := (no_nan F feq).
Notation isequal := (isequal heap hm F feq flo str flonum_ntag string_ntag).
Notation TWord := (TWord F). Notation TFlo := (TFlo F). Notation TStr := (TStr F).
Notation TId := (TId F). Notation TBlock := (TBlock F).

Definition word (o : Z) : Prop := o = 0 \/ o mod 2 = 1 \/ ~ in_heap heap hs o.

Lemma word_only_iff o : word_only heap hm o = true <-> word o.
Proof.
  unfold word_only, word. rewrite !orb_true_iff, Z.eqb_eq, notaptr_spec, Z.eqb_eq.
  assert (notobjptr o heap hm = true <-> ~ in_heap heap hs o).
  { rewrite <- (isobjptr_iff heap hs Hok). unfold isobjptr. destruct (notobjptr o heap hm); cbn; split; congruence. }
  tauto.
Qed.
Lemma word_only_false o : o <> 0 -> o mod 2 = 0 -> in_heap heap hs o -> word_only heap hm o = false.
Proof.
  intros H1 H2 H3. destruct (word_only heap hm o) eqn:E; [|reflexivity]. apply word_only_iff in E.
  destruct E as [E|[E|E]]; [contradiction|lia|contradiction].
Qed.

Lemma str_eq_iff a b : str_eq a b = true <-> a = b.
Proof. unfold str_eq. destruct (list_eq_dec Z.eq_dec a b); split; congruence. Qed.

(** the fields of a block, as a relation over a list of trees *)
Fixpoint dfields (m : mem) (o i : Z) (fs : list (tree F)) : Prop :=
  match fs with [] => True | g :: gs => denotes m (m (o + 8 * i)) g /\ dfields m o (i + 1) gs end.
Lemma denotes_block : forall m o w fs, denotes m o (TBlock w fs) <->
  o <> 0 /\ o mod 2 = 0 /\ in_heap heap hs o /\ 1 + Z.of_nat (length fs) < 2147483648 /\
  m (o - 8) = 2 * (1 + Z.of_nat (length fs)) + 1 /\ m o = w /\ dfields m o 1 fs.
Proof.
  intros m o w fs. cbn [Spec_Equal.denotes].
  assert (E : forall gs i, (fix fields (i : Z) (fs : list (tree F)) : Prop :=
         match fs with [] => True | g :: gs => denotes m (m (o + 8 * i)) g /\ fields (i + 1) gs end) i gs
         <-> dfields m o i gs).
  { induction gs as [|g gs IH]; intros i; cbn [dfields]; [tauto|]. now rewrite IH. }
  rewrite E. tauto.
Qed.

Lemma height_in : forall w fs t, In t fs -> (height F t < height F (TBlock w fs))%nat.
Proof.
  intros w fs t H. cbn [height]. apply Nat.lt_succ_r.
  induction fs as [|g gs IH]; [contradiction|]. cbn [fold_right]. destruct H as [-> |H]; [lia|]. specialize (IH H). lia.
Qed.

Lemma denotes_fun : forall n t1 t2 m o, (height F t1 < n)%nat -> denotes m o t1 -> denotes m o t2 -> t1 = t2.
Proof.
  induction n as [|n IH]; intros t1 t2 m o Hh D1 D2; [lia|].
  destruct t1 as [w|f|s|a|w fs].
  5:{ apply denotes_block in D1. destruct D1 as (A1 & A2 & A3 & _ & A4 & A5 & A6).
      destruct t2 as [w'|f'|s'|a'|w' gs].
      5:{ apply denotes_block in D2. destruct D2 as (B1 & B2 & B3 & _ & B4 & B5 & B6).
          assert (El : length fs = length gs) by lia. f_equal; [congruence|].
          assert (Hall : forall t, In t fs -> (height F t < n)%nat).
          { intros t Ht. pose proof (height_in w fs t Ht). lia. }
          clear A4 B4 Hh. revert gs El A6 B6 Hall. generalize 1. induction fs as [|g fs IHf]; intros i [|g' gs] El A6 B6 Hall; try discriminate; [reflexivity|].
          cbn [dfields] in A6, B6. destruct A6 as [A6a A6b], B6 as [B6a B6b]. f_equal.
          - eapply IH; [|exact A6a|exact B6a]. apply Hall. now left.
          - eapply IHf; [cbn in El; lia|exact A6b|exact B6b|]. intros; apply Hall; now right. }
      all: cbn [Spec_Equal.denotes] in D2; exfalso.
      - destruct D2 as [-> [H|[H|H]]]; lia || contradiction.
      - destruct D2 as (_ & _ & _ & H & _). rewrite <- H in Hfl. rewrite A4 in Hfl. zdm.
      - destruct D2 as (_ & _ & _ & H & _). rewrite <- H in Hst. rewrite A4 in Hst. zdm.
      - destruct D2 as (_ & _ & _ & _ & _ & _ & [H|H]); rewrite A4 in H; [zdm|lia]. }
  all: destruct t2 as [w'|f'|s'|a'|w' gs]; try (apply denotes_block in D2; destruct D2 as (B1 & B2 & B3 & _ & B4 & B5 & B6));
    cbn [Spec_Equal.denotes] in D1; try (cbn [Spec_Equal.denotes] in D2);
    repeat match goal with H : _ /\ _ |- _ => destruct H end; subst; try reflexivity; try congruence; try (exfalso; intuition (congruence || lia)).
Qed.

Lemma teq_refl : forall n t, (height F t < n)%nat -> no_nan t -> teq t t.
Proof.
  induction n as [|n IH]; intros t Hh H; [lia|]. destruct H as [w|f Hf|s|a|w fs Hall]; constructor; [exact Hf|].
  assert (Hb : forall t, In t fs -> (height F t < n)%nat).
  { intros t Ht. pose proof (height_in w fs t Ht). lia. }
  clear Hh. induction Hall as [|g gs Hg Hall IHg]; constructor.
  - apply IH; [apply Hb; now left|exact Hg].
  - apply IHg. intros; apply Hb; now right.
Qed.

(** the same condition computed by the code's loop over the fields *)
Definition fields_loop (f : nat) (m : mem) (x y n : Z) :=
  fix fields (k : nat) (i : Z) : lres bool :=
    match k with
    | O => if i =? n - 1 then isequal f m (m (x + 8 * i)) (m (y + 8 * i)) else LVal true
    | S k' => lbind (isequal f m (m (x + 8 * i)) (m (y + 8 * i))) (fun b =>
              if b then fields k' (i + 1) else LVal false)
    end.

Lemma fields_ok : forall f m x y n,
  (forall t1 t2 a b, (height F t1 < f)%nat -> denotes m a t1 -> denotes m b t2 -> no_nan t1 \/ no_nan t2 ->
     exists r, isequal f m a b = LVal r /\ (r = true <-> teq t1 t2)) ->
  forall fs gs i, length fs = length gs -> dfields m x i fs -> dfields m y i gs -> Forall no_nan fs \/ Forall no_nan gs ->
  (forall t, In t fs -> (height F t < f)%nat) -> i + Z.of_nat (length fs) = n ->
  exists r, fields_loop f m x y n (length fs - 1) i = LVal r /\ (r = true <-> Forall2 teq fs gs).
Proof.
  intros f m x y n IH. induction fs as [|g fs IHf]; intros gs i El Dx Dy Hn Hh En.
  - destruct gs; [|discriminate]. cbn [length Nat.sub fields_loop]. cbn [length] in En.
    destruct (Z.eqb_spec i (n - 1)); [lia|]. exists true. split; [reflexivity|]. split; [constructor|reflexivity].
  - destruct gs as [|g' gs]; [discriminate|]. cbn [dfields] in Dx, Dy.
    destruct Dx as [Dx1 Dx2], Dy as [Dy1 Dy2]. 
    assert (Hn1 : no_nan g \/ no_nan g') by (destruct Hn as [Hn|Hn]; apply Forall_inv in Hn; tauto).
    assert (Hn2 : Forall no_nan fs \/ Forall no_nan gs) by (destruct Hn as [Hn|Hn]; apply Forall_inv_tail in Hn; tauto).
    destruct (IH g g' _ _ (Hh g (or_introl eq_refl)) Dx1 Dy1 Hn1) as (r & Er & Hr).
    cbn [length] in *. destruct fs as [|g2 fs].
    + destruct gs; [|discriminate]. cbn [length Nat.sub fields_loop] in *.
      destruct (Z.eqb_spec i (n - 1)); [|lia]. exists r. split; [exact Er|]. rewrite Hr. split; intros H.
      * constructor; [exact H|constructor].
      * now inversion H.
    + replace (S (length (g2 :: fs)) - 1)%nat with (S (length (g2 :: fs) - 1)) by (cbn [length]; lia).
      cbn [fields_loop]. rewrite Er. cbn [lbind]. destruct r.
      * destruct (IHf gs (i + 1)) as (r2 & Er2 & Hr2); try assumption; [lia|intros; apply Hh; now right|lia|].
        exists r2. split; [exact Er2|]. rewrite Hr2. split; intros H.
        -- constructor; [now apply Hr|exact H].
        -- now inversion H.
      * exists false. split; [reflexivity|]. split; [discriminate|]. intros H. inversion H; subst.
        match goal with H : teq g g' |- _ => apply Hr in H; discriminate end.
Qed.

Lemma size1 : size_from_obj 1 = 0.
Proof. reflexivity. Qed.

Lemma isequal_ok : forall fuel t1 t2 m x y, (height F t1 < fuel)%nat ->
  denotes m x t1 -> denotes m y t2 -> no_nan t1 \/ no_nan t2 ->
  exists r, isequal fuel m x y = LVal r /\ (r = true <-> teq t1 t2).
Proof.
  induction fuel as [|f IH]; intros t1 t2 m x y Hh D1 D2 Hn; [lia|]. cbn [Model_List.isequal].
  fold (fields_loop f m x y (size_from_obj (m (x - 8)))).
  assert (Yes : teq t1 t2 -> exists r, LVal true = LVal r /\ (r = true <-> teq t1 t2)).
  { intros H. exists true. split; [reflexivity|]. split; auto. }
  assert (No : ~ teq t1 t2 -> exists r, LVal false = LVal r /\ (r = true <-> teq t1 t2)).
  { intros H. exists false. split; [reflexivity|]. split; [discriminate|contradiction]. }
  destruct (Z.eqb_spec x y) as [E|Exy].
  { subst y. rewrite <- (denotes_fun _ t1 t2 m x Hh D1 D2) in *. apply Yes. eapply teq_refl; [exact Hh|tauto]. }
  destruct (word_only heap hm x || word_only heap hm y) eqn:Ew.
  { apply No. intros Ht. apply orb_prop in Ew.
    assert (Hw : forall o t, word_only heap hm o = true -> denotes m o t -> t = TWord o).
    { intros o t Hw D. apply word_only_iff in Hw. destruct t as [w|g|s|a|w fs]; try apply denotes_block in D;
        cbn [Spec_Equal.denotes] in D; [destruct D as [-> _]; reflexivity|..]; exfalso;
        destruct Hw as [Hw|[Hw|Hw]]; decompose [and] D; try contradiction; lia. }
    destruct Ew as [Ew|Ew].
    - rewrite (Hw x t1 Ew D1) in Ht. inversion Ht; subst t2. apply Exy. symmetry. exact (proj1 D2).
    - rewrite (Hw y t2 Ew D2) in Ht. inversion Ht; subst t1. apply Exy. pose proof (proj1 D1). congruence. }
  apply orb_false_elim in Ew. destruct Ew as [Ew1 Ew2].
  assert (Nw : forall o w t, word_only heap hm o = false -> denotes m o t -> t <> TWord w).
  { intros o w t Hw D ->. destruct D as [_ D]. apply word_only_iff in D. congruence. }
  assert (Hdr : forall o t, word_only heap hm o = false -> denotes m o t ->
     match t with
     | Spec_Equal.TWord _ _ => False
     | Spec_Equal.TFlo _ g => m (o - 8) = flonum_ntag /\ g = flo (m o)
     | Spec_Equal.TStr _ s => m (o - 8) = string_ntag /\ s = str (m o)
     | Spec_Equal.TId _ a => o = a /\ m (o - 8) <> flonum_ntag /\ m (o - 8) <> string_ntag /\
                             (m (o - 8) mod 2 = 0 \/ m (o - 8) = 1)
     | Spec_Equal.TBlock _ w fs => 1 + Z.of_nat (length fs) < 2147483648 /\ m (o - 8) = 2 * (1 + Z.of_nat (length fs)) + 1 /\ m o = w /\ dfields m o 1 fs
     end).
  { intros o [w|g|s|a|w fs] Hw D; [exact (Nw o w _ Hw D eq_refl)|..]; try apply denotes_block in D;
      cbn [Spec_Equal.denotes] in D; tauto. }
  pose proof (Hdr x t1 Ew1 D1) as H1. pose proof (Hdr y t2 Ew2 D2) as H2.
  destruct (Z.eqb_spec (m (x - 8)) (m (y - 8))) as [Eh|Eh]; cbn [negb].
  2:{ apply No. intros Ht. apply Eh. destruct Ht as [w|g g' Hg|s|a|w fs gs Hfs]; try tauto.
      - destruct H1 as [-> _], H2 as [-> _]. reflexivity.
      - destruct H1 as [-> _], H2 as [-> _]. reflexivity.
      - destruct H1 as [-> _], H2 as [-> _]. reflexivity.
      - destruct H1 as (_ & -> & _), H2 as (_ & -> & _). rewrite (Forall2_len Hfs). reflexivity. }
  destruct (Z.eqb_spec (m (x - 8)) flonum_ntag) as [Ef|Ef].
  { destruct t1 as [w|g|s|a|w fs]; try (exfalso; intuition (congruence || lia)).
    destruct t2 as [w|g'|s|a|w fs]; try (exfalso; intuition (congruence || lia)).
    destruct H1 as [_ ->], H2 as [_ ->]. exists (feq (flo (m x)) (flo (m y))). split; [reflexivity|].
    split; intros H; [now constructor|now inversion H]. }
  destruct (Z.eqb_spec (m (x - 8)) string_ntag) as [Es|Es].
  { destruct t1 as [w|g|s|a|w fs]; try (exfalso; intuition (congruence || lia)).
    destruct t2 as [w|g'|s'|a|w fs]; try (exfalso; intuition (congruence || lia)).
    destruct H1 as [_ ->], H2 as [_ ->]. eexists. split; [reflexivity|]. rewrite str_eq_iff.
    split; intros H; [rewrite H; constructor|now inversion H]. }
  destruct t1 as [w|g|s|a|w fs]; [exfalso; tauto|exfalso; intuition congruence|exfalso; intuition congruence|..].
  { (* identity *)
    assert (Hnt : ~ teq (TId a) t2).
    { intros Ht. inversion Ht; subst t2. apply Exy. destruct H1 as [-> _], H2 as [-> _]. reflexivity. }
    destruct H1 as (_ & _ & _ & [H1|H1]).
    - assert (Ea : isaptr (m (x - 8)) = true).
      { unfold isaptr. destruct (notaptr (m (x - 8))) eqn:E; [|reflexivity].
        rewrite notaptr_spec in E. apply Z.eqb_eq in E. lia. }
      rewrite Ea. cbn [orb]. now apply No.
    - rewrite H1, size1. rewrite orb_true_r. cbn [orb Z.eqb]. now apply No. }
  destruct H1 as (B0 & B1 & B2 & B3).
  assert (Hlen : 0 <= 1 + Z.of_nat (length fs) < 2147483648) by lia.
  destruct t2 as [w'|g'|s'|a'|w' gs]; [exfalso; tauto|exfalso; intuition congruence|exfalso; intuition congruence|..].
  { destruct H2 as (_ & _ & _ & [H2|H2]); exfalso; rewrite <- Eh, B1 in H2; [zdm|lia]. }
  { destruct H2 as (C0 & C1 & C2 & C3).
    assert (El : length fs = length gs) by lia.
    assert (Ea : isaptr (m (x - 8)) = false).
    { unfold isaptr. rewrite notaptr_spec, B1. replace ((2 * (1 + Z.of_nat (length fs)) + 1) mod 2 =? 1) with true; [reflexivity|].
      symmetry. apply Z.eqb_eq. zdm. }
    rewrite Ea. cbn [orb].
    assert (Esz : size_from_obj (m (x - 8)) = 1 + Z.of_nat (length fs)) by (rewrite B1; apply size_of; lia).
    rewrite Esz. destruct (Z.eqb_spec (1 + Z.of_nat (length fs)) 0); [lia|]. cbn [orb].
    destruct (Z.eqb_spec (m x) (m y)) as [E0|E0]; cbn [negb].
    2:{ apply No. intros Ht. inversion Ht; subst. congruence. }
    assert (Hn' : Forall no_nan fs \/ Forall no_nan gs) by (destruct Hn as [Hn|Hn]; inversion Hn; tauto).
    destruct (fields_ok f m x y (1 + Z.of_nat (length fs))) with (fs := fs) (gs := gs) (i := 1) as (r & Er & Hr); try assumption.
    { intros t1 t2 a b A1 A2 A3 A4. apply (IH t1 t2 m a b A1 A2 A3 A4). }
    { intros t Ht. pose proof (height_in w fs t Ht). lia. } { lia. }
    replace (Z.to_nat (1 + Z.of_nat (length fs) - 2)) with (length fs - 1)%nat by lia.
    exists r. split; [exact Er|]. rewrite Hr. split; intros H.
    - replace w' with w by congruence. now constructor.
    - now inversion H. }
Qed.

Notation eqv := (eqv F feq flo flonum_ntag heap hs).
Notation equal := (equal F feq flo str flonum_ntag string_ntag heap hs).

Lemma iseqv_ok : forall m x y, iseqv heap hm F feq flo flonum_ntag m x y = true <-> eqv m x y.
Proof.
  intros m x y. unfold iseqv, Spec_Equal.eqv.
  destruct (Z.eqb_spec x y) as [->|Hxy]; [tauto|].
  destruct (word_only heap hm x || word_only heap hm y) eqn:Ew.
  { split; [discriminate|]. intros [H|H]; [contradiction|]. decompose [and] H.
    rewrite !word_only_false in Ew by assumption. discriminate. }
  apply orb_false_elim in Ew. destruct Ew as [Ew1 Ew2].
  assert (Nw : forall o, word_only heap hm o = false -> o <> 0 /\ o mod 2 = 0 /\ in_heap heap hs o).
  { intros o Ho. assert (Hn : ~ word o) by (rewrite <- word_only_iff; congruence). unfold word in Hn.
    unfold in_heap in *. pose proof (Z.mod_pos_bound o 2). 
    split; [tauto|]. split; [lia|].
    destruct (isobjptr o heap hm) eqn:E; [now apply (isobjptr_iff heap hs Hok)|].
    exfalso. apply Hn. right. right. intros X. apply (isobjptr_iff heap hs Hok) in X. congruence. }
  destruct (Nw x Ew1) as (X1 & X2 & X3), (Nw y Ew2) as (Y1 & Y2 & Y3).
  destruct (Z.eqb_spec (m (x - 8)) (m (y - 8))) as [Eh|Eh]; cbn [negb].
  2:{ split; [discriminate|]. intros [H|H]; [contradiction|]. decompose [and] H. congruence. }
  destruct (Z.eqb_spec (m (x - 8)) flonum_ntag) as [Ef|Ef].
  - split; [intros H; right; repeat (split; try assumption); congruence|]. intros [H|H]; tauto.
  - split; [discriminate|]. intros [H|H]; tauto.
Qed.

Lemma isnative_iff : forall m o nt, isnative heap hm m o nt = true <-> in_heap heap hs o /\ m (o - 8) = nt.
Proof. intros m o nt. unfold isnative. rewrite andb_true_iff, Z.eqb_eq, (isobjptr_iff heap hs Hok). tauto. Qed.

Lemma in_heap_even o : in_heap heap hs o -> o mod 2 = 0.
Proof. intros [_ H]. destruct Hok as [_ Hh]. zdm. Qed.

Lemma in_heap_pos o : in_heap heap hs o -> o <> 0.
Proof. intros [H _]. destruct Hok as [[_ Hh] _]. lia. Qed.

Lemma not_word o : word_only heap hm o = false -> o <> 0 /\ o mod 2 = 0 /\ in_heap heap hs o.
Proof.
  intros Ho. assert (Hn : ~ word o) by (rewrite <- word_only_iff; congruence). unfold word in Hn.
  pose proof (Z.mod_pos_bound o 2). split; [tauto|]. split; [lia|].
  destruct (isobjptr o heap hm) eqn:E; [now apply (isobjptr_iff heap hs Hok)|].
  exfalso. apply Hn. right. right. intros X. apply (isobjptr_iff heap hs Hok) in X. congruence.
Qed.

Lemma eq_test_iff x y : exists b, eq_test x y = LVal b /\ (b = true <-> x = y).
Proof. exists (y =? x). split; [reflexivity|]. rewrite Z.eqb_eq. split; auto. Qed.

Lemma memv_test_ok : forall m x y,
  (in_heap heap hs x -> m (x - 8) = flonum_ntag -> feq (flo (m x)) (flo (m x)) = true) ->
  exists b, memv_test heap hm F feq flo flonum_ntag m x y = LVal b /\ (b = true <-> eqv m x y).
Proof.
  intros m x y Hx. unfold memv_test, Spec_Equal.eqv.
  destruct (word_only heap hm x) eqn:Ew.
  { destruct (eq_test_iff x y) as (b & E & Hb). exists b. split; [exact E|]. rewrite Hb.
    split; [tauto|]. intros [H|H]; [exact H|]. decompose [and] H. rewrite word_only_false in Ew by assumption. discriminate. }
  destruct (not_word x Ew) as (X1 & X2 & X3).
  destruct (isnative heap hm m x flonum_ntag) eqn:En.
  - apply isnative_iff in En. destruct En as [_ En]. unfold flo_test. eexists. split; [reflexivity|].
    rewrite andb_true_iff, isnative_iff. split.
    + intros [[H1 H2] H3]. right. repeat (split; try assumption); [now apply in_heap_pos|now apply in_heap_even].
    + intros [<-|H]; [auto|tauto].
  - destruct (eq_test_iff x y) as (b & E & Hb). exists b. split; [exact E|]. rewrite Hb. split; [tauto|].
    intros [H|H]; [exact H|]. exfalso. decompose [and] H.
    assert (isnative heap hm m x flonum_ntag = true) by (apply isnative_iff; tauto). congruence.
Qed.

Hypothesis feq_sym : forall a b, feq a b = feq b a.

Lemma teq_sym : forall n t1 t2, (height F t1 < n)%nat -> teq t1 t2 -> teq t2 t1.
Proof.
  induction n as [|n IH]; intros t1 t2 Hh H; [lia|]. destruct H as [w|f g Hf|s|a|w fs gs Hall]; constructor.
  - now rewrite feq_sym.
  - assert (Hb : forall t, In t fs -> (height F t < n)%nat).
    { intros t Ht. pose proof (height_in w fs t Ht). lia. }
    clear Hh. induction Hall as [|g g' gs gs' Hg Hall IHg]; constructor.
    + apply IH; [apply Hb; now left|exact Hg].
    + apply IHg. intros; apply Hb; now right.
Qed.

Lemma denotes_cases : forall m o t, denotes m o t -> word_only heap hm o = false ->
  (m (o - 8) = flonum_ntag -> t = TFlo (flo (m o))) /\ (m (o - 8) = string_ntag -> t = TStr (str (m o))).
Proof.
  intros m o t D Hw. destruct (not_word o Hw) as (X1 & X2 & X3).
  split; intros Hh.
  - apply (denotes_fun (S (height F t)) t _ m o); [lia|exact D|]. cbn [Spec_Equal.denotes]. auto.
  - apply (denotes_fun (S (height F t)) t _ m o); [lia|exact D|]. cbn [Spec_Equal.denotes]. auto.
Qed.

Lemma member_test_ok : forall fuel m x y tx ty,
  denotes m x tx -> denotes m y ty -> no_nan tx -> (height F ty < fuel)%nat ->
  exists b, member_test heap hm F feq flo str flonum_ntag string_ntag fuel m x y = LVal b /\ (b = true <-> teq tx ty).
Proof.
  intros fuel m x y tx ty Dx Dy Hn Hh. unfold member_test.
  destruct (word_only heap hm x) eqn:Ew.
  { destruct (eq_test_iff x y) as (b & E & Hb). exists b. split; [exact E|]. rewrite Hb.
    assert (Hd : denotes m x (TWord x)).
    { split; [reflexivity|]. now apply word_only_iff. }
    rewrite (denotes_fun _ tx _ m x (le_n _) Dx Hd) in *. split.
    - intros ->. rewrite <- (denotes_fun _ (TWord y) ty m y (le_n _) Hd Dy). constructor.
    - intros Ht. inversion Ht; subst ty. symmetry. exact (proj1 Dy). }
  destruct (not_word x Ew) as (X1 & X2 & X3). destruct (denotes_cases m x tx Dx Ew) as [Cf Cs].
  (* what the answer means when x is a number or a string *)
  assert (Yobj : forall g, word_only heap hm y = true -> (tx = TFlo g \/ exists s, tx = TStr s) -> ~ teq tx ty).
  { intros g Hy Htx Ht. assert (Hd : denotes m y (TWord y)).
    { split; [reflexivity|]. now apply word_only_iff. }
    rewrite (denotes_fun _ ty _ m y (le_n _) Dy Hd) in Ht. destruct Htx as [->|[s ->]]; inversion Ht. }
  destruct (isnative heap hm m x flonum_ntag) eqn:En.
  { apply isnative_iff in En. destruct En as [_ En]. specialize (Cf En). subst tx.
    unfold flo_test. eexists. split; [reflexivity|]. rewrite andb_true_iff, isnative_iff.
    destruct (word_only heap hm y) eqn:Ey.
    { split.
      - intros [[A _] _]. rewrite word_only_false in Ey; [discriminate|now apply in_heap_pos|now apply in_heap_even|exact A].
      - intros Ht. exfalso. exact (Yobj _ eq_refl (or_introl eq_refl) Ht). }
    destruct (not_word y Ey) as (Y1 & Y2 & Y3). destruct (denotes_cases m y ty Dy Ey) as [Df Ds]. split.
    - intros [[_ A] B]. rewrite (Df A). now constructor.
    - intros Ht. inversion Ht as [|? g Hg| | |]; subst ty. cbn [Spec_Equal.denotes] in Dy.
      destruct Dy as (_ & _ & _ & A & ->). auto. }
  destruct (isnative heap hm m x string_ntag) eqn:Es.
  { apply isnative_iff in Es. destruct Es as [_ Es]. specialize (Cs Es). subst tx.
    unfold str_test. eexists. split; [reflexivity|]. rewrite andb_true_iff, isnative_iff, str_eq_iff.
    destruct (word_only heap hm y) eqn:Ey.
    { split.
      - intros [[A _] _]. rewrite word_only_false in Ey; [discriminate|now apply in_heap_pos|now apply in_heap_even|exact A].
      - intros Ht. exfalso. refine (Yobj (flo 0) eq_refl _ Ht). right. eauto. }
    destruct (not_word y Ey) as (Y1 & Y2 & Y3). destruct (denotes_cases m y ty Dy Ey) as [Df Ds]. split.
    - intros [[_ A] B]. rewrite (Ds A), B. constructor.
    - intros Ht. inversion Ht; subst ty. cbn [Spec_Equal.denotes] in Dy.
      destruct Dy as (_ & _ & _ & A & B). auto. }
  destruct (isequal_ok fuel ty tx m y x Hh Dy Dx (or_intror Hn)) as (r & Er & Hr).
  exists r. split; [exact Er|]. rewrite Hr. split; intros H; (eapply teq_sym; [apply le_n|exact H]).
Qed.
End Trees.
