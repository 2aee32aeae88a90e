From Coq Require Import ZArith List Bool Lia Permutation Sorted.
Import ListNotations.
From Verif Require Import Model_Sort Spec_Sort.
Open Scope Z_scope.

Lemma chain_frame : forall cd cd' l p, (forall x, In x l -> cd' x = cd x) ->
  chain cd p l -> chain cd' p l.
Proof.
  induction l as [|a l IH]; intros p Hf H; cbn [chain] in *; [assumption|].
  destruct H as (-> & Hn & H). repeat split; [assumption|].
  rewrite Hf by now left. apply IH; [|assumption]. intros; apply Hf; now right.
Qed.

Lemma nodup_l : forall (l m : list Z), NoDup (l ++ m) -> NoDup l.
Proof.
  induction l as [|a l IH]; intros m H; [constructor|]. cbn in H. inversion_clear H.
  constructor; [|eauto]. intros Hx; apply H0; apply in_or_app; now left.
Qed.
Lemma nodup_r : forall (l m : list Z), NoDup (l ++ m) -> NoDup m.
Proof.
  induction l as [|a l IH]; intros m H; [exact H|]. cbn in H. inversion_clear H. eauto.
Qed.

Section P.
Variable A : Type.
Variable less : A -> A -> bool.
Hypothesis W : weak_order less.

Notation le := (fun a b => less b a = false).

Lemma less_le_trans : forall b a c, less b a = true -> less c a = false -> less b c = true.
Proof.
  intros b a c H1 H2. destruct (less b c) eqn:E; [reflexivity|].
  destruct W as [_ Wt]. rewrite (Wt b c a E H2) in H1. discriminate.
Qed.

(** two outputs interleaved as merging does *)
Section M.
Variable key : Z -> A.
Fixpoint mergef (l1 : list Z) : list Z -> list Z :=
  fix go (l2 : list Z) : list Z :=
    match l1, l2 with
    | [], _ => l2
    | _, [] => l1
    | a :: l1', b :: l2' =>
      if less (key b) (key a) then b :: go l2' else a :: mergef l1' l2
    end.

Lemma mergef_nil_r : forall l, mergef l [] = l.
Proof. destruct l; reflexivity. Qed.
Lemma mergef_cons : forall a l1 b l2, mergef (a :: l1) (b :: l2) =
  if less (key b) (key a) then b :: mergef (a :: l1) l2 else a :: mergef l1 (b :: l2).
Proof. reflexivity. Qed.
Lemma mergef_nil_l : forall l, mergef [] l = l.
Proof. destruct l; reflexivity. Qed.

Lemma merge_ind (P : list Z -> list Z -> Prop) :
  (forall l, P [] l) -> (forall l, P l []) ->
  (forall a l1 b l2, less (key b) (key a) = true -> P (a :: l1) l2 -> P (a :: l1) (b :: l2)) ->
  (forall a l1 b l2, less (key b) (key a) = false -> P l1 (b :: l2) -> P (a :: l1) (b :: l2)) ->
  forall l1 l2, P l1 l2.
Proof.
  intros H1 H2 H3 H4. induction l1 as [|a l1 IH1]; [auto|].
  induction l2 as [|b l2 IH2]; [auto|].
  destruct (less (key b) (key a)) eqn:E; auto.
Qed.

Lemma mergef_perm : forall l1 l2, Permutation (l1 ++ l2) (mergef l1 l2).
Proof.
  apply merge_ind; intros.
  - rewrite mergef_nil_l; reflexivity.
  - rewrite mergef_nil_r, app_nil_r; reflexivity.
  - rewrite mergef_cons, H. rewrite <- H0. symmetry. apply (Permutation_middle (a :: l1) l2 b).
  - rewrite mergef_cons, H. cbn [app]. now constructor.
Qed.

Notation kle := (fun a b => less (key b) (key a) = false).

Lemma kle_trans : forall a b c, kle a b -> kle b c -> kle a c.
Proof. intros a b c H1 H2. destruct W as [_ Wt]. exact (Wt _ _ _ H2 H1). Qed.

Lemma mergef_sorted : forall l1 l2, StronglySorted kle l1 -> StronglySorted kle l2 ->
  StronglySorted kle (mergef l1 l2).
Proof.
  apply (merge_ind (fun l1 l2 => StronglySorted kle l1 -> StronglySorted kle l2 ->
                                 StronglySorted kle (mergef l1 l2))).
  - intros; now rewrite mergef_nil_l.
  - intros; now rewrite mergef_nil_r.
  - intros a l1 b l2 E IH H1 H2. rewrite mergef_cons, E.
    inversion_clear H2. constructor; [auto|].
    apply Forall_forall. intros x Hx.
    apply (Permutation_in x (Permutation_sym (mergef_perm (a :: l1) l2))) in Hx.
    apply in_app_or in Hx. destruct Hx as [Hx|Hx].
    + assert (Hba : kle b a) by (destruct W as [Wa _]; apply (Wa _ _ E)).
      destruct Hx as [<-|Hx]; [exact Hba|]. inversion_clear H1. rewrite Forall_forall in H3.
      apply (kle_trans b a x Hba). now apply H3.
    + rewrite Forall_forall in H0. now apply H0.
  - intros a l1 b l2 E IH H1 H2. rewrite mergef_cons, E.
    inversion_clear H1. constructor; [auto|].
    apply Forall_forall. intros x Hx.
    apply (Permutation_in x (Permutation_sym (mergef_perm l1 (b :: l2)))) in Hx.
    apply in_app_or in Hx. destruct Hx as [Hx|Hx].
    + rewrite Forall_forall in H0. now apply H0.
    + destruct Hx as [<-|Hx]; [exact E|]. inversion_clear H2. rewrite Forall_forall in H3.
      apply (kle_trans a b x E). now apply H3.
Qed.

Notation keq x := (fun y => equiv less x (key y)).

Lemma filter_nil : forall (f : Z -> bool) l, (forall y, In y l -> f y = false) -> filter f l = [].
Proof.
  induction l as [|y l IH]; intros H; cbn [filter]; [reflexivity|].
  rewrite H by now left. apply IH. intros; apply H; now right.
Qed.

Lemma mergef_stable : forall x l1 l2, StronglySorted kle l1 ->
  filter (keq x) (mergef l1 l2) = filter (keq x) l1 ++ filter (keq x) l2.
Proof.
  intros x. apply (merge_ind (fun l1 l2 => StronglySorted kle l1 ->
     filter (keq x) (mergef l1 l2) = filter (keq x) l1 ++ filter (keq x) l2)).
  - intros; now rewrite mergef_nil_l.
  - intros; now rewrite mergef_nil_r, app_nil_r.
  - intros a l1 b l2 E IH H1. rewrite mergef_cons, E. specialize (IH H1).
    cbn [filter] in *. destruct (equiv less x (key b)) eqn:Eb; [|exact IH].
    rewrite IH.
    assert (Hnil : filter (keq x) (a :: l1) = []).
    { apply filter_nil. intros y Hy.
      assert (Hby : less (key b) (key y) = true).
      { destruct Hy as [<-|Hy]; [exact E|]. inversion_clear H1. rewrite Forall_forall in H0.
        apply (less_le_trans _ (key a)); [exact E|]. now apply H0. }
      unfold equiv in *. apply andb_prop in Eb. destruct Eb as [Eb1 Eb2].
      apply negb_true_iff in Eb1, Eb2.
      destruct (less x (key y)) eqn:Exy; [reflexivity|]. exfalso.
      destruct W as [_ Wt]. rewrite (Wt _ _ _ Eb2 Exy) in Hby. discriminate. }
    cbn [filter] in Hnil. rewrite Hnil. reflexivity.
  - intros a l1 b l2 E IH H1. rewrite mergef_cons, E. inversion_clear H1. specialize (IH H).
    cbn [filter] in *. destruct (equiv less x (key a)); [cbn [app]; now rewrite IH|exact IH].
Qed.

(** stable sort, at the level of pairs *)
Definition ksort (l l' : list Z) : Prop :=
  Permutation l l' /\ StronglySorted kle l' /\ forall x, filter (keq x) l' = filter (keq x) l.

Lemma ksort_merge : forall a b a' b', ksort a a' -> ksort b b' -> ksort (a ++ b) (mergef a' b').
Proof.
  intros a b a' b' (P1 & S1 & F1) (P2 & S2 & F2). split; [|split].
  - rewrite <- mergef_perm. now apply Permutation_app.
  - now apply mergef_sorted.
  - intros x. rewrite mergef_stable by assumption. now rewrite F1, F2, filter_app.
Qed.
End M.

Lemma ksort_map : forall key l l', ksort key l l' -> stable_sort_of less (map key l) (map key l').
Proof.
  intros key l l' (P1 & S1 & F1). split; [|split].
  - now apply Permutation_map.
  - clear -S1. induction S1; cbn [map]; constructor; [assumption|].
    rewrite Forall_forall in *. intros x Hx. apply in_map_iff in Hx. destruct Hx as (y & <- & Hy). auto.
  - intros x. assert (Hm : forall l, filter (equiv less x) (map key l) = map key (filter (fun y => equiv less x (key y)) l)).
    { induction l0 as [|y l0 IH]; cbn [map filter]; [reflexivity|].
      destruct (equiv less x (key y)); cbn [map]; now rewrite IH. }
    now rewrite !Hm, F1.
Qed.

(** ** in place *)
Lemma atom_chain : forall cd p l, chain cd p l -> atom p = match l with [] => true | _ => false end.
Proof.
  intros cd p [|a l] H; cbn [chain] in H; unfold atom.
  - subst; reflexivity.
  - destruct H as (-> & Hn & _). now apply Z.eqb_neq.
Qed.

Lemma set_cdr_other : forall (st : store A) p v x, x <> p -> s_cdr (set_cdr st p v) x = s_cdr st x.
Proof. intros. cbn. destruct (Z.eqb_spec x p); [contradiction|reflexivity]. Qed.
Lemma set_cdr_same : forall (st : store A) p v, s_cdr (set_cdr st p v) p = v.
Proof. intros. cbn. now rewrite Z.eqb_refl. Qed.

(** [st'] differs from [st] at most in the cdrs of the pairs [l] *)
Definition only_cdrs (st st' : store A) (l : list Z) : Prop :=
  s_car st' = s_car st /\ s_next st' = s_next st /\ (forall x, ~ In x l -> s_cdr st' x = s_cdr st x).

Lemma only_cdrs_refl : forall st l, only_cdrs st st l.
Proof. repeat split. Qed.
Lemma only_cdrs_set : forall st st' l p v, only_cdrs st st' l -> In p l ->
  only_cdrs st (set_cdr st' p v) l.
Proof.
  intros st st' l p v (H1 & H2 & H3) Hp. repeat split; [exact H1|exact H2|].
  intros x Hx. rewrite set_cdr_other; [auto|congruence].
Qed.
Lemma only_cdrs_incl : forall st st' l l', only_cdrs st st' l -> incl l l' -> only_cdrs st st' l'.
Proof. intros st st' l l' (H1 & H2 & H3) Hi. repeat split; auto. Qed.
Lemma only_cdrs_trans : forall st st' st'' l, only_cdrs st st' l -> only_cdrs st' st'' l ->
  only_cdrs st st'' l.
Proof.
  intros st st' st'' l (H1 & H2 & H3) (G1 & G2 & G3). repeat split; try congruence.
  intros x Hx. rewrite G3, H3; auto.
Qed.

Lemma merge_by_ok : forall fuel st p q l1 l2,
  chain (s_cdr st) p l1 -> chain (s_cdr st) q l2 -> NoDup (l1 ++ l2) ->
  (length l1 + length l2 < fuel)%nat ->
  exists st' r, merge_by less fuel st p q = Some (st', r) /\
    chain (s_cdr st') r (mergef (s_car st) l1 l2) /\ only_cdrs st st' (l1 ++ l2).
Proof.
  induction fuel as [|fuel IH]; intros st p q l1 l2 H1 H2 Hnd Hf; [lia|].
  cbn [merge_by]. rewrite (atom_chain _ _ _ H1).
  destruct l1 as [|a l1]; [rewrite mergef_nil_l; eauto using only_cdrs_refl|].
  rewrite (atom_chain _ _ _ H2).
  destruct l2 as [|b l2]; [rewrite mergef_nil_r; eauto using only_cdrs_refl|].
  pose proof H1 as H1'. pose proof H2 as H2'.
  cbn [chain] in H1, H2. destruct H1 as (-> & Ha & H1). destruct H2 as (-> & Hb & H2).
  rewrite mergef_cons. destruct (less (s_car st b) (s_car st a)) eqn:E.
  - assert (Hnd' : NoDup ((a :: l1) ++ l2)) by (apply NoDup_remove_1 in Hnd; exact Hnd).
    assert (Hbn : ~ In b ((a :: l1) ++ l2)) by (apply NoDup_remove_2 in Hnd; exact Hnd).
    destruct (IH st a (s_cdr st b) (a :: l1) l2 H1' H2 Hnd') as (st' & r & -> & Hc & Ho);
      [cbn [length] in *; lia|].
    eexists _, _; split; [reflexivity|]. split.
    + cbn [chain]. split; [reflexivity|split; [assumption|]]. rewrite set_cdr_same.
      eapply chain_frame; [|exact Hc]. intros x Hx. apply set_cdr_other. intros ->.
      apply Hbn. eapply Permutation_in; [symmetry; apply mergef_perm|exact Hx].
    + apply only_cdrs_set; [|apply in_or_app; right; now left].
      apply (only_cdrs_incl _ _ _ _ Ho). intros x Hx. apply in_app_or in Hx.
      apply in_or_app. destruct Hx; [now left|right; now right].
  - inversion_clear Hnd.
    destruct (IH st (s_cdr st a) b l1 (b :: l2) H1 H2' H0) as (st' & r & -> & Hc & Ho);
      [cbn [length] in *; lia|].
    eexists _, _; split; [reflexivity|]. split.
    + cbn [chain]. split; [reflexivity|split; [assumption|]]. rewrite set_cdr_same.
      eapply chain_frame; [|exact Hc]. intros x Hx. apply set_cdr_other. intros ->.
      apply H. eapply Permutation_in; [symmetry; apply mergef_perm|exact Hx].
    + apply only_cdrs_set; [|now left].
      apply (only_cdrs_incl _ _ _ _ Ho). intros x Hx. now right.
Qed.

Lemma split_loop_ok : forall fuel st h hl t tl,
  chain (s_cdr st) h (h :: hl) -> chain (s_cdr st) t tl -> NoDup (h :: hl) ->
  (length tl <= length hl)%nat -> (1 <= length hl)%nat -> (length tl < fuel)%nat ->
  exists st' r h1 h2, split_loop fuel st h t = Some (st', r) /\
    hl = h1 ++ h2 /\ h2 <> [] /\
    chain (s_cdr st') h (h :: h1) /\ chain (s_cdr st') r h2 /\ only_cdrs st st' (h :: hl).
Proof.
  induction fuel as [|fuel IH]; intros st h hl t tl Hh Ht Hnd Hle H1 Hf; [lia|].
  cbn [split_loop]. cbn [chain] in Hh. destruct Hh as (_ & Hn & Hh).
  assert (Hcut : exists st' r h1 h2,
     Some (set_cdr st h 0, s_cdr st h) = Some (st', r) /\ hl = h1 ++ h2 /\ h2 <> [] /\
     chain (s_cdr st') h (h :: h1) /\ chain (s_cdr st') r h2 /\ only_cdrs st st' (h :: hl)).
  { exists (set_cdr st h 0), (s_cdr st h), [], hl. split; [reflexivity|]. split; [reflexivity|].
    split; [destruct hl; [cbn in H1; lia|discriminate]|]. split; [|split].
    - cbn [chain]. rewrite set_cdr_same. auto.
    - eapply chain_frame; [|exact Hh]. intros x Hx. apply set_cdr_other. intros ->.
      inversion_clear Hnd. contradiction.
    - apply only_cdrs_set; [apply only_cdrs_refl|now left]. }
  rewrite (atom_chain _ _ _ Ht). destruct tl as [|t1 tl]; [exact Hcut|].
  cbn [chain] in Ht. destruct Ht as (-> & Hn1 & Ht). cbn [orb].
  rewrite (atom_chain _ _ _ Ht). destruct tl as [|t2 tl]; [exact Hcut|].
  cbn [chain] in Ht. destruct Ht as (E2 & Hn2 & Ht).
  destruct hl as [|h' hl]; [cbn in H1; lia|]. cbn [chain] in Hh. destruct Hh as (Eh & Hn' & Hh).
  rewrite Eh, E2. inversion_clear Hnd.
  destruct (IH st h' hl (s_cdr st t2) tl) as (st' & r & h1 & h2 & -> & -> & Hne & C1 & C2 & Ho);
    [cbn [chain]; auto|exact Ht|exact H0|cbn [length] in *; lia|cbn [length] in *; lia|cbn [length] in *; lia|].
  exists st', r, (h' :: h1), h2. split; [reflexivity|split; [reflexivity|split; [exact Hne|]]].
  split; [|split; [exact C2|]].
  - pose proof Ho as (_ & _ & Ho3). cbn [chain] in C1 |- *. destruct C1 as (_ & Hn'' & C1).
    split; [reflexivity|]. split; [assumption|]. split; [|split; assumption].
    rewrite Ho3; [congruence|exact H].
  - apply (only_cdrs_incl _ _ _ _ Ho). intros x Hx; now right.
Qed.

Lemma sort_by_bang_ok : forall fuel st p l, chain (s_cdr st) p l -> NoDup l ->
  (length l < fuel)%nat ->
  exists st' r l', sort_by_bang less fuel st p = Some (st', r) /\
    chain (s_cdr st') r l' /\ ksort (s_car st) l l' /\ only_cdrs st st' l.
Proof.
  induction fuel as [|fuel IH]; intros st p l Hc Hnd Hf; [lia|].
  cbn [sort_by_bang]. rewrite (atom_chain _ _ _ Hc).
  destruct l as [|a l].
  { exists st, 0, []. repeat split; constructor. }
  cbn [chain] in Hc. destruct Hc as (-> & Hn & Hc). rewrite (atom_chain _ _ _ Hc).
  destruct l as [|b l].
  { exists st, a, [a]. cbn [chain] in *. repeat split; auto. repeat constructor. }
  assert (Hca : chain (s_cdr st) a (a :: b :: l)) by (cbn [chain] in *; intuition).
  unfold split_by. rewrite (atom_chain _ _ _ Hca).
  destruct (split_loop_ok (S fuel) st a (b :: l) (s_cdr st a) (b :: l)) as
    (st1 & r & h1 & h2 & -> & E & Hne & C1 & C2 & O1);
    [exact Hca|exact Hc|exact Hnd|lia|cbn [length]; lia|cbn [length] in *; lia|].
  rewrite E in *. cbn [length] in Hf. rewrite app_length in Hf.
  assert (Hl2 : (1 <= length h2)%nat) by (destruct h2; [congruence|cbn; lia]).
  assert (Hnd12 : NoDup ((a :: h1) ++ h2)) by exact Hnd.
  assert (Hnd1 : NoDup (a :: h1)) by (eapply nodup_l; exact Hnd12).
  assert (Hnd2 : NoDup h2) by (eapply nodup_r; exact Hnd12).
  assert (Hdis : forall x, In x (a :: h1) -> In x h2 -> False).
  { clear -Hnd12. intros x H1 H2. apply in_split in H2. destruct H2 as (u & v & ->).
    rewrite app_assoc in Hnd12. apply NoDup_remove_2 in Hnd12. apply Hnd12.
    rewrite <- app_assoc. apply in_or_app. now left. }
  destruct (IH st1 a (a :: h1) C1 Hnd1) as (st2 & p' & l1' & -> & C3 & K1 & O2);
    [cbn [length]; lia|].
  destruct O1 as (O1a & O1b & O1c). pose proof O2 as (O2a & O2b & O2c).
  assert (C2' : chain (s_cdr st2) r h2).
  { eapply chain_frame; [|exact C2]. intros x Hx. apply O2c. intros Hx'. eauto. }
  destruct (IH st2 r h2 C2' Hnd2) as (st3 & q' & l2' & -> & C4 & K2 & O3); [lia|].
  pose proof O3 as (O3a & O3b & O3c).
  pose proof K1 as (P1 & _). pose proof K2 as (P2 & _).
  assert (C3' : chain (s_cdr st3) p' l1').
  { eapply chain_frame; [|exact C3]. intros x Hx. apply O3c. intros Hx'.
    apply (Hdis x); [|exact Hx']. eapply Permutation_in; [symmetry; exact P1|exact Hx]. }
  assert (Pall : Permutation ((a :: h1) ++ h2) (l1' ++ l2')) by now apply Permutation_app.
  destruct (merge_by_ok (S fuel) st3 p' q' l1' l2' C3' C4) as (st4 & r' & -> & C5 & O4).
  { eapply Permutation_NoDup; [exact Pall|exact Hnd12]. }
  { rewrite <- (Permutation_length P1), <- (Permutation_length P2). cbn [length]. lia. }
  exists st4, r', (mergef (s_car st3) l1' l2'). split; [reflexivity|]. split; [exact C5|]. split.
  - rewrite O3a, O2a, O1a. apply (ksort_merge _ (a :: h1) h2).
    + now rewrite O1a in K1.
    + now rewrite O2a, O1a in K2.
  - destruct O4 as (O4a & O4b & O4c). split; [congruence|]. split; [congruence|].
    intros x Hx. rewrite O4c, O3c, O2c, O1c; [reflexivity| | | |]; intros Hx'; apply Hx.
    + exact Hx'.
    + apply (in_or_app (a :: h1) h2); now left.
    + apply (in_or_app (a :: h1) h2); now right.
    + eapply Permutation_in; [symmetry; exact Pall|exact Hx'].
Qed.

(** ** copying *)
Definition extends (st st' : store A) : Prop :=
  s_next st <= s_next st' /\
  forall x, x < s_next st -> s_car st' x = s_car st x /\ s_cdr st' x = s_cdr st x.

Lemma extends_list : forall st st' p xs, extends st st' -> list_at st p xs -> list_at st' p xs.
Proof.
  intros st st' p xs (Hn & He) (l & Hc & Hnd & Hb & <-). exists l. rewrite Forall_forall in Hb.
  split; [|split; [assumption|split]].
  - eapply chain_frame; [|exact Hc]. intros x Hx. apply He. apply Hb in Hx. lia.
  - apply Forall_forall. intros x Hx. apply Hb in Hx. lia.
  - apply map_ext_in. intros x Hx. apply He. apply Hb in Hx. lia.
Qed.

Lemma list_copy_ok : forall fuel st p l, chain (s_cdr st) p l ->
  Forall (fun a => 0 < a < s_next st) l -> 0 < s_next st -> (length l < fuel)%nat ->
  exists st' r l', list_copy fuel st p = Some (st', r) /\
    chain (s_cdr st') r l' /\ NoDup l' /\ Forall (fun a => s_next st <= a < s_next st') l' /\
    map (s_car st') l' = map (s_car st) l /\ extends st st'.
Proof.
  induction fuel as [|fuel IH]; intros st p l Hc Hb Hpos Hf; [lia|].
  cbn [list_copy]. rewrite (atom_chain _ _ _ Hc). destruct l as [|a l].
  { exists st, 0, []. repeat split; try constructor; auto; lia. }
  cbn [chain] in Hc. destruct Hc as (-> & Hn & Hc). inversion_clear Hb.
  destruct (IH st (s_cdr st a) l Hc H0 Hpos) as (st' & r & l' & -> & C & Nd & Hb' & Hm & He);
    [cbn [length] in Hf; lia|].
  destruct He as (He1 & He2).
  assert (Hfr : forall x, In x l' -> x <> s_next st').
  { rewrite Forall_forall in Hb'. intros x Hx. apply Hb' in Hx. lia. }
  cbn [cons_cell]. eexists _, _, (s_next st' :: l'). split; [reflexivity|].
  cbn [s_cdr s_car s_next chain]. split; [|split; [|split; [|split]]].
  - split; [reflexivity|]. split; [lia|]. rewrite Z.eqb_refl.
    eapply chain_frame; [|exact C]. intros x Hx. cbn.
    destruct (Z.eqb_spec x (s_next st')); [now apply Hfr in Hx|reflexivity].
  - constructor; [|assumption]. intros Hx; now apply Hfr in Hx.
  - constructor; [lia|]. eapply Forall_impl; [|exact Hb']. cbn; intros; lia.
  - cbn [map]. rewrite Z.eqb_refl. f_equal. rewrite <- Hm. apply map_ext_in. intros x Hx.
    destruct (Z.eqb_spec x (s_next st')); [now apply Hfr in Hx|reflexivity].
  - split; cbn [s_next s_car s_cdr]; [lia|]. intros x Hx.
    destruct (Z.eqb_spec x (s_next st')); [lia|]. apply He2. exact Hx.
Qed.

Lemma sort_by_ok : forall fuel st p xs, list_at st p xs -> 0 < s_next st -> (length xs < fuel)%nat ->
  exists st' r ys, sort_by less fuel st p = Some (st', r) /\ list_at st' r ys /\
    stable_sort_of less xs ys /\ extends st st'.
Proof.
  intros fuel st p xs (l & Hc & Hnd & Hb & <-) Hpos Hf. rewrite map_length in Hf.
  unfold sort_by.
  destruct (list_copy_ok fuel st p l Hc Hb Hpos Hf) as (st1 & r1 & l1 & -> & C1 & Nd1 & Hb1 & Hm & He).
  assert (Hl : length l1 = length l).
  { rewrite <- (map_length (s_car st1) l1), Hm. apply map_length. }
  destruct (sort_by_bang_ok fuel st1 r1 l1 C1 Nd1) as (st2 & r2 & l2 & -> & C2 & K & O); [lia|].
  destruct O as (Oa & Ob & Oc). destruct K as (Pm & Hrest). rewrite Forall_forall in Hb1.
  exists st2, r2, (map (s_car st2) l2). split; [reflexivity|]. split; [|split].
  - exists l2. split; [exact C2|]. split; [eapply Permutation_NoDup; eassumption|].
    split; [|reflexivity]. apply Forall_forall. intros x Hx.
    apply (Permutation_in _ (Permutation_sym Pm)) in Hx. apply Hb1 in Hx. destruct He. lia.
  - rewrite Oa, <- Hm. apply ksort_map. now split.
  - destruct He as (He1 & He2). split; [lia|]. intros x Hx. rewrite Oa, Oc.
    + now apply He2.
    + intros Hx'. apply Hb1 in Hx'. lia.
Qed.
End P.

(** ** a stable sort is unique *)
Lemma stable_sort_unique : forall A (less : A -> A -> bool) l l1 l2, weak_order less ->
  stable_sort_of less l l1 -> stable_sort_of less l l2 -> l1 = l2.
Proof.
  intros A less l l1 l2 W (P1 & S1 & F1) (P2 & S2 & F2).
  assert (F : forall x, filter (equiv less x) l1 = filter (equiv less x) l2) by (intros; now rewrite F1, F2).
  assert (P : Permutation l1 l2) by now rewrite <- P1.
  clear P1 P2 F1 F2. revert l2 S2 F P.
  assert (Rfl : forall x, less x x = false).
  { intros x. destruct (less x x) eqn:E; [|reflexivity]. destruct W as [Wa _].
    rewrite (Wa _ _ E) in E. discriminate. }
  induction S1 as [|a l1 S1 IH Ha]; intros l2 S2 F P.
  { apply Permutation_nil in P. now subst. }
  destruct l2 as [|b l2]; [apply Permutation_sym, Permutation_nil in P; discriminate|].
  assert (Hab : less b a = false).
  { assert (Hb : In b (a :: l1)) by (apply (Permutation_in _ (Permutation_sym P)); now left).
    destruct Hb as [<-|Hb]; [apply Rfl|]. rewrite Forall_forall in Ha. auto. }
  inversion_clear S2.
  assert (Hba : less a b = false).
  { assert (Hb : In a (b :: l2)) by (apply (Permutation_in _ P); now left).
    destruct Hb as [<-|Hb]; [apply Rfl|]. rewrite Forall_forall in H0. auto. }
  pose proof (F a) as Fa. cbn [filter] in Fa.
  assert (E1 : equiv less a a = true) by (unfold equiv; now rewrite Rfl).
  assert (E2 : equiv less a b = true) by (unfold equiv; now rewrite Hab, Hba).
  rewrite E1, E2 in Fa. injection Fa as <- Fa. f_equal. apply IH; [assumption| |].
  - intros x. specialize (F x). cbn [filter] in F.
    destruct (equiv less x a); [now injection F|exact F].
  - now apply Permutation_cons_inv in P.
Qed.
