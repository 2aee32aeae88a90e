From Coq Require Import ZArith Lia List Bool Permutation.
From Verif Require Import Base Model_Imm Proofs_Imm Model_GC Spec_GC.
Import ListNotations.
Open Scope Z_scope.

(** ** elementary facts *)
Lemma inheap_spec w h s : (exists k, 0 <= k /\ s = 2 ^ k) -> h mod 8 = 0 ->
  inheap w h (hmask s) = true <-> isptr w h s.
Proof.
  intros [k [Hk Hs]] Hh.
  pose proof (isobjptr_spec w h s k Hk Hs) as H.
  unfold isobjptr, notobjptr in H. rewrite negb_involutive in H.
  unfold inheap. rewrite H. unfold isptr, in_area.
  split; intros [A B]; split; auto; zdm.
Qed.

Lemma notaptr_odd w : notaptr w = Z.odd w.
Proof.
  rewrite notaptr_spec. rewrite Zmod_odd. destruct (Z.odd w); reflexivity.
Qed.

Lemma blen_size hd : Z.odd hd = true -> 3 <= hd < 2 ^ 32 ->
  size_from_obj hd = blen hd /\ 1 <= blen hd.
Proof.
  intros Ho H. unfold blen. rewrite Ho. unfold size_from_obj.
  rewrite Z.shiftr_div_pow2 by lia. change (2 ^ 1) with 2.
  change (2 ^ 32) with 4294967296 in H. unfold wrap32. split; zdm.
Qed.

Lemma hdr_len_pos h1 s1 h2 s2 hd : hdr_ok h1 s1 h2 s2 hd -> 1 <= blen hd.
Proof.
  intros [[Ho H]|[Ho H]].
  - apply blen_size; auto.
  - unfold blen. rewrite Ho. lia.
Qed.

Lemma upd_same m a v : upd m a v a = v.
Proof. unfold upd. rewrite Z.eqb_refl. reflexivity. Qed.
Lemma upd_other m a v x : x <> a -> upd m a v x = m x.
Proof. intros H. unfold upd. destruct (x =? a) eqn:E; [lia|reflexivity]. Qed.

Lemma copy_down_spec k : forall m fop hp,
  (forall j, 0 <= j < Z.of_nat k -> ~ (hp - 8 * Z.of_nat k <= fop - 8 * Z.of_nat k + 8 * j < hp)) ->
  exists m', copy_down k m fop hp = (m', fop - 8 * Z.of_nat k, hp - 8 * Z.of_nat k) /\
    (forall j, 0 <= j < Z.of_nat k ->
       m' (hp - 8 * Z.of_nat k + 8 * j) = m (fop - 8 * Z.of_nat k + 8 * j)) /\
    (forall a, ~ (hp - 8 * Z.of_nat k <= a < hp) -> m' a = m a).
Proof.
  induction k as [|k IH]; intros m fop hp Hsep.
  - exists m. cbn [copy_down]. change (Z.of_nat 0) with 0.
    split; [f_equal; [f_equal|]; lia|]. split; [intros j Hj; lia|auto].
  - cbn [copy_down].
    destruct (IH (upd m (hp - 8) (m (fop - 8))) (fop - 8) (hp - 8)) as (m' & E & Hc & Hf).
    { intros j Hj. specialize (Hsep j ltac:(lia)). lia. }
    exists m'. rewrite E. split; [f_equal; [f_equal|]; lia|].
    split.
    + intros j Hj. destruct (Z.eq_dec j (Z.of_nat k)) as [->|Hne].
      * rewrite Hf by lia. replace (hp - 8 * Z.of_nat (S k) + 8 * Z.of_nat k) with (hp - 8) by lia.
        rewrite upd_same. f_equal. lia.
      * replace (hp - 8 * Z.of_nat (S k) + 8 * j) with (hp - 8 - 8 * Z.of_nat k + 8 * j) by lia.
        rewrite Hc by lia. rewrite upd_other; [f_equal; lia|].
        specialize (Hsep j ltac:(lia)). lia.
    + intros a Ha. rewrite Hf by lia. apply upd_other. lia.
Qed.

(** ** geometry of block lists *)
Lemma blocks_le m he : forall l a, (forall b, In b l -> 0 <= blen (m b)) ->
  blocks m he a l -> a <= he /\ (he - a) mod 8 = 0 /\
  (forall b, In b l -> a <= b /\ b + 8 * (1 + blen (m b)) <= he /\ (he - b) mod 8 = 0).
Proof.
  induction l as [|b l IH]; intros a Hp H; inversion H as [|? ? Hb0 E1 E2]; subst.
  - split; [lia|]. split; [|intros ? []]. zdm.
  - destruct (IH _ ltac:(intros; apply Hp; right; auto) Hb0) as (A & B & C).
    assert (0 <= blen (m b)) by (apply Hp; left; auto).
    assert ((he - b) mod 8 = 0) by zdm.
    split; [lia|]. split; [assumption|].
    intros b0 [<-|Hb]; [split; [lia|split; [lia|assumption]]|].
    specialize (C b0 Hb). lia.
Qed.

Lemma blocks_sorted m he l a : (forall b, In b l -> 0 <= blen (m b)) -> blocks m he a l -> NoDup l.
Proof.
  revert a; induction l as [|b l IH]; intros a Hp H; inversion H as [|? ? Hb0 E1 E2]; subst; constructor.
  - intro C.
    destruct (blocks_le m he l _ ltac:(intros; apply Hp; right; auto) Hb0) as (_ & _ & D).
    specialize (D _ C). assert (0 <= blen (m b)) by (apply Hp; left; auto). lia.
  - eapply IH; eauto. intros; apply Hp; right; auto.
Qed.

Lemma blocks_sep m he l a : (forall b, In b l -> 0 <= blen (m b)) -> blocks m he a l ->
  forall b c, In b l -> In c l -> b < c -> b + 8 * (1 + blen (m b)) <= c.
Proof.
  revert a; induction l as [|x l IH]; intros a Hp H; inversion H as [|? ? Hb0 E1 E2]; subst.
  - intros b c [].
  - destruct (blocks_le m he l _ ltac:(intros; apply Hp; right; auto) Hb0) as (_ & _ & D).
    assert (0 <= blen (m x)) by (apply Hp; left; auto).
    intros b c Hb Hc Hlt. destruct Hb as [Hb|Hb], Hc as [Hc|Hc].
    + lia.
    + specialize (D _ Hc). subst b. lia.
    + specialize (D _ Hb). subst c. lia.
    + eapply IH; eauto. intros; apply Hp; right; auto.
Qed.

Lemma blocks_words m he l a : blocks m he a l -> he - a = 8 * words_of m l.
Proof.
  induction 1 as [|b l H IH]; cbn [words_of fold_right]; [lia|].
  fold (words_of m l). lia.
Qed.

(** words of a duplicate-free sublist *)
Lemma words_of_app m l1 l2 : words_of m (l1 ++ l2) = words_of m l1 + words_of m l2.
Proof.
  induction l1 as [|x l IH]; cbn [app words_of fold_right]; [reflexivity|].
  fold (words_of m (l ++ l2)) (words_of m l). lia.
Qed.

Lemma words_of_nonneg m l : (forall b, In b l -> 0 <= blen (m b)) -> 0 <= words_of m l.
Proof.
  induction l as [|x l IH]; cbn [words_of fold_right]; intros H; [lia|].
  fold (words_of m l). assert (0 <= blen (m x)) by (apply H; left; auto).
  assert (0 <= words_of m l) by (apply IH; intros; apply H; right; auto). lia.
Qed.

Lemma words_of_incl m l1 : forall l2, NoDup l1 -> incl l1 l2 ->
  (forall b, In b l2 -> 0 <= blen (m b)) -> words_of m l1 <= words_of m l2.
Proof.
  induction l1 as [|x l1 IH]; intros l2 Hnd Hi Hp.
  - apply words_of_nonneg. exact Hp.
  - inversion Hnd; subst.
    assert (Hx : In x l2) by (apply Hi; left; auto).
    apply in_split in Hx. destruct Hx as (la & lb & ->).
    assert (Hi' : incl l1 (la ++ lb)).
    { intros y Hy. assert (Hy2 : In y (la ++ x :: lb)) by (apply Hi; right; auto).
      apply in_app_or in Hy2. apply in_or_app. destruct Hy2 as [|[->|]]; auto. contradiction. }
    specialize (IH (la ++ lb) H2 Hi'
      ltac:(intros; apply Hp; apply in_app_or in H; apply in_or_app; cbn; tauto)).
    rewrite words_of_app in *. cbn [words_of fold_right].
    fold (words_of m l1) (words_of m lb). lia.
Qed.

Lemma words_of_ext m m' l : (forall b, In b l -> m' b = m b) -> words_of m' l = words_of m l.
Proof.
  induction l as [|x l IH]; intros H; [reflexivity|]. cbn [words_of fold_right].
  fold (words_of m l) (words_of m' l). rewrite H by (left; auto).
  rewrite IH by (intros; apply H; right; auto). reflexivity.
Qed.
