From Coq Require Import ZArith Lia List Bool Permutation.
From Verif Require Import Base Model_Imm Proofs_Imm Model_GC Spec_GC Proofs_GC1 Proofs_GC2 Proofs_GC3 Proofs_GC4.
Import ListNotations.
Open Scope Z_scope.

Lemma blk_apart m h1 s1 h2 s2 hp cells blks : heap_wf m h1 s1 h2 s2 hp cells blks ->
  forall b c, In b blks -> In c blks -> b < c -> b + 8 * (1 + blen (m b)) <= c.
Proof. intros WF b c. apply (blk_sep m h1 s1 h2 s2 hp cells blks WF). Qed.

(** ** the mutator keeps the heap well formed *)
Lemma push_words_spec : forall vs m hp,
  exists m', push_words m hp vs = (m', hp - 8 * Z.of_nat (length vs)) /\
    (forall j, (j < length vs)%nat -> m' (hp - 8 * (Z.of_nat j + 1)) = nth j vs 0) /\
    (forall a, ~ (hp - 8 * Z.of_nat (length vs) <= a < hp) -> m' a = m a).
Proof.
  induction vs as [|v vs IH]; intros m hp; cbn [push_words].
  - exists m. cbn [length]. change (Z.of_nat 0) with 0. split; [f_equal; lia|].
    split; [intros j Hj; lia|auto].
  - destruct (IH (upd m (hp - 8) v) (hp - 8)) as (m' & E & A & B).
    exists m'. rewrite E. cbn [length]. split; [f_equal; lia|]. split.
    + intros j Hj. destruct j as [|j]; cbn [nth].
      * change (Z.of_nat 0 + 1) with 1. rewrite B by lia.
        replace (hp - 8 * 1) with (hp - 8) by lia. apply upd_same.
      * rewrite <- A by lia. f_equal. lia.
    + intros a Ha. rewrite B by lia. apply upd_other. lia.
Qed.

(** allocating one block of [n] words on top of a well-formed heap *)
Lemma wf_push m m' h1 s1 h2 s2 hp cells blks nb :
  heap_wf m h1 s1 h2 s2 hp cells blks ->
  h1 <= nb -> nb + 8 * (1 + blen (m' nb)) = hp ->
  (forall a, ~ (nb <= a < hp) -> m' a = m a) ->
  hdr_ok h1 s1 h2 s2 (m' nb) ->
  (forall i, 1 <= i <= blen (m' nb) -> word_ok h1 s1 h2 s2 blks (m' (nb + 8 * i))) ->
  (native (m' nb) = true -> ~ isptr (m' (nb + 8)) h1 s1) ->
  heap_wf m' h1 s1 h2 s2 nb cells (nb :: blks) /\ In nb (nb :: blks).
Proof.
  intros WF Hnb Ehp Fr Hh Hw Hn. split; [|left; auto].
  pose proof (hdr_len_pos _ _ _ _ _ Hh) as L.
  destruct (blocks_le m (h1 + 8 * s1) blks hp
    ltac:(intros b Hb; pose proof (blen_nn _ _ _ _ _ _ _ _ b WF Hb); lia)
    (wf_blocks _ _ _ _ _ _ _ _ WF)) as (Hle & _ & Hr).
  assert (Eb : forall b i, In b blks -> 0 <= i <= blen (m b) -> m' (b + 8 * i) = m (b + 8 * i)).
  { intros b i Hb Hi. apply Fr. destruct (Hr b Hb). lia. }
  assert (Eb0 : forall b, In b blks -> m' b = m b).
  { intros b Hb. apply Fr. destruct (Hr b Hb). lia. }
  assert (Ec : forall c, In c cells -> m' c = m c).
  { intros c Hc. apply Fr. destruct (wf_cells _ _ _ _ _ _ _ _ WF c Hc) as [X _].
    unfold in_area in X. lia. }
  assert (Wm : forall w, word_ok h1 s1 h2 s2 blks w -> word_ok h1 s1 h2 s2 (nb :: blks) w).
  { intros w [A B]. split; auto. intros C. right. auto. }
  constructor; try apply WF.
  - auto.
  - constructor. rewrite Ehp. eapply blocks_ext; [apply WF|auto].
  - intros b [<-|Hb]; auto. rewrite Eb0 by auto. apply WF; auto.
  - intros b i [<-|Hb] Hi; auto. rewrite Eb0 in Hi by auto. rewrite Eb by (auto; lia).
    apply Wm. apply (wf_words _ _ _ _ _ _ _ _ WF); auto.
  - intros b [<-|Hb] Hx; auto. rewrite Eb0 in Hx by auto.
    pose proof (blen_nn _ _ _ _ _ _ _ _ b WF Hb) as Lb.
    pose proof (Eb b 1 Hb ltac:(lia)) as E1. replace (b + 8 * 1) with (b + 8) in E1 by lia.
    rewrite E1. apply (wf_native _ _ _ _ _ _ _ _ WF); auto.
  - intros c Hc. rewrite Ec by auto. apply Wm. apply (wf_roots _ _ _ _ _ _ _ _ WF); auto.
Qed.

Lemma obj_from_size_odd n : Z.odd (obj_from_size n) = true.
Proof. rewrite obj_from_size_eq. replace (2 * n + 1) with (1 + 2 * n) by lia. rewrite Z.odd_add_mul_2. reflexivity. Qed.
Lemma blen_obj_from_size n : blen (obj_from_size n) = n.
Proof. unfold blen. rewrite obj_from_size_odd, obj_from_size_eq. zdm. Qed.

Lemma alloc_block_ok m h1 s1 h2 s2 hp cells blks vs :
  heap_wf m h1 s1 h2 s2 hp cells blks ->
  h1 + 8 * (1 + Z.of_nat (length vs)) <= hp ->
  1 <= Z.of_nat (length vs) < 2 ^ 31 ->
  (forall v, In v vs -> word_ok h1 s1 h2 s2 blks v) ->
  exists m' hp' o, alloc_block m hp vs = (m', hp', o) /\
    hp' = hp - 8 * (1 + Z.of_nat (length vs)) /\ o = hp' + 8 /\
    heap_wf m' h1 s1 h2 s2 hp' cells (hp' :: blks) /\
    blen (m' hp') = Z.of_nat (length vs) /\ native (m' hp') = false /\
    (forall j, (j < length vs)%nat -> m' (o + 8 * Z.of_nat j) = nth j (rev vs) 0) /\
    (forall a, ~ (hp' <= a < hp) -> m' a = m a).
Proof.
  intros WF Hroom Hlen Hvs. unfold alloc_block, hendblk.
  destruct (push_words_spec vs m hp) as (m1 & E & A & B). rewrite E.
  set (n := Z.of_nat (length vs)) in *.
  set (hp1 := hp - 8 * n) in *.
  set (m' := upd m1 (hp1 - 8) (obj_from_size n)).
  assert (F : forall a, ~ (hp1 - 8 <= a < hp) -> m' a = m a).
  { intros a Ha. unfold m'. rewrite upd_other by lia. apply B. lia. }
  assert (Hh : m' (hp1 - 8) = obj_from_size n) by apply upd_same.
  assert (Hf : forall j, (j < length vs)%nat -> m' (hp1 - 8 + 8 * (Z.of_nat j + 1)) = nth j (rev vs) 0).
  { intros j Hj. rewrite rev_nth by auto. unfold m'. rewrite upd_other by lia.
    rewrite <- A by lia. f_equal. unfold hp1, n. lia. }
  destruct (wf_push m m' h1 s1 h2 s2 hp cells blks (hp1 - 8) WF) as [WF' _].
  - unfold hp1. lia.
  - rewrite Hh, blen_obj_from_size. unfold hp1. lia.
  - auto.
  - rewrite Hh. left. split; [apply obj_from_size_odd|]. rewrite obj_from_size_eq.
    change (2 ^ 32) with (2 * 2 ^ 31). lia.
  - rewrite Hh, blen_obj_from_size. intros i Hi. apply Hvs.
    pose proof (Hf (Z.to_nat (i - 1)) ltac:(unfold n in *; lia)) as E1.
    replace (Z.of_nat (Z.to_nat (i - 1)) + 1) with i in E1 by lia. rewrite E1.
    apply in_rev. apply nth_In. rewrite rev_length. unfold n in *. lia.
  - rewrite Hh. unfold native. rewrite <- Z.negb_odd, obj_from_size_odd. discriminate.
  - exists m', (hp1 - 8), (hp1 - 8 + 8).
    split; [reflexivity|]. split; [unfold hp1; lia|]. split; [reflexivity|]. split; [exact WF'|].
    split; [rewrite Hh; apply blen_obj_from_size|]. split.
    { rewrite Hh. unfold native. rewrite <- Z.negb_odd, obj_from_size_odd. reflexivity. }
    split; [|exact F].
    intros j Hj. rewrite <- Hf by auto. f_equal. lia.
Qed.

Lemma alloc_native_ok m h1 s1 h2 s2 hp cells blks p pt :
  heap_wf m h1 s1 h2 s2 hp cells blks -> h1 + 16 <= hp ->
  Z.odd pt = false -> pt <> 0 -> ~ in_area pt h1 s1 -> ~ in_area pt h2 s2 ->
  ~ isptr p h1 s1 -> ~ isptr p h2 s2 ->
  exists m' hp' o, alloc_native m hp p pt = (m', hp', o) /\
    hp' = hp - 16 /\ o = hp' + 8 /\ m' hp' = pt /\ m' (hp' + 8) = p /\
    heap_wf m' h1 s1 h2 s2 hp' cells (hp' :: blks) /\
    (forall a, ~ (hp' <= a < hp) -> m' a = m a).
Proof.
  intros WF Hroom Ho Hz A1 A2 P1 P2. unfold alloc_native.
  set (m' := upd (upd m (hp - 8) p) (hp - 16) pt).
  assert (E0 : m' (hp - 16) = pt) by apply upd_same.
  assert (E1 : m' (hp - 16 + 8) = p).
  { unfold m'. rewrite upd_other by lia. replace (hp - 16 + 8) with (hp - 8) by lia. apply upd_same. }
  assert (F : forall a, ~ (hp - 16 <= a < hp) -> m' a = m a).
  { intros a Ha. unfold m'. rewrite !upd_other by lia. reflexivity. }
  assert (L : blen pt = 1) by (unfold blen; rewrite Ho; reflexivity).
  destruct (wf_push m m' h1 s1 h2 s2 hp cells blks (hp - 16) WF) as [WF' _].
  - lia.
  - rewrite E0, L. lia.
  - exact F.
  - rewrite E0. right. auto.
  - rewrite E0, L. intros i Hi. replace (hp - 16 + 8 * i) with (hp - 16 + 8) by lia. rewrite E1.
    split; [intros C; contradiction|auto].
  - intros _. rewrite E1. auto.
  - exists m', (hp - 16), (hp - 16 + 8). repeat (split; [first [reflexivity|assumption]|]). exact F.
Qed.

(** overwriting a root cell, or a field of an ordinary block, with a legal word *)
Lemma write_ok m h1 s1 h2 s2 hp cells blks a v :
  heap_wf m h1 s1 h2 s2 hp cells blks -> word_ok h1 s1 h2 s2 blks v ->
  In a cells \/ (exists b i, In b blks /\ native (m b) = false /\ 1 <= i <= blen (m b) /\ a = b + 8 * i) ->
  heap_wf (upd m a v) h1 s1 h2 s2 hp cells blks.
Proof.
  intros WF Hv Ha.
  assert (Hb0 : forall b, In b blks -> upd m a v b = m b).
  { intros b Hb. apply upd_other. intros ->. destruct Ha as [Hc|(b' & i & Hb' & _ & Hi & E)].
    - destruct (wf_cells _ _ _ _ _ _ _ _ WF a Hc) as [X _]. apply X.
      pose proof (blen_nn _ _ _ _ _ _ _ _ a WF Hb).
      replace a with (a + 8 * 0) by lia. eapply blk_in_area; eauto. lia.
    - clear -WF Hb Hb' Hi E. assert (b' < a) by lia. pose proof (blk_apart m h1 s1 h2 s2 hp cells blks WF b' a Hb' Hb ltac:(lia)). lia. }
  constructor; try apply WF.
  - eapply blocks_ext; [apply WF|auto].
  - intros b Hb. rewrite Hb0 by auto. apply WF; auto.
  - intros b i Hb Hi. rewrite Hb0 in Hi by auto. unfold upd.
    destruct (b + 8 * i =? a); auto. apply (wf_words _ _ _ _ _ _ _ _ WF); auto.
  - intros b Hb Hn. rewrite Hb0 in Hn by auto. unfold upd.
    destruct (b + 8 =? a) eqn:E; [|apply (wf_native _ _ _ _ _ _ _ _ WF); auto].
    apply Z.eqb_eq in E. exfalso. destruct Ha as [Hc|(b' & i & Hb' & Hn' & Hi & E')].
    + destruct (wf_cells _ _ _ _ _ _ _ _ WF a Hc) as [X _]. apply X.
      pose proof (blen_nn _ _ _ _ _ _ _ _ b WF Hb).
      rewrite <- E. replace (b + 8) with (b + 8 * 1) by lia. eapply blk_in_area; eauto. lia.
    + assert (Eb : b = b').
      { destruct (Z.lt_trichotomy b b') as [C|[C|C]]; auto.
        - pose proof (blk_apart m h1 s1 h2 s2 hp cells blks WF b b' Hb Hb' C).
          pose proof (blen_nn _ _ _ _ _ _ _ _ b WF Hb). lia.
        - pose proof (blk_apart m h1 s1 h2 s2 hp cells blks WF b' b Hb' Hb C). lia. }
      subst b'. congruence.
  - intros c Hc. unfold upd. destruct (c =? a); auto. apply (wf_roots _ _ _ _ _ _ _ _ WF); auto.
Qed.
