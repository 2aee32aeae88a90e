From Coq Require Import ZArith List Bool Lia.
From Verif Require Import Base Model_Imm Proofs_Imm Model_GC Proofs_GC5 Model_List Spec_List Proofs_List.
Import ListNotations.
Open Scope Z_scope.

Lemma upd_s m a v : upd m a v a = v.
Proof. unfold upd. now rewrite Z.eqb_refl. Qed.
Lemma upd_o m a v x : x <> a -> upd m a v x = m x.
Proof. intros H. unfold upd. destruct (Z.eqb_spec x a); [contradiction|reflexivity]. Qed.

Lemma nth_repeat_any : forall (x d : Z) n i, (i < n)%nat -> nth i (repeat x n) d = x.
Proof. intros x d. induction n; intros [|i] H; cbn; try lia; try reflexivity. apply IHn. lia. Qed.

Section Heap.
Variables heap hs : Z.
Hypothesis Hok : heap_ok heap hs.
Notation hm := (hmask hs).
Notation pair_at := (pair_at heap hs).
Notation seg := (seg heap hs).
Notation chain := (chain heap hs).

Lemma new_pair_eq : forall m hp a d, exists m',
  new_pair m hp a d = (m', hp - 32, hp - 24) /\ same_outside m m' (hp - 32) hp /\
  m' (hp - 32) = 2 * 3 + 1 /\ m' (hp - 24) = 2 * 3 + 1 /\ m' (hp - 16) = a /\ m' (hp - 8) = d.
Proof.
  intros m hp a d. unfold new_pair, alloc_block, push_words, hendblk. cbn [length].
  rewrite !obj_from_size_eq.
  replace (hp - 8 - 8) with (hp - 16) by lia. replace (hp - 16 - 8) with (hp - 24) by lia.
  replace (hp - 24 - 8) with (hp - 32) by lia. replace (hp - 32 + 8) with (hp - 24) by lia.
  eexists. split; [reflexivity|]. split.
  - intros x Hx. rewrite !upd_o by lia. reflexivity.
  - rewrite upd_s. rewrite !(upd_o _ (hp - 32)) by lia. rewrite upd_s.
    rewrite !(upd_o _ (hp - 24)) by lia. rewrite upd_s.
    rewrite !(upd_o _ (hp - 16)) by lia. rewrite upd_s. repeat split.
Qed.

Lemma new_pair_at : forall m hp, heap <= hp - 32 -> hp <= heap + 8 * hs -> hp mod 8 = 0 ->
  m (hp - 32) = 2 * 3 + 1 -> m (hp - 24) = 2 * 3 + 1 -> pair_at m (hp - 24).
Proof.
  intros m hp H1 H2 H3 H4 H5. split; [|split; [|assumption]].
  - destruct Hok as [_ Hh]. split; [lia|]. zdm.
  - replace (hp - 24 - 8) with (hp - 32) by lia. assumption.
Qed.

Lemma same_trans : forall m1 m2 m3 a b c d lo hi, same_outside m1 m2 a b -> same_outside m2 m3 c d ->
  lo <= a -> b <= hi -> lo <= c -> d <= hi -> same_outside m1 m3 lo hi.
Proof. intros m1 m2 m3 a b c d lo hi H1 H2 ? ? ? ? x Hx. rewrite H2 by lia. apply H1. lia. Qed.

Lemma pair_keep : forall m m' lo hi p, same_outside m m' lo hi ->
  hi <= p - 8 \/ p + 24 <= lo -> pair_at m p -> pair_at m' p.
Proof. intros m m' lo hi p S H (H1 & H2 & H3). split; [assumption|]. rewrite !S by lia. auto. Qed.

Lemma seg_keep : forall m m' lo hi ps l e, same_outside m m' lo hi ->
  Forall (fun p => hi <= p - 8 \/ p + 24 <= lo) ps -> seg m l ps e ->
  seg m' l ps e /\ elems m' ps = elems m ps.
Proof.
  intros m m' lo hi ps. induction ps as [|p ps IH]; intros l e S F H; [split; [exact H|reflexivity]|].
  destruct H as (-> & Hp & H). pose proof (Forall_inv F) as Fp; pose proof (Forall_inv_tail F) as F'; cbn beta in Fp.
  destruct (IH (cdr_at m p) e S F' H) as [IH1 IH2].
  cbn [Spec_List.seg elems map]. unfold elems in IH2. rewrite IH2.
  assert (Ec : cdr_at m' p = cdr_at m p) by (unfold cdr_at; apply S; lia).
  assert (Ea : car_at m' p = car_at m p) by (unfold car_at; apply S; lia).
  rewrite Ec, Ea. split; [|reflexivity]. split; [reflexivity|]. split; [|exact IH1].
  eapply pair_keep; eauto.
Qed.

Lemma above_out : forall hi lo ps, above hi ps -> Forall (fun p => hi <= p - 8 \/ p + 24 <= lo) ps.
Proof. intros hi lo ps H. eapply Forall_impl; [|exact H]. cbn. intros; lia. Qed.
Lemma within_out : forall lo hi lo' hi' ps, within lo' hi' ps -> hi' <= lo \/ hi <= lo' ->
  Forall (fun p => hi <= p - 8 \/ p + 24 <= lo) ps.
Proof. intros lo hi lo' hi' ps H Hd. eapply Forall_impl; [|exact H]. cbn. intros; lia. Qed.

Lemma seg_app : forall m ps l e qs x, seg m l ps e -> seg m e qs x -> seg m l (ps ++ qs) x.
Proof.
  intros m ps. induction ps as [|p ps IH]; intros l e qs x H1 H2; [cbn in H1; subst; exact H2|].
  destruct H1 as (-> & Hp & H1). cbn [app Spec_List.seg]. eauto.
Qed.

(** [length] *)
Lemma length_loop_ok : forall m ps fuel l n, chain m l ps -> (length ps < fuel)%nat ->
  length_loop heap hm fuel m l n = LVal (n + Z.of_nat (length ps)).
Proof.
  intros m ps. induction ps as [|p ps IH]; intros fuel l n H Hf; destruct fuel as [|f]; try (cbn in Hf; lia).
  - cbn in H. subst. cbn [length_loop]. rewrite mknull_eq, Z.eqb_refl. cbn [length]. f_equal. lia.
  - destruct H as (-> & Hp & H). cbn [length_loop]. rewrite (pair_not_null heap hs Hok m p Hp).
    rewrite (cdr_ok heap hs Hok m p Hp). cbn [lbind length]. rewrite IH; [f_equal; lia|exact H|cbn in Hf; lia].
Qed.

(** [list-tail], [list-ref] *)
Lemma list_tail_ok : forall m c ps l e, seg m l ps e -> (c <= length ps)%nat ->
  exists r, list_tail heap hm c m l = LVal r /\ seg m r (skipn c ps) e.
Proof.
  intros m. induction c as [|c IH]; intros ps l e H Hc; [exists l; split; [reflexivity|exact H]|].
  destruct ps as [|p ps]; [cbn in Hc; lia|]. destruct H as (-> & Hp & H).
  cbn [list_tail]. rewrite (cdr_ok heap hs Hok m p Hp). cbn [lbind skipn].
  apply IH; [exact H|cbn in Hc; lia].
Qed.

Lemma list_ref_ok : forall m c ps l e, seg m l ps e -> (c < length ps)%nat ->
  list_ref heap hm c m l = LVal (nth c (elems m ps) 0).
Proof.
  intros m c ps l e H Hc. unfold list_ref.
  destruct (list_tail_ok m c ps l e H ltac:(lia)) as (r & -> & Hr). cbn [lbind].
  destruct (skipn c ps) as [|p qs] eqn:E.
  { assert (Hl : length (skipn c ps) = 0%nat) by now rewrite E. rewrite skipn_length in Hl. lia. }
  destruct Hr as (-> & Hp & _). rewrite (car_ok heap hs Hok m p Hp). f_equal. unfold elems.
  rewrite (nth_indep _ 0 (car_at m 0)) by (rewrite map_length; lia). rewrite map_nth. f_equal.
  assert (En : nth c ps 0 = nth 0 (skipn c ps) 0).
  { clear -Hc. revert c Hc. induction ps as [|q ps IH]; intros [|c] Hc; cbn in *; try lia; try reflexivity.
    apply IH. lia. }
  now rewrite En, E.
Qed.

(** [last-pair], also of improper lists *)
Lemma last_pair_loop_ok : forall m e, ispair heap hm m e = false -> forall ps fuel p l,
  seg m l ps e -> (length ps < fuel)%nat ->
  last_pair_loop heap hm fuel m p l = LVal (last ps p).
Proof.
  intros m e He ps. induction ps as [|q ps IH]; intros fuel p l H Hf; destruct fuel as [|f]; try (cbn in Hf; lia).
  - cbn in H. subst. cbn [last_pair_loop]. now rewrite He.
  - destruct H as (-> & Hq & H). cbn [last_pair_loop]. rewrite (pair_ispair heap hs Hok m q Hq).
    rewrite (cdr_ok heap hs Hok m q Hq). cbn [lbind]. rewrite (IH f q _ H) by (cbn in Hf; lia).
    f_equal. destruct ps as [|a ps]; [reflexivity|]. change (last (q :: a :: ps) p) with (last (a :: ps) p).
    clear. revert a. induction ps as [|b ps IH]; intros a; [reflexivity|].
    change (last (b :: ps) q = last (b :: ps) p). apply IH.
Qed.

Lemma last_pair_ok : forall m p ps fuel e, seg m p (p :: ps) e -> ispair heap hm m e = false ->
  (length ps < fuel)%nat -> last_pair heap hm fuel m p = LVal (last (p :: ps) 0).
Proof.
  intros m p ps fuel e (_ & Hp & H) He Hf. unfold last_pair. rewrite (cdr_ok heap hs Hok m p Hp).
  cbn [lbind]. rewrite (last_pair_loop_ok m e He ps fuel p _ H Hf). f_equal.
  destruct ps as [|a ps]; [reflexivity|]. change (last (p :: a :: ps) 0) with (last (a :: ps) 0).
  clear. revert a. induction ps as [|b ps IH]; intros a; [reflexivity|].
  change (last (b :: ps) p = last (b :: ps) 0). apply IH.
Qed.

Lemma ispair_null : forall m, ispair heap hm m NULL = false.
Proof.
  intros m. unfold ispair, istagged. destruct (notobjptr NULL heap hm) eqn:E; [reflexivity|].
  exfalso. apply (null_not_in_heap heap hs Hok). apply (isobjptr_iff heap hs Hok). unfold isobjptr. now rewrite E.
Qed.

(** [reverse] *)
Lemma reverse_loop_ok : forall ps fuel m hp l o qs,
  chain m l ps -> above hp ps -> seg m o qs NULL -> above hp qs ->
  hp mod 8 = 0 -> heap + 32 * Z.of_nat (length ps) <= hp <= heap + 8 * hs -> (length ps < fuel)%nat ->
  exists m' o' ns, reverse_loop heap hm fuel m hp l o = LVal (m', hp - 32 * Z.of_nat (length ps), o') /\
    chain m' o' (ns ++ qs) /\ elems m' ns = rev (elems m ps) /\ elems m' qs = elems m qs /\
    within (hp - 32 * Z.of_nat (length ps)) hp ns /\
    same_outside m m' (hp - 32 * Z.of_nat (length ps)) hp.
Proof.
  induction ps as [|p ps IH]; intros fuel m hp l o qs H Ha Hq Haq Hm Hr Hf;
    destruct fuel as [|f]; try (cbn in Hf; lia); cbn [reverse_loop].
  - cbn in H. subst. rewrite mknull_eq, Z.eqb_refl. exists m, o, []. cbn [length].
    replace (hp - 32 * Z.of_nat 0) with hp by lia.
    split; [reflexivity|]. split; [exact Hq|]. split; [reflexivity|]. split; [reflexivity|].
    split; [constructor|]. intros x _; reflexivity.
  - destruct H as (-> & Hp & H). rewrite (pair_not_null heap hs Hok m p Hp).
    rewrite (car_ok heap hs Hok m p Hp). cbn [lbind].
    destruct (new_pair_eq m hp (car_at m p) o) as (m1 & E & S1 & W1 & W2 & W3 & W4). rewrite E.
    pose proof (Forall_inv Ha) as Hap; pose proof (Forall_inv_tail Ha) as Ha'; cbn beta in Hap. cbn in Hf. cbn [length] in Hr.
    assert (Hp1 : pair_at m1 p) by (eapply pair_keep; eauto; lia).
    rewrite (cdr_ok heap hs Hok m1 p Hp1). cbn [lbind].
    assert (Ecd : cdr_at m1 p = cdr_at m p) by (unfold cdr_at; apply S1; lia). rewrite Ecd.
    destruct (seg_keep m m1 (hp - 32) hp ps (cdr_at m p) NULL S1 (above_out hp (hp - 32) ps Ha') H) as [H1 E1].
    destruct (seg_keep m m1 (hp - 32) hp qs o NULL S1 (above_out hp (hp - 32) qs Haq) Hq) as [Hq1 Eq1].
    assert (Hnew : pair_at m1 (hp - 24)) by (apply new_pair_at; assumption || lia).
    assert (Hseg : seg m1 (hp - 24) ((hp - 24) :: qs) NULL).
    { cbn [Spec_List.seg]. split; [reflexivity|]. split; [exact Hnew|].
      unfold cdr_at. replace (hp - 24 + 16) with (hp - 8) by lia. rewrite W4. exact Hq1. }
    destruct (IH f m1 (hp - 32) (cdr_at m p) (hp - 24) ((hp - 24) :: qs)) as (m' & o' & ns & R1 & R2 & R3 & R4 & R5 & R6).
    { exact H1. } { eapply Forall_impl; [|exact Ha']. cbn; intros; lia. } { exact Hseg. }
    { constructor; [lia|]. eapply Forall_impl; [|exact Haq]. cbn; intros; lia. }
    { zdm. } { lia. } { lia. }
    replace (hp - 32 - 32 * Z.of_nat (length ps)) with (hp - 32 * Z.of_nat (length (p :: ps))) in * by (cbn [length]; lia).
    exists m', o', (ns ++ [hp - 24]).
    split; [exact R1|]. split; [rewrite <- app_assoc; exact R2|].
    cbn [elems map] in R4. injection R4 as R4a R4b. fold (elems m' qs) (elems m1 qs) in R4b.
    split.
    { unfold elems in *. rewrite map_app, R3. cbn [map rev]. rewrite R4a, E1.
      unfold car_at at 2. replace (hp - 24 + 8) with (hp - 16) by lia. now rewrite W3. }
    split; [congruence|]. split.
    { apply Forall_app. split; [eapply Forall_impl; [|exact R5]; cbn; intros; lia|].
      constructor; [cbn [length]; lia|constructor]. }
    eapply same_trans; [exact S1|exact R6|..]; cbn [length]; lia.
Qed.

(** [reverse!] *)
Lemma reverse_bang_loop_ok : forall ps fuel m l v qs,
  chain m l ps -> chain m v qs -> NoDup (ps ++ qs) ->
  (forall p q, In p (ps ++ qs) -> In q (ps ++ qs) -> p <> q -> p + 24 <= q - 8 \/ q + 24 <= p - 8) ->
  (length ps < fuel)%nat ->
  exists m' o, reverse_bang_loop heap hm fuel m l v = LVal (m', o) /\
    chain m' o (rev ps ++ qs) /\
    (forall a, ~ In a (map (fun p => p + 16) ps) -> m' a = m a).
Proof.
  induction ps as [|p ps IH]; intros fuel m l v qs H Hq Hnd Hsep Hf;
    destruct fuel as [|f]; try (cbn in Hf; lia); cbn [reverse_bang_loop].
  - cbn in H. subst. rewrite mknull_eq, Z.eqb_refl. exists m, v. split; [reflexivity|]. split; [exact Hq|reflexivity].
  - destruct H as (-> & Hp & H). rewrite (pair_not_null heap hs Hok m p Hp).
    rewrite (pair_ref heap hs Hok m p 1 Hp) by lia. cbn [lbind].
    replace (p + 8 * (1 + 1)) with (p + 16) by lia.
    set (m1 := upd m (p + 16) v).
    assert (S1 : same_outside m m1 (p + 16) (p + 17)).
    { intros x Hx. unfold m1. rewrite upd_o; [reflexivity|lia]. }
    cbn [app] in Hnd. apply NoDup_cons_iff in Hnd. destruct Hnd as [Hnin Hnd'].
    assert (Hdis : forall q, In q (ps ++ qs) -> p + 24 <= q - 8 \/ q + 24 <= p - 8).
    { intros q Hin. apply Hsep; [left; reflexivity|right; exact Hin|]. intros ->. contradiction. }
    assert (K : forall rs x e, (forall q, In q rs -> In q (ps ++ qs)) -> seg m x rs e -> seg m1 x rs e).
    { intros rs x e Hin Hs. apply (seg_keep m m1 (p + 16) (p + 17) rs x e S1); [|exact Hs].
      apply Forall_forall. intros q Hqi. specialize (Hdis q (Hin q Hqi)). lia. }
    destruct (IH f m1 (cdr_at m p) p (p :: qs)) as (m' & o & R1 & R2 & R3).
    { apply K; [intros; apply in_or_app; now left|exact H]. }
    { split; [reflexivity|]. split.
      - destruct Hp as (A & B & C). split; [exact A|]. rewrite !S1 by lia. auto.
      - unfold cdr_at, m1. rewrite upd_s. apply K; [intros; apply in_or_app; now right|exact Hq]. }
    { apply NoDup_remove_1 with (a := p) in Hnd || idtac.
      apply (NoDup_Add (a := p) (l := ps ++ qs)); [apply Add_app|]. now split. }
    { intros a b Ha Hb. apply Hsep.
      - apply in_app_or in Ha. cbn in Ha. cbn. rewrite in_app_iff. tauto.
      - apply in_app_or in Hb. cbn in Hb. cbn. rewrite in_app_iff. tauto. }
    { cbn in Hf. lia. }
    exists m', o. split; [exact R1|]. split.
    { cbn [rev]. rewrite <- app_assoc. exact R2. }
    intros a Ha. cbn [map In] in Ha. rewrite R3 by tauto. unfold m1. apply upd_o. intros ->. tauto.
Qed.

Lemma seg_split : forall m ps qs l e, seg m l (ps ++ qs) e -> exists x, seg m l ps x /\ seg m x qs e.
Proof.
  intros m ps. induction ps as [|p ps IH]; intros qs l e H; [exists l; split; [reflexivity|exact H]|].
  destruct H as (-> & Hp & H). destruct (IH _ _ _ H) as (x & H1 & H2). exists x. split; [|exact H2].
  split; [reflexivity|]. split; assumption.
Qed.

Lemma chain_fun : forall m ps qs l, chain m l ps -> chain m l qs -> ps = qs.
Proof.
  intros m ps. induction ps as [|p ps IH]; intros [|q qs] l H1 H2; [reflexivity|..].
  - cbn in H1. subst. destruct H2 as (E & H2 & _). subst q. exfalso. destruct H2 as [H2 _]. now apply (null_not_in_heap heap hs Hok) in H2.
  - cbn in H2. subst. destruct H1 as (E & H1 & _). subst p. exfalso. destruct H1 as [H1 _]. now apply (null_not_in_heap heap hs Hok) in H1.
  - destruct H1 as (-> & _ & H1), H2 as (-> & _ & H2). f_equal. eapply IH; eassumption.
Qed.

Lemma chain_nodup : forall m ps l, chain m l ps -> NoDup ps.
Proof.
  intros m ps. induction ps as [|p ps IH]; intros l H; [constructor|]. pose proof H as H0.
  destruct H as (-> & Hp & H). constructor; [|eapply IH; exact H]. intros Hin.
  apply in_split in Hin. destruct Hin as (a & b & E). rewrite E in H.
  destruct (seg_split _ _ _ _ _ H) as (x & _ & Hx). pose proof Hx as Hx'. destruct Hx as (-> & _ & _).
  pose proof (chain_fun m _ _ _ H0 Hx') as Ec. injection Ec as Ec. rewrite E in Ec.
  apply (f_equal (@length Z)) in Ec. rewrite app_length in Ec. cbn [length] in Ec. lia.
Qed.

Lemma reverse_bang_ok : forall ps fuel m l, chain m l ps -> apart ps -> (length ps < fuel)%nat ->
  exists m' o, reverse_bang heap hm fuel m l = LVal (m', o) /\ chain m' o (rev ps) /\
    elems m' (rev ps) = rev (elems m ps) /\
    (forall a, ~ In a (map (fun p => p + 16) ps) -> m' a = m a).
Proof.
  intros ps fuel m l H Hs Hf. unfold reverse_bang. rewrite mknull_eq.
  destruct (reverse_bang_loop_ok ps fuel m l NULL []) as (m' & o & R1 & R2 & R3); try rewrite app_nil_r; try assumption.
  { reflexivity. } { eapply chain_nodup; exact H. }
  rewrite app_nil_r in R2. exists m', o. split; [exact R1|]. split; [exact R2|]. split; [|exact R3].
  unfold elems. rewrite map_rev. f_equal. apply map_ext_in. intros p Hp. unfold car_at. apply R3.
  intros Hin. apply in_map_iff in Hin. destruct Hin as (q & E & Hq).
  destruct (Z.eq_dec p q) as [->|Hpq]; [lia|]. destruct (Hs p q Hp Hq Hpq); lia.
Qed.

(** [append] *)
Lemma append_loop_ok : forall ps fuel m hp l t o q qs,
  chain m l ps -> above hp ps -> hp mod 8 = 0 ->
  seg m o (qs ++ [q]) t -> within hp (heap + 8 * hs) (qs ++ [q]) ->
  Forall (fun p => p + 24 <= q - 8 \/ q + 24 <= p - 8) ps ->
  Forall (fun p => q + 24 <= p - 8) qs ->
  heap + 32 * Z.of_nat (length ps) <= hp <= heap + 8 * hs -> (length ps < fuel)%nat ->
  exists m' ns, append_loop heap hm fuel m hp l t o (Some (q + 16)) =
                LVal (m', hp - 32 * Z.of_nat (length ps), o) /\
    seg m' o (qs ++ [q] ++ ns) t /\ elems m' (qs ++ [q]) = elems m (qs ++ [q]) /\
    elems m' ns = elems m ps /\
    within (hp - 32 * Z.of_nat (length ps)) hp ns /\
    (forall a, ~ (hp - 32 * Z.of_nat (length ps) <= a < hp) -> a <> q + 16 -> m' a = m a).
Proof.
  induction ps as [|p ps IH]; intros fuel m hp l t o q qs H Ha Hm Hs Hw Hd Hdq Hr Hf;
    destruct fuel as [|f]; try (cbn in Hf; lia); cbn [append_loop].
  - cbn in H. subst. rewrite mknull_eq, Z.eqb_refl. exists m, []. cbn [length].
    replace (hp - 32 * Z.of_nat 0) with hp by lia. cbn [app].
    split; [reflexivity|]. split; [exact Hs|]. split; [reflexivity|]. split; [reflexivity|].
    split; [constructor|]. intros x _; reflexivity.
  - destruct H as (-> & Hp & H). rewrite (pair_not_null heap hs Hok m p Hp).
    rewrite (car_ok heap hs Hok m p Hp). cbn [lbind].
    destruct (new_pair_eq m hp (car_at m p) t) as (m1 & E & S1 & W1 & W2 & W3 & W4). rewrite E. cbn [fst snd].
    set (m2 := upd m1 (q + 16) (hp - 24)).
    pose proof (Forall_inv Ha) as Hap; pose proof (Forall_inv_tail Ha) as Ha'; cbn beta in Hap. pose proof (Forall_inv Hd) as Hdp; pose proof (Forall_inv_tail Hd) as Hd'; cbn beta in Hdp. cbn in Hf. cbn [length] in Hr.
    assert (Hwq : hp <= q - 8 /\ q + 24 <= heap + 8 * hs).
    { apply Forall_app in Hw. destruct Hw as [_ Hw]. inversion Hw; subst. assumption. }
    assert (S2 : same_outside m1 m2 (q + 16) (q + 17)).
    { intros x Hx. unfold m2. apply upd_o. lia. }
    assert (Hp2 : pair_at m2 p).
    { eapply pair_keep; [exact S2|lia|]. eapply pair_keep; [exact S1|lia|exact Hp]. }
    rewrite (cdr_ok heap hs Hok m2 p Hp2). cbn [lbind].
    assert (Ecd : cdr_at m2 p = cdr_at m p).
    { unfold cdr_at. rewrite S2 by lia. apply S1. lia. }
    rewrite Ecd.
    destruct (seg_keep m m1 (hp - 32) hp ps (cdr_at m p) NULL S1 (above_out hp (hp - 32) ps Ha') H) as [H1 E1].
    destruct (seg_keep m1 m2 (q + 16) (q + 17) ps (cdr_at m p) NULL S2) as [H2 E2].
    { eapply Forall_impl; [|exact Hd']. cbn; intros; lia. } { exact H1. }
    assert (Hnew1 : pair_at m1 (hp - 24)) by (apply new_pair_at; assumption || lia).
    assert (Hnew : pair_at m2 (hp - 24)) by (eapply pair_keep; [exact S2|lia|exact Hnew1]).
    (* the segment built so far, extended by the new pair *)
    assert (Hall : Forall (fun p => hp <= p - 8 \/ p + 24 <= hp - 32) (qs ++ [q])).
    { eapply Forall_impl; [|exact Hw]. cbn; intros; lia. }
    destruct (seg_keep m m1 (hp - 32) hp _ _ _ S1 Hall Hs) as [Hs1 Es1].
    assert (Split : forall rs x y, seg m1 x (rs ++ [q]) y -> Forall (fun p => q + 24 <= p - 8) rs ->
              seg m2 x (rs ++ [q]) (hp - 24) /\ elems m2 (rs ++ [q]) = elems m1 (rs ++ [q])).
    { induction rs as [|r rs IHr]; intros x y Hx Hdr.
      - destruct Hx as (-> & Hq & _). cbn [app Spec_List.seg elems map]. split.
        + split; [reflexivity|]. split; [|unfold cdr_at, m2; now rewrite upd_s].
          destruct Hq as (A & B & C). split; [exact A|]. rewrite !S2 by lia. auto.
        + unfold car_at. rewrite S2 by lia. reflexivity.
      - destruct Hx as (-> & Hr1 & Hx). pose proof (Forall_inv Hdr) as Hdr1; pose proof (Forall_inv_tail Hdr) as Hdr'; cbn beta in Hdr1.
        destruct (IHr _ _ Hx Hdr') as [I1 I2]. cbn [app Spec_List.seg elems map] in *.
        assert (Ec : cdr_at m2 r = cdr_at m1 r) by (unfold cdr_at; apply S2; lia).
        unfold elems in I2. rewrite Ec, I2. split.
        + split; [reflexivity|]. split; [|exact I1]. eapply pair_keep; [exact S2|lia|exact Hr1].
        + f_equal. unfold car_at. apply S2. lia. }
    destruct (Split qs o t Hs1 Hdq) as [Hs2 Es2].
    assert (Hseg : seg m2 o ((qs ++ [q]) ++ [hp - 24]) t).
    { eapply seg_app; [exact Hs2|]. split; [reflexivity|]. split; [exact Hnew|]. unfold cdr_at.
      rewrite S2 by lia. replace (hp - 24 + 16) with (hp - 8) by lia. exact W4. }
    destruct (IH f m2 (hp - 32) (cdr_at m p) t o (hp - 24) (qs ++ [q])) as (m' & ns & R1 & R2 & R3 & R4 & R5 & R6).
    { exact H2. } { eapply Forall_impl; [|exact Ha']. cbn; intros; lia. } { zdm. } { exact Hseg. }
    { apply Forall_app. split; [eapply Forall_impl; [|exact Hw]; cbn; intros; lia|].
      constructor; [lia|constructor]. }
    { eapply Forall_impl; [|exact Ha']. cbn; intros; lia. }
    { eapply Forall_impl; [|exact Hw]. cbn; intros; lia. }
    { lia. } { lia. }
    replace (hp - 24 + 16) with (hp - 8) in * by lia.
    replace (hp - 32 - 32 * Z.of_nat (length ps)) with (hp - 32 * Z.of_nat (length (p :: ps))) in * by (cbn [length]; lia).
    exists m', ((hp - 24) :: ns). split; [exact R1|]. split.
    { rewrite app_assoc. exact R2. }
    unfold elems in R3. rewrite map_app in R3.
    rewrite (map_app (car_at m2) (qs ++ [q])) in R3. cbn [map] in R3. apply app_inj_tail in R3. destruct R3 as [R3a R3b].
    split; [unfold elems in *; congruence|]. split.
    { cbn [elems map]. unfold elems in *. rewrite R3b, R4, E2, E1. f_equal.
      unfold car_at. rewrite S2 by lia. replace (hp - 24 + 8) with (hp - 16) by lia. exact W3. }
    split.
    { constructor; [cbn [length]; lia|]. eapply Forall_impl; [|exact R5]. cbn; intros; lia. }
    intros a A1 A2. cbn [length] in A1. rewrite R6; [|cbn [length]; lia|lia].
    unfold m2. rewrite upd_o by lia. apply S1. lia.
Qed.

Lemma append2_ok : forall ps fuel m hp l t,
  chain m l ps -> above hp ps -> hp mod 8 = 0 ->
  heap + 32 * Z.of_nat (length ps) <= hp <= heap + 8 * hs -> (length ps < fuel)%nat ->
  exists m' o ns, append2 heap hm fuel m hp l t = LVal (m', hp - 32 * Z.of_nat (length ps), o) /\
    seg m' o ns t /\ elems m' ns = elems m ps /\
    within (hp - 32 * Z.of_nat (length ps)) hp ns /\
    same_outside m m' (hp - 32 * Z.of_nat (length ps)) hp.
Proof.
  intros [|p ps] fuel m hp l t H Ha Hm Hr Hf; destruct fuel as [|f]; try (cbn in Hf; lia); unfold append2; cbn [append_loop].
  - cbn in H. subst. rewrite mknull_eq, Z.eqb_refl. exists m, t, []. cbn [length].
    replace (hp - 32 * Z.of_nat 0) with hp by lia.
    split; [reflexivity|]. split; [reflexivity|]. split; [reflexivity|]. split; [constructor|]. intros x _; reflexivity.
  - destruct H as (-> & Hp & H). rewrite (pair_not_null heap hs Hok m p Hp).
    rewrite (car_ok heap hs Hok m p Hp). cbn [lbind].
    destruct (new_pair_eq m hp (car_at m p) t) as (m1 & E & S1 & W1 & W2 & W3 & W4). rewrite E.
    pose proof (Forall_inv Ha) as Hap; pose proof (Forall_inv_tail Ha) as Ha'; cbn beta in Hap. cbn in Hf. cbn [length] in Hr.
    assert (Hp1 : pair_at m1 p) by (eapply pair_keep; [exact S1|lia|exact Hp]).
    rewrite (cdr_ok heap hs Hok m1 p Hp1). cbn [lbind].
    assert (Ecd : cdr_at m1 p = cdr_at m p) by (unfold cdr_at; apply S1; lia). rewrite Ecd.
    destruct (seg_keep m m1 (hp - 32) hp ps (cdr_at m p) NULL S1 (above_out hp (hp - 32) ps Ha') H) as [H1 E1].
    assert (Hnew : pair_at m1 (hp - 24)) by (apply new_pair_at; assumption || lia).
    destruct (append_loop_ok ps f m1 (hp - 32) (cdr_at m p) t (hp - 24) (hp - 24) []) as (m' & ns & R1 & R2 & R3 & R4 & R5 & R6).
    { exact H1. } { eapply Forall_impl; [|exact Ha']. cbn; intros; lia. } { zdm. }
    { split; [reflexivity|]. split; [exact Hnew|]. unfold cdr_at. replace (hp - 24 + 16) with (hp - 8) by lia. exact W4. }
    { constructor; [lia|constructor]. }
    { eapply Forall_impl; [|exact Ha']. cbn; intros; lia. } { constructor. } { lia. } { lia. }
    replace (hp - 24 + 16) with (hp - 8) in * by lia.
    replace (hp - 32 - 32 * Z.of_nat (length ps)) with (hp - 32 * Z.of_nat (length (p :: ps))) in * by (cbn [length]; lia).
    exists m', (hp - 24), ((hp - 24) :: ns). split; [exact R1|]. split; [exact R2|].
    cbn [elems map app] in R3. injection R3 as R3. split.
    { cbn [elems map]. unfold elems in *. rewrite R3, R4, E1. f_equal.
      unfold car_at. replace (hp - 24 + 8) with (hp - 16) by lia. exact W3. }
    split.
    { constructor; [cbn [length]; lia|]. eapply Forall_impl; [|exact R5]. cbn; intros; lia. }
    intros a A1. cbn [length] in A1. rewrite R6; [|cbn [length]; lia|lia]. apply S1. lia.
Qed.

(** vectors *)
Lemma vector_at_istagged : forall m v xs, vector_at heap hs m v xs -> Z.of_nat (length xs) < 2147483647 ->
  istagged heap hm m v VECTOR_BTAG = true.
Proof.
  intros m v xs (H1 & H2 & H3 & _) Hl. apply (istagged_at heap hs Hok m v 1 (Z.of_nat (length xs) + 1)); try assumption. lia.
Qed.

Lemma make_vector_ok : forall c m hp o, hp mod 8 = 0 -> heap + 8 * (Z.of_nat c + 2) <= hp <= heap + 8 * hs ->
  exists m' v, make_vector c m hp o = (m', hp - 8 * (Z.of_nat c + 2), v) /\
    vector_at heap hs m' v (repeat o c) /\ hp - 8 * (Z.of_nat c + 2) <= v - 8 /\ v + 8 * (Z.of_nat c + 1) <= hp /\
    same_outside m m' (hp - 8 * (Z.of_nat c + 2)) hp.
Proof.
  intros c m hp o Hm Hr. unfold make_vector, alloc_block.
  destruct (push_words_spec (repeat o c ++ [obj_from_size VECTOR_BTAG]) m hp) as (m1 & E & A & B). rewrite E.
  rewrite app_length, repeat_length in *. cbn [length] in *. unfold hendblk. rewrite !obj_from_size_eq.
  replace (hp - 8 * Z.of_nat (c + 1) - 8) with (hp - 8 * (Z.of_nat c + 2)) by lia.
  set (b := hp - 8 * (Z.of_nat c + 2)) in *.
  exists (upd m1 b (2 * Z.of_nat (c + 1) + 1)), (b + 8). split; [reflexivity|].
  assert (A' : forall i, (i < c + 1)%nat -> m1 (b + 8 + 8 * Z.of_nat i) =
             nth (c - i) (repeat o c ++ [obj_from_size VECTOR_BTAG]) 0).
  { intros i Hi. rewrite <- A by lia. f_equal. unfold b. lia. }
  split.
  - unfold vector_at. rewrite repeat_length. split; [|split; [|split]].
    + destruct Hok as [_ Hh]. split; [unfold b; lia|]. unfold b. zdm.
    + replace (b + 8 - 8) with b by lia. rewrite upd_s. lia.
    + rewrite upd_o by lia. specialize (A' 0%nat ltac:(lia)). rewrite Z.add_0_r in A'. rewrite A'.
      rewrite app_nth2; rewrite repeat_length; [|lia]. replace (c - 0 - c)%nat with 0%nat by lia. reflexivity.
    + intros i Hi. rewrite upd_o by lia.
      replace (b + 8 + 8 * (1 + Z.of_nat i)) with (b + 8 + 8 * Z.of_nat (S i)) by lia. rewrite A' by lia.
      rewrite app_nth1 by (rewrite repeat_length; lia). rewrite !nth_repeat_any by lia. reflexivity.
  - split; [unfold b; lia|]. split; [unfold b; lia|].
    intros a Ha. rewrite upd_o by (unfold b in *; lia). apply B. unfold b in Ha. lia.
Qed.

(** [vector->list] *)
Lemma vector_to_list_loop_ok : forall c m hp v l xs qs,
  vector_at heap hs m v xs -> (c <= length xs)%nat -> hp <= v - 8 ->
  chain m l qs -> within hp (heap + 8 * hs) qs -> hp mod 8 = 0 ->
  heap + 32 * Z.of_nat c <= hp <= heap + 8 * hs ->
  exists m' o ns, vector_to_list_loop c m hp v l = (m', hp - 32 * Z.of_nat c, o) /\
    chain m' o (ns ++ qs) /\ elems m' ns = firstn c xs /\ elems m' qs = elems m qs /\
    within (hp - 32 * Z.of_nat c) hp ns /\ same_outside m m' (hp - 32 * Z.of_nat c) hp.
Proof.
  induction c as [|c IH]; intros m hp v l xs qs Hv Hc Hhv Hl Hw Hm Hr; cbn [vector_to_list_loop].
  - exists m, l, []. replace (hp - 32 * Z.of_nat 0) with hp by lia.
    split; [reflexivity|]. split; [exact Hl|]. split; [reflexivity|]. split; [reflexivity|].
    split; [constructor|]. intros x _; reflexivity.
  - destruct (new_pair_eq m hp (m (v + 8 * (1 + Z.of_nat c))) l) as (m1 & E & S1 & W1 & W2 & W3 & W4). rewrite E.
    destruct (seg_keep m m1 (hp - 32) hp qs l NULL S1) as [Hq1 Eq1].
    { eapply Forall_impl; [|exact Hw]. cbn; intros; lia. } { exact Hl. }
    assert (Hnew : pair_at m1 (hp - 24)) by (apply new_pair_at; assumption || lia).
    assert (Hv1 : vector_at heap hs m1 v xs).
    { destruct Hv as (A & B & C & D). split; [exact A|]. rewrite !S1 by lia. split; [exact B|].
      split; [exact C|]. intros i Hi. rewrite S1 by lia. apply D. exact Hi. }
    destruct (IH m1 (hp - 32) v (hp - 24) xs ((hp - 24) :: qs)) as (m' & o & ns & R1 & R2 & R3 & R4 & R5 & R6).
    { exact Hv1. } { lia. } { lia. }
    { split; [reflexivity|]. split; [exact Hnew|]. unfold cdr_at. replace (hp - 24 + 16) with (hp - 8) by lia.
      rewrite W4. exact Hq1. }
    { constructor; [lia|]. eapply Forall_impl; [|exact Hw]. cbn; intros; lia. }
    { zdm. } { lia. }
    replace (hp - 32 - 32 * Z.of_nat c) with (hp - 32 * Z.of_nat (S c)) in * by lia.
    exists m', o, (ns ++ [hp - 24]). split; [exact R1|]. split; [rewrite <- app_assoc; exact R2|].
    cbn [elems map] in R4. injection R4 as R4a R4b. split.
    { unfold elems in *. rewrite map_app, R3. cbn [map]. rewrite R4a. unfold car_at.
      replace (hp - 24 + 8) with (hp - 16) by lia. rewrite W3. destruct Hv as (_ & _ & _ & D).
      rewrite D by lia. clear -Hc. revert c Hc. induction xs as [|x xs IH]; intros [|c] Hc; cbn in *; try lia; try reflexivity.
      f_equal. apply IH. lia. }
    split; [unfold elems in *; congruence|]. split.
    { apply Forall_app. split; [eapply Forall_impl; [|exact R5]; cbn; intros; lia|].
      constructor; [lia|constructor]. }
    eapply same_trans; [exact S1|exact R6|..]; lia.
Qed.

Lemma vector_to_list_ok : forall m hp v xs,
  vector_at heap hs m v xs -> Z.of_nat (length xs) < 2147483647 -> hp <= v - 8 -> hp mod 8 = 0 ->
  heap + 32 * Z.of_nat (length xs) <= hp <= heap + 8 * hs ->
  exists m' o ns, vector_to_list heap hm m hp v = LVal (m', hp - 32 * Z.of_nat (length xs), o) /\
    chain m' o ns /\ elems m' ns = xs /\
    within (hp - 32 * Z.of_nat (length xs)) hp ns /\ same_outside m m' (hp - 32 * Z.of_nat (length xs)) hp.
Proof.
  intros m hp v xs Hv Hl Hhv Hm Hr. unfold vector_to_list, taggedlen.
  rewrite (vector_at_istagged m v xs Hv Hl). cbn [lbind].
  destruct Hv as (A & B & C & D). rewrite B, size_of by lia.
  replace (Z.to_nat (Z.of_nat (length xs) + 1 - 1)) with (length xs) by lia.
  destruct (vector_to_list_loop_ok (length xs) m hp v mknull xs []) as (m' & o & ns & R1 & R2 & R3 & R4 & R5 & R6);
    try lia; try assumption; [repeat split; assumption || apply A|reflexivity|constructor|].
  rewrite app_nil_r in R2. rewrite firstn_all in R3. rewrite R1. exists m', o, ns. auto.
Qed.

(** [list->vector] *)
Lemma list_to_vector_loop_ok : forall ps m a l, chain m l ps -> above (a + 8 * Z.of_nat (length ps)) ps ->
  exists m', list_to_vector_loop heap hm (length ps) m a l = LVal m' /\
    (forall i, (i < length ps)%nat -> m' (a + 8 * Z.of_nat i) = nth i (elems m ps) 0) /\
    same_outside m m' a (a + 8 * Z.of_nat (length ps)).
Proof.
  induction ps as [|p ps IH]; intros m a l H Ha; cbn [length list_to_vector_loop].
  - exists m. split; [reflexivity|]. split; [intros; lia|intros x _; reflexivity].
  - destruct H as (-> & Hp & H). rewrite (car_ok heap hs Hok m p Hp). cbn [lbind].
    pose proof (Forall_inv Ha) as Hap. pose proof (Forall_inv_tail Ha) as Ha'. cbn beta in Hap. cbn [length] in *.
    set (m1 := upd m a (car_at m p)).
    assert (S1 : same_outside m m1 a (a + 8)) by (intros x Hx; unfold m1; apply upd_o; lia).
    assert (Hp1 : pair_at m1 p) by (eapply pair_keep; [exact S1|lia|exact Hp]).
    rewrite (cdr_ok heap hs Hok m1 p Hp1). cbn [lbind].
    assert (Ecd : cdr_at m1 p = cdr_at m p) by (unfold cdr_at; apply S1; lia). rewrite Ecd.
    destruct (seg_keep m m1 a (a + 8) ps (cdr_at m p) NULL S1) as [H1 E1].
    { eapply Forall_impl; [|exact Ha']. cbn; intros; lia. } { exact H. }
    destruct (IH m1 (a + 8) (cdr_at m p) H1) as (m' & R1 & R2 & R3).
    { eapply Forall_impl; [|exact Ha']. cbn beta; intros; lia. }
    exists m'. split; [exact R1|]. split.
    + intros [|i] Hi; cbn [elems map nth].
      * rewrite R3 by lia. unfold m1. replace (a + 8 * Z.of_nat 0) with a by lia. apply upd_s.
      * replace (a + 8 * Z.of_nat (S i)) with (a + 8 + 8 * Z.of_nat i) by lia. rewrite R2 by lia.
        unfold elems in E1. unfold elems. now rewrite E1.
    + eapply same_trans; [exact S1|exact R3|..]; lia.
Qed.

Lemma list_to_vector_ok : forall ps fuel m hp l, chain m l ps -> above hp ps -> hp mod 8 = 0 ->
  heap + 8 * (Z.of_nat (length ps) + 2) <= hp <= heap + 8 * hs -> (length ps < fuel)%nat ->
  exists m' v, list_to_vector heap hm fuel m hp l = LVal (m', hp - 8 * (Z.of_nat (length ps) + 2), v) /\
    vector_at heap hs m' v (elems m ps) /\
    hp - 8 * (Z.of_nat (length ps) + 2) <= v - 8 /\ v + 8 * (Z.of_nat (length ps) + 1) <= hp /\
    same_outside m m' (hp - 8 * (Z.of_nat (length ps) + 2)) hp.
Proof.
  intros ps fuel m hp l H Ha Hm Hr Hf. unfold list_to_vector, length_.
  rewrite (length_loop_ok m ps fuel l 0 H Hf). cbn [lbind]. rewrite Z.add_0_l.
  destruct (list_to_vector_loop_ok ps m (hp - 8 * Z.of_nat (length ps)) l H) as (m1 & R1 & R2 & R3).
  { eapply Forall_impl; [|exact Ha]. cbn; intros; lia. }
  rewrite Nat2Z.id, R1. cbn [lbind]. unfold hendblk. rewrite !obj_from_size_eq.
  set (n := Z.of_nat (length ps)) in *.
  replace (hp - 8 * n - 8 - 8) with (hp - 8 * (n + 2)) by lia. set (b := hp - 8 * (n + 2)) in *.
  eexists _, _. split; [reflexivity|]. split; [|split; [unfold b; lia|split; [unfold b; lia|]]].
  - unfold vector_at. unfold elems at 1 2. rewrite map_length. fold n.
    split; [destruct Hok as [_ Hh]; split; [unfold b; lia|unfold b; zdm]|].
    split; [|split].
    + replace (b + 8 - 8) with b by lia. apply upd_s.
    + rewrite upd_o by lia. replace (b + 8) with (hp - 8 * n - 8) by (unfold b; lia). apply upd_s.
    + intros i Hi. rewrite <- R2 by assumption. rewrite !upd_o by (unfold b; lia). f_equal. unfold b. lia.
  - intros x Hx. rewrite !upd_o by (unfold b in *; lia). apply R3. unfold b in *. lia.
Qed.
End Heap.
