From Coq Require Import ZArith Lia List Bool Permutation.
From Verif Require Import Base Model_Imm Proofs_Imm Model_GC Spec_GC Proofs_GC1 Proofs_GC2 Proofs_GC3.
Import ListNotations.
Open Scope Z_scope.

(** ** blocks and reachability of well-formed heaps *)
Lemma reach_blks m h1 s1 h2 s2 hp cells blks b :
  heap_wf m h1 s1 h2 s2 hp cells blks -> reach m h1 s1 cells b -> In b blks.
Proof.
  intros WF H. induction H as [c Hc Hp|b i Hr IH Hi Hp].
  - apply (wf_roots _ _ _ _ _ _ _ _ WF c Hc); auto.
  - apply (wf_words _ _ _ _ _ _ _ _ WF b i IH Hi); auto.
Qed.

Lemma blk_in_area m h1 s1 h2 s2 hp cells blks b i :
  heap_wf m h1 s1 h2 s2 hp cells blks -> In b blks -> 0 <= i <= blen (m b) ->
  in_area (b + 8 * i) h1 s1.
Proof. intros WF H Hi. eapply blk_area; eauto. Qed.

Lemma blen_nn m h1 s1 h2 s2 hp cells blks b :
  heap_wf m h1 s1 h2 s2 hp cells blks -> In b blks -> 1 <= blen (m b).
Proof. intros WF H. eapply len_pos; eauto. Qed.

(** memory outside the live semispace and the root cells is irrelevant *)
Lemma blocks_ext m m' he l a : blocks m he a l -> (forall b, In b l -> m' b = m b) -> blocks m' he a l.
Proof.
  induction 1 as [|b l H IH]; intros E; [constructor|].
  constructor. rewrite E by (left; auto). apply IH. intros; apply E; right; auto.
Qed.

(** switching the other semispace and changing irrelevant memory *)
Lemma heap_wf_switch m m' h1 s1 h2 s2 h3 s3 hp cells blks :
  heap_wf m h1 s1 h2 s2 hp cells blks ->
  (forall a, in_area a h1 s1 -> m' a = m a) -> (forall c, In c cells -> m' c = m c) ->
  (exists k, 0 <= k /\ s3 = 2 ^ k) -> (0 < h3 /\ h3 mod 8 = 0) ->
  (h1 + 8 * s1 <= h3 \/ h3 + 8 * s3 <= h1) ->
  fresh_area m h1 s1 cells blks h3 s3 ->
  heap_wf m' h1 s1 h3 s3 hp cells blks.
Proof.
  intros WF Ea Ec Hs Hh Hd (F1 & F2 & F3 & F4).
  assert (Eb : forall b i, In b blks -> 0 <= i <= blen (m b) -> m' (b + 8 * i) = m (b + 8 * i)).
  { intros. apply Ea. eapply blk_in_area; eauto. }
  assert (Eb0 : forall b, In b blks -> m' b = m b).
  { intros b Hb. pose proof (blen_nn _ _ _ _ _ _ _ _ b WF Hb).
    specialize (Eb b 0 Hb ltac:(lia)). replace (b + 8 * 0) with b in Eb by lia. auto. }
  assert (Dj : forall w, isptr w h1 s1 -> ~ isptr w h3 s3).
  { intros w [A _] [B _]. unfold in_area in *. lia. }
  constructor; auto; try apply WF.
  - intros c Hc. split; [apply (wf_cells _ _ _ _ _ _ _ _ WF c Hc)|auto].
  - eapply blocks_ext; eauto. apply WF.
  - intros b Hb. rewrite Eb0 by auto.
    destruct (wf_hdrs _ _ _ _ _ _ _ _ WF b Hb) as [X|(X1 & X2 & X3 & X4)]; [left; auto|].
    right. destruct (F3 b Hb) as [Y|Y]; [congruence|auto].
  - intros b i Hb Hi. rewrite Eb0 in Hi by auto. rewrite Eb by (auto; lia).
    split; [apply (wf_words _ _ _ _ _ _ _ _ WF b i Hb Hi)|].
    destruct (F4 b i Hb Hi) as [Y|Y]; auto.
  - intros b Hb Hn. rewrite Eb0 in Hn by auto.
    pose proof (blen_nn _ _ _ _ _ _ _ _ b WF Hb).
    specialize (Eb b 1 Hb ltac:(lia)). replace (b + 8 * 1) with (b + 8) in Eb by lia. rewrite Eb.
    apply (wf_native _ _ _ _ _ _ _ _ WF b); auto.
  - intros c Hc. rewrite Ec by auto.
    split; [apply (wf_roots _ _ _ _ _ _ _ _ WF c Hc)|].
    destruct (F2 c Hc) as [Y|Y]; auto.
Qed.

(** ** isomorphisms *)
Lemma iso_reach m h s m' h' s' cells blks' (R : Z -> Z -> Prop) :
  (forall b f f', R b f -> R b f' -> f = f') ->
  (forall b, (exists f, R b f) <-> reach m h s cells b) ->
  (forall c, In c cells -> word_rel R h s h' s' (m c) (m' c)) ->
  (forall b f, R b f -> m' f = m b /\
       forall i, 1 <= i <= blen (m b) ->
         word_rel R h s h' s' (m (b + 8 * i)) (m' (f + 8 * i))) ->
  (forall f, (exists b, R b f) <-> In f blks') ->
  forall f, In f blks' -> reach m' h' s' cells f.
Proof.
  intros Rf Rd Rc Rb Rr.
  assert (G : forall b, reach m h s cells b -> forall f, R b f -> reach m' h' s' cells f).
  { intros b H. induction H as [c Hc Hp|b i Hr IH Hi Hp]; intros f Hf.
    - destruct (Rc c Hc) as [(A & B & C)|(A & _)]; [|contradiction].
      rewrite (Rf _ _ _ Hf C). constructor; auto.
    - destruct (proj2 (Rd b) Hr) as (g & Hg). specialize (IH g Hg).
      destruct (Rb b g Hg) as (E & W).
      destruct (W i Hi) as [(A & B & C)|(A & _)]; [|contradiction].
      rewrite (Rf _ _ _ Hf C). apply reach_field; auto. rewrite E. auto. }
  intros f Hf. destruct (proj2 (Rr f) Hf) as (b & Hb).
  apply (G b); auto. apply Rd. eauto.
Qed.

Lemma iso_all_reach m h s m' h' s' cells blks' f :
  heap_iso m h s m' h' s' cells blks' -> In f blks' -> reach m' h' s' cells f.
Proof. intros (R & A & B & C & D & E & G). eapply iso_reach; eauto. Qed.

Lemma iso_trans m h s m1 h1 s1 m2 h2 s2 cells blks1 blks2 :
  (forall b, reach m1 h1 s1 cells b -> In b blks1) ->
  heap_iso m h s m1 h1 s1 cells blks1 -> heap_iso m1 h1 s1 m2 h2 s2 cells blks2 ->
  heap_iso m h s m2 h2 s2 cells blks2.
Proof.
  intros Hrb I1 I2.
  assert (AR : forall f, In f blks1 -> reach m1 h1 s1 cells f)
    by (intros; eapply iso_all_reach; eauto).
  destruct I1 as (R & A1 & B1 & C1 & D1 & E1 & G1).
  destruct I2 as (Q & A2 & B2 & C2 & D2 & E2 & G2).
  assert (WT : forall w w1 w2, word_rel R h s h1 s1 w w1 -> word_rel Q h1 s1 h2 s2 w1 w2 ->
    word_rel (fun b g => exists f, R b f /\ Q f g) h s h2 s2 w w2).
  { intros w w1 w2 [(X1 & X2 & X3)|(X1 & X2 & X3)] [(Y1 & Y2 & Y3)|(Y1 & Y2 & Y3)];
      try contradiction.
    - left. split; auto. split; auto. eauto.
    - right. subst. auto. }
  exists (fun b g => exists f, R b f /\ Q f g).
  split; [|split; [|split; [|split; [|split]]]].
  - intros b g g' (f & X & Y) (f' & X' & Y'). rewrite (A1 _ _ _ X X') in Y. eauto.
  - intros b b' g (f & X & Y) (f' & X' & Y'). rewrite (B2 _ _ _ Y Y') in X. eauto.
  - intros b. rewrite <- C1. split.
    + intros (g & f & X & Y). eauto.
    + intros (f & X). destruct (proj2 (C2 f)) as (g & Y); [apply AR, D1; eauto|eauto].
  - intros g. rewrite <- D2. split.
    + intros (b & f & X & Y). eauto.
    + intros (f & Y). destruct (proj2 (D1 f)) as (b & X); [apply Hrb, C2; eauto|eauto].
  - intros c Hc. eapply WT; eauto.
  - intros b g (f & X & Y). destruct (G1 _ _ X) as (U & V), (G2 _ _ Y) as (U' & V').
    split; [congruence|]. intros i Hi. eapply WT; eauto. apply V'. rewrite U. auto.
Qed.

(** isomorphism up to memory changes outside the live semispace and the cells *)
Lemma iso_ext_r m h s m1 m2 h' s' cells blks' hp h'' s'' :
  heap_wf m1 h' s' h'' s'' hp cells blks' ->
  (forall a, in_area a h' s' -> m2 a = m1 a) -> (forall c, In c cells -> m2 c = m1 c) ->
  heap_iso m h s m1 h' s' cells blks' -> heap_iso m h s m2 h' s' cells blks'.
Proof.
  intros WF Ea Ec (R & A & B & C & D & E & G). exists R.
  split; [auto|]. split; [auto|]. split; [auto|]. split; [auto|]. split.
  - intros c Hc. rewrite Ec by auto. auto.
  - intros b f Hf. destruct (G b f Hf) as (X & Y).
    assert (Hin : In f blks') by (apply D; eauto).
    pose proof (blen_nn _ _ _ _ _ _ _ _ f WF Hin) as L.
    split.
    + rewrite Ea; auto. replace f with (f + 8 * 0) by lia.
      eapply blk_in_area; eauto. lia.
    + intros i Hi. rewrite Ea; auto. eapply blk_in_area; eauto. rewrite X. lia.
Qed.

Lemma reach_ext m1 m2 h s h' s' hp cells blks b :
  heap_wf m1 h s h' s' hp cells blks ->
  (forall a, in_area a h s -> m2 a = m1 a) -> (forall c, In c cells -> m2 c = m1 c) ->
  reach m1 h s cells b <-> reach m2 h s cells b.
Proof.
  intros WF Ea Ec. 
  assert (Eb : forall b i, reach m1 h s cells b -> 0 <= i <= blen (m1 b) -> m2 (b + 8 * i) = m1 (b + 8 * i)).
  { intros x i Hr Hi. apply Ea. eapply blk_in_area; eauto. eapply reach_blks; eauto. }
  assert (Eb0 : forall b, reach m1 h s cells b -> m2 b = m1 b).
  { intros x Hr. pose proof (blen_nn _ _ _ _ _ _ _ _ x WF (reach_blks _ _ _ _ _ _ _ _ _ WF Hr)).
    specialize (Eb x 0 Hr ltac:(lia)). replace (x + 8 * 0) with x in Eb by lia. auto. }
  split; intros H.
  - induction H as [c Hc Hp|b i Hr IH Hi Hp].
    + rewrite <- Ec in * by auto. constructor; auto.
    + assert (E : m2 (b + 8 * i) = m1 (b + 8 * i)) by (apply Eb; auto; lia).
      rewrite <- E in *. apply reach_field; auto. rewrite Eb0 by auto. auto.
  - induction H as [c Hc Hp|b i Hr IH Hi Hp].
    + rewrite Ec in * by auto. constructor; auto.
    + rewrite Eb0 in Hi by auto.
      assert (E : m2 (b + 8 * i) = m1 (b + 8 * i)) by (apply Eb; auto; lia).
      rewrite E in *. apply reach_field; auto.
Qed.

Lemma iso_ext_l m1 m2 h s h0 s0 hp blks m' h' s' cells blks' :
  heap_wf m1 h s h0 s0 hp cells blks ->
  (forall a, in_area a h s -> m2 a = m1 a) -> (forall c, In c cells -> m2 c = m1 c) ->
  heap_iso m2 h s m' h' s' cells blks' -> heap_iso m1 h s m' h' s' cells blks'.
Proof.
  intros WF Ea Ec (R & A & B & C & D & E & G). exists R.
  assert (Rr : forall b f, R b f -> In b blks).
  { intros b f Hf. eapply reach_blks; eauto. rewrite (reach_ext m1 m2); eauto. apply C. eauto. }
  split; [auto|]. split; [auto|]. split; [|split; [auto|]; split].
  - intros b. rewrite C. symmetry. eapply reach_ext; eauto.
  - intros c Hc. rewrite <- Ec by auto. auto.
  - intros b f Hf. destruct (G b f Hf) as (X & Y).
    pose proof (Rr b f Hf) as Hin.
    pose proof (blen_nn _ _ _ _ _ _ _ _ b WF Hin) as L.
    assert (E0 : m2 b = m1 b).
    { apply Ea. replace b with (b + 8 * 0) by lia. eapply blk_in_area; eauto. lia. }
    rewrite E0 in *. split; auto.
    intros i Hi. rewrite <- Ea; auto. eapply blk_in_area; eauto. lia.
Qed.

(** freshness of an area survives a pass *)
Lemma fresh_iso m h1 s1 h2 s2 hp cells blks m' h' s' blks' a s :
  heap_wf m h1 s1 h2 s2 hp cells blks ->
  heap_iso m h1 s1 m' h' s' cells blks' ->
  fresh_area m h1 s1 cells blks a s -> fresh_area m' h' s' cells blks' a s.
Proof.
  intros WF (R & A & B & C & D & E & G) (F1 & F2 & F3 & F4).
  assert (Rr : forall b f, R b f -> In b blks).
  { intros b f Hf. eapply reach_blks; eauto. apply C. eauto. }
  split; [auto|]. split; [|split].
  - intros c Hc. destruct (E c Hc) as [(X1 & X2 & X3)|(X1 & X2 & X3)]; [left; auto|].
    rewrite X3. right. destruct (F2 c Hc); [contradiction|auto].
  - intros f Hf. destruct (proj2 (D f) Hf) as (b & Hb). destruct (G b f Hb) as (U & V).
    rewrite U. eauto.
  - intros f i Hf Hi. destruct (proj2 (D f) Hf) as (b & Hb). destruct (G b f Hb) as (U & V).
    rewrite U in Hi.
    destruct (V i Hi) as [(X1 & X2 & X3)|(X1 & X2 & X3)]; [left; auto|].
    rewrite X3. right. destruct (F4 b i (Rr _ _ Hb) Hi); [contradiction|auto].
Qed.

(** ** the growth computation *)
Lemma grow_size_ok : forall fuel s needs, 0 < s -> needs < s + Z.of_nat fuel -> fuel <> 0%nat ->
  exists j, 0 <= j /\ grow_size fuel s needs = Some (s * 2 ^ j) /\ needs <= s * 2 ^ j /\
    s * 2 ^ j <= Z.max s (2 * needs).
Proof.
  induction fuel as [|fuel IH]; intros s needs Hs Hn Hf; [congruence|].
  cbn [grow_size]. destruct (s <? needs) eqn:E.
  - apply Z.ltb_lt in E. destruct fuel as [|fuel]; [lia|].
    destruct (IH (s * 2) needs) as (j & Hj & A & B & C); try lia.
    exists (j + 1). rewrite Z.pow_add_r by lia. change (2 ^ 1) with 2.
    replace (s * (2 ^ j * 2)) with (s * 2 * 2 ^ j) by lia.
    split; [lia|]. split; [auto|]. split; [auto|]. lia.
  - apply Z.ltb_ge in E. exists 0. change (2 ^ 0) with 1.
    split; [lia|]. split; [f_equal; lia|]. lia.
Qed.

Lemma heap_size_pow : HEAP_SIZE = 2 ^ 17.
Proof. reflexivity. Qed.

Lemma realloc_copy_out m old n new a : ~ in_area a new n -> realloc_copy m old n new a = m a.
Proof.
  intros H. unfold realloc_copy, in_area in *.
  destruct (new <=? a) eqn:E1, (a <? new + 8 * n) eqn:E2; cbn [andb]; auto. lia.
Qed.

(** ** the whole collector *)
Definition hgc_post (st : gcstate) (m : mem) (cells blks : list Z) (needs : Z)
    (na nb : Z -> Z)
    (m' : mem) (st' : gcstate) (hp' : Z) (ev : list event) (blks' : list Z) : Prop :=
  exists dead,
  ev = natives m dead /\ NoDup dead /\
  (forall b, In b dead <-> In b blks /\ ~ reach m (g_heap st) (g_hsize st) cells b) /\
  g_hmask st' = Z.lor 1 (Z.lnot (g_hsize st' * 8 - 1)) /\ g_hmask2 st' = g_hmask st' /\
  heap_wf m' (g_heap st') (g_hsize st') (g_heap2 st') (g_hsize st') hp' cells blks' /\
  heap_iso m (g_heap st) (g_hsize st) m' (g_heap st') (g_hsize st') cells blks' /\
  Permutation (natives m blks) (natives m' blks' ++ ev) /\
  g_heap st' + 8 * needs <= hp' /\
  2 * words_of m' blks' + needs <= g_hsize st' /\
  g_hsize st <= g_hsize st' /\
  (forall a, ~ In a cells -> ~ in_area a (g_heap st) (g_hsize st) ->
     ~ in_area a (g_heap2 st) (g_hsize st) ->
     ~ in_area a (na (g_hsize st')) (g_hsize st') -> ~ in_area a (nb (g_hsize st')) (g_hsize st') ->
     m' a = m a).

Lemma hgc_first fuel na nb m cells needs :
  alloc_ok (mkgc 0 0 0 0 0) m cells [] na nb -> 0 < needs ->
  HEAP_SIZE + 2 * needs < Z.of_nat fuel ->
  exists m' st' hp' blks',
    cxm_hgc fuel na nb (mkgc 0 0 0 0 0) m cells 0 needs = Some (Val (m', st', hp', [])) /\
    hgc_post (mkgc 0 0 0 0 0) m cells [] needs na nb m' st' hp' [] blks'.
Proof.
  intros AO Hn Hf. unfold cxm_hgc. cbn [g_heap g_hmask g_heap2 g_hmask2 g_hsize].
  change (0 =? 0) with true. cbn [negb].
  assert (E0 : 0 <? needs = true) by (apply Z.ltb_lt; auto). rewrite E0.
  destruct (grow_size_ok fuel HEAP_SIZE needs) as (j & Hj & Eg & Hg & Hg');
    [unfold HEAP_SIZE; lia|unfold HEAP_SIZE in *; lia|unfold HEAP_SIZE in *; lia|].
  rewrite Eg. rewrite heap_size_pow, <- Z.pow_add_r in * by lia.
  set (s := 2 ^ (17 + j)) in *.
  destruct (AO s (17 + j) ltac:(lia) eq_refl) as ((A1 & A2) & (B1 & B2) & _ & Dj & Fa & Fb).
  cbn [g_heap g_heap2 g_hsize] in *.
  assert (Em : forall a, realloc_copy (realloc_copy m 0 0 (na s)) 0 0 (nb s) a = m a).
  { intros a. rewrite !realloc_copy_out; auto; unfold in_area; lia. }
  assert (NP : forall w, ~ isptr w 0 0) by (intros w [C _]; unfold in_area in C; lia).
  eexists _, _, _, []. split; [reflexivity|].
  exists []. cbn [g_heap g_hmask g_heap2 g_hmask2 g_hsize].
  split; [reflexivity|]. split; [constructor|]. split; [intros b; split; [intros []|intros [[] _]]|].
  split; [reflexivity|]. split; [reflexivity|].
  assert (Hr : forall c, In c cells -> ~ isptr (m c) (na s) s /\ ~ isptr (m c) (nb s) s).
  { intros c Hc. destruct Fa as (_ & Fa & _), Fb as (_ & Fb & _).
    destruct (Fa c Hc) as [C|]; [apply NP in C; contradiction|].
    destruct (Fb c Hc) as [C|]; [apply NP in C; contradiction|]. auto. }
  split; [|split; [|split; [|split; [|split; [|split]]]]].
  - assert (Hs : exists k, 0 <= k /\ s = 2 ^ k) by (exists (17 + j); split; [lia|reflexivity]).
    assert (0 < s) by (unfold s; apply Z.pow_pos_nonneg; lia).
    constructor; auto; try match goal with |- forall b, In b [] -> _ => intros ? [] | |- forall b i, In b [] -> _ => intros ? ? [] end.
    + intros c Hc. split; [apply (proj1 Fa c Hc)|apply (proj1 Fb c Hc)].
    + lia.
    + constructor.
    + intros c Hc. rewrite Em. split; [intros C; exfalso; apply (proj1 (Hr c Hc)); auto|apply (Hr c Hc)].
  - exists (fun _ _ => False).
    assert (NR : forall b, ~ reach m 0 0 cells b).
    { intros b H. inversion H as [? ? C|? ? ? ? C]; apply NP in C; auto. }
    split; [tauto|]. split; [tauto|]. split; [|split; [|split]].
    + intros b. split; [intros [f []]|intros C; apply NR in C; contradiction].
    + intros f. split; [intros [b []]|intros []].
    + intros c Hc. rewrite Em. right. split; [apply NP|]. split; [apply (Hr c Hc)|reflexivity].
    + tauto.
  - constructor.
  - lia.
  - cbn [words_of fold_right]. lia.
  - unfold s. apply Z.pow_nonneg. lia.
  - intros a _ _ _ _ _. apply Em.
Qed.

Lemma hgc_later fuel na nb st m cells blks hp needs :
  g_hmask st = hmask (g_hsize st) -> g_hmask2 st = g_hmask st ->
  heap_wf m (g_heap st) (g_hsize st) (g_heap2 st) (g_hsize st) hp cells blks ->
  alloc_ok st m cells blks na nb -> 0 <= needs ->
  HEAP_SIZE + 2 * needs + 4 * g_hsize st < Z.of_nat fuel ->
  exists m' st' hp' ev blks',
    cxm_hgc fuel na nb st m cells hp needs = Some (Val (m', st', hp', ev)) /\
    hgc_post st m cells blks needs na nb m' st' hp' ev blks'.
Proof.
  destruct st as [h1 m1 h2 m2 hs]. cbn [g_heap g_hmask g_heap2 g_hmask2 g_hsize].
  intros -> -> WF AO Hn Hf. unfold cxm_hgc. cbn [g_heap g_hmask g_heap2 g_hmask2 g_hsize].
  pose proof (wf_h1 _ _ _ _ _ _ _ _ WF) as [H1 _]. pose proof (wf_h2 _ _ _ _ _ _ _ _ WF) as [H2 _].
  destruct (wf_s1 _ _ _ _ _ _ _ _ WF) as (ks & Hks & Ehs).
  assert (Hhs : 0 < hs) by (rewrite Ehs; apply Z.pow_pos_nonneg; lia).
  assert (E1 : h1 =? 0 = false) by (apply Z.eqb_neq; lia).
  assert (E2 : h2 =? 0 = false) by (apply Z.eqb_neq; lia).
  rewrite E1, E2. cbn [negb].
  destruct (relocate_pass fuel true m h1 hs h2 hs hp cells blks (h1 + 8 * hs) WF)
    as (ma & hpa & blka & dead & Er & Pa); [lia|unfold HEAP_SIZE in *; lia|auto|].
  rewrite Er.
  destruct Pa as (WFa & ISOa & ND & Hdead & PERM & _ & FRa).
  pose proof (blocks_words _ _ _ _ (wf_blocks _ _ _ _ _ _ _ _ WFa)) as Wa.
  pose proof (wf_hp _ _ _ _ _ _ _ _ WFa) as Hpa.
  assert (Wle : words_of ma blka <= hs) by lia.
  assert (Wpos : hpa = h2 + 8 * hs - 8 * words_of ma blka) by lia.
  replace (h2 + 8 * hs - hpa) with (words_of ma blka * 8) by lia.
  rewrite Z.div_mul by lia.
  assert (Wa0 : 0 <= words_of ma blka).
  { apply words_of_nonneg. intros b Hb. pose proof (blen_nn _ _ _ _ _ _ _ _ b WFa Hb). lia. }
  set (needs' := needs + words_of ma blka * 2) in *.
  destruct (hs <? needs') eqn:Eg.
  - (* growth *)
    apply Z.ltb_lt in Eg.
    destruct (grow_size_ok fuel HEAP_SIZE needs') as (j & Hj & Egs & Hg & Hg');
      [unfold HEAP_SIZE; lia|unfold needs', HEAP_SIZE in *; lia|unfold HEAP_SIZE in *; lia|].
    rewrite Egs. rewrite heap_size_pow, <- Z.pow_add_r in * by lia.
    set (s := 2 ^ (17 + j)) in *.
    assert (Hspow : exists k, 0 <= k /\ s = 2 ^ k) by (exists (17 + j); split; [lia|reflexivity]).
    assert (Hs0 : 0 < s) by (unfold s; apply Z.pow_pos_nonneg; lia).
    destruct (AO s (17 + j) ltac:(lia) eq_refl) as (Al1 & Al2 & Dj1 & Dj2 & Fa & Fb).
    cbn [g_heap g_heap2 g_hsize] in *.
    set (mb := realloc_copy ma h1 hs (na s)).
    assert (Hle : hs <= s) by lia.
    assert (Fa' : fresh_area ma h2 hs cells blka (na s) s) by (eapply fresh_iso; [exact WF|exact ISOa|exact Fa]).
    assert (Fb' : fresh_area ma h2 hs cells blka (nb s) s) by (eapply fresh_iso; [exact WF|exact ISOa|exact Fb]).
    assert (Eb1 : forall a, in_area a h2 hs -> mb a = ma a).
    { intros a Ha. apply realloc_copy_out. unfold in_area in *. lia. }
    assert (Eb2 : forall c, In c cells -> mb c = ma c).
    { intros c Hc. apply realloc_copy_out. pose proof (proj1 Fa c Hc). unfold in_area in *. lia. }
    assert (WFb : heap_wf mb h2 hs (na s) s hpa cells blka).
    { eapply heap_wf_switch; [exact WFa|auto|auto|auto|auto|lia|auto]. }
    destruct (relocate_pass fuel false mb h2 hs (na s) s hpa cells blka 0 WFb)
      as (mc & hpc & blkc & deadc & Ec & Pc); [lia|unfold needs', HEAP_SIZE in *; lia|discriminate|].
    change (hmask s) with (hmask s) in *. rewrite Ec.
    destruct Pc as (WFc & ISOc & NDc & Hdeadc & PERMc & Wc & FRc).
    set (md := realloc_copy mc h2 hs (nb s)).
    assert (Ed1 : forall a, in_area a (na s) s -> md a = mc a).
    { intros a Ha. apply realloc_copy_out. unfold in_area in *. lia. }
    assert (Ed2 : forall c, In c cells -> md c = mc c).
    { intros c Hc. apply realloc_copy_out. pose proof (proj1 Fb c Hc). unfold in_area in *. lia. }
    assert (ISOab : heap_iso m h1 hs mb h2 hs cells blka) by (eapply iso_ext_r; [exact WFa|exact Eb1|exact Eb2|exact ISOa]).
    assert (ISOac : heap_iso m h1 hs mc (na s) s cells blkc).
    { eapply iso_trans; [|exact ISOab|exact ISOc]. intros b Hb. eapply reach_blks; [exact WFb|exact Hb]. }
    assert (Fb'' : fresh_area mc (na s) s cells blkc (nb s) s).
    { eapply fresh_iso; [exact WFb|exact ISOc|].
      eapply fresh_iso; [exact WF|exact ISOab|exact Fb]. }
    assert (Nothing : deadc = []).
    { destruct deadc as [|b l]; auto. exfalso.
      destruct (proj1 (Hdeadc b)) as [X Y]; [left; auto|]. apply Y.
      eapply iso_all_reach; [exact ISOab|exact X]. }
    subst deadc. change (natives mb []) with (@nil (Z * Z)) in PERMc. rewrite app_nil_r in PERMc.
    assert (blkc_a : forall b, In b blkc -> md b = mc b /\ md (b + 8) = mc (b + 8)).
    { intros b Hb. pose proof (blen_nn _ _ _ _ _ _ _ _ b WFc Hb).
      split; apply Ed1.
      - replace b with (b + 8 * 0) by lia. eapply blk_in_area; [exact WFc|exact Hb|lia].
      - replace (b + 8) with (b + 8 * 1) by lia. eapply blk_in_area; [exact WFc|exact Hb|lia]. }
    assert (blka_a : forall b, In b blka -> mb b = ma b /\ mb (b + 8) = ma (b + 8)).
    { intros b Hb. pose proof (blen_nn _ _ _ _ _ _ _ _ b WFa Hb).
      split; apply Eb1.
      - replace b with (b + 8 * 0) by lia. eapply blk_in_area; [exact WFa|exact Hb|lia].
      - replace (b + 8) with (b + 8 * 1) by lia. eapply blk_in_area; [exact WFa|exact Hb|lia]. }
    assert (NE : forall l (x y : mem), (forall b, In b l -> x b = y b /\ x (b + 8) = y (b + 8)) ->
              natives x l = natives y l).
    { induction l as [|b l IH]; intros x y Hxy; [reflexivity|].
      unfold natives in *. cbn [filter]. destruct (Hxy b) as [U V]; [left; auto|]. rewrite U.
      destruct (native (y b)); cbn [map]; rewrite (IH x y) by (intros; apply Hxy; right; auto);
        [rewrite U, V|]; reflexivity. }
    assert (WFd : heap_wf md (na s) s (nb s) s hpc cells blkc).
    { eapply heap_wf_switch; [exact WFc|auto|auto|auto|auto|lia|auto]. }
    eexists _, _, _, _, blkc. split; [reflexivity|].
    exists dead. cbn [g_heap g_hmask g_heap2 g_hmask2 g_hsize].
    split; [reflexivity|]. split; [auto|]. split; [auto|]. split; [reflexivity|].
    split; [reflexivity|]. split; [auto|]. split.
    { eapply iso_ext_r; [exact WFc|exact Ed1|exact Ed2|exact ISOac]. }
    pose proof (blocks_words _ _ _ _ (wf_blocks _ _ _ _ _ _ _ _ WFc)) as Wcw.
    rewrite (words_of_ext ma mb) in Wc by (intros; apply blka_a; auto).
    rewrite (words_of_ext mc md) by (intros; apply blkc_a; auto).
    split.
    { rewrite PERM. apply Permutation_app_tail. rewrite (NE blkc md mc) by auto.
      rewrite <- PERMc. rewrite (NE blka mb ma) by auto. reflexivity. }
    split; [unfold needs' in *; lia|]. split; [unfold needs' in *; lia|]. split; [auto|].
    intros a C1 C2 C3 C4 C5. unfold md. rewrite realloc_copy_out by (unfold in_area in *; lia).
    rewrite FRc by (auto; unfold in_area in *; lia).
    unfold mb. rewrite realloc_copy_out by (unfold in_area in *; lia).
    apply FRa; auto.
  - apply Z.ltb_ge in Eg.
    eexists _, _, _, _, blka. split; [reflexivity|].
    exists dead. cbn [g_heap g_hmask g_heap2 g_hmask2 g_hsize].
    split; [reflexivity|]. split; [auto|]. split; [auto|]. split; [reflexivity|].
    split; [reflexivity|]. split; [auto|]. split; [auto|]. split; [auto|].
    split; [unfold needs' in *; lia|]. split; [unfold needs' in *; lia|]. split; [lia|].
    intros a C1 C2 C3 C4 C5. apply FRa; auto.
Qed.
