From Coq Require Import ZArith Lia List Bool Permutation.
From Verif Require Import Base Model_Imm Proofs_Imm Model_GC Spec_GC Spec_GC2
  Proofs_GC1 Proofs_GC2 Proofs_GC3 Proofs_GC4 Proofs_GC5.
Import ListNotations.
Open Scope Z_scope.

Definition live (st : gcstate) (m : mem) (hp : Z) (cells blks : list Z) : Prop :=
  g_hmask st = hmask (g_hsize st) /\ g_hmask2 st = g_hmask st /\
  heap_wf m (g_heap st) (g_hsize st) (g_heap2 st) (g_hsize st) hp cells blks.

Lemma hgc_any fuel na nb st m cells blks hp needs :
  gc_ready st m hp cells blks -> alloc_ok st m cells blks na nb -> 0 < needs ->
  HEAP_SIZE + 2 * needs + 4 * g_hsize st < Z.of_nat fuel ->
  exists m' st' hp' ev blks',
    cxm_hgc fuel na nb st m cells hp needs = Some (Val (m', st', hp', ev)) /\
    hgc_post st m cells blks needs na nb m' st' hp' ev blks'.
Proof.
  intros [(-> & -> & ->)|(E1 & E2 & WF)] AO Hn Hf.
  - cbn [g_hsize] in Hf.
    destruct (hgc_first fuel na nb m cells needs AO Hn ltac:(lia)) as (m' & st' & hp' & blks' & E & P).
    exists m', st', hp', [], blks'. auto.
  - eapply hgc_later; eauto; lia.
Qed.

Lemma isptr_blk m h1 s1 h2 s2 hp cells blks b :
  heap_wf m h1 s1 h2 s2 hp cells blks -> In b blks -> isptr (b + 8) h1 s1.
Proof.
  intros WF Hb. pose proof (blen_nn _ _ _ _ _ _ _ _ b WF Hb).
  split.
  - replace (b + 8) with (b + 8 * 1) by lia. eapply blk_in_area; eauto. lia.
  - destruct (blk_range m h1 s1 h2 s2 hp cells blks WF b Hb) as (_ & _ & A).
    pose proof (proj2 (wf_h1 _ _ _ _ _ _ _ _ WF)). zdm.
Qed.

(** the object graph is carried along an isomorphism *)
Lemma sim_graph_iso (R : nat -> Z -> Prop) cells a m h s m' h' s' blks' (Q : Z -> Z -> Prop) :
  sim_graph R cells a m h s ->
  (forall b f f', Q b f -> Q b f' -> f = f') ->
  (forall b b' f, Q b f -> Q b' f -> b = b') ->
  (forall f, (exists b, Q b f) <-> In f blks') ->
  (forall c, In c cells -> word_rel Q h s h' s' (m c) (m' c)) ->
  (forall b f, Q b f -> m' f = m b /\
       forall i, 1 <= i <= blen (m b) ->
         word_rel Q h s h' s' (m (b + 8 * i)) (m' (f + 8 * i))) ->
  (forall b, In b blks' -> 1 <= blen (m' b)) ->
  (forall b f, Q b f -> native (m b) = true -> ~ isptr (m (b + 8)) h s) ->
  sim_graph (fun n f => exists b, R n b /\ Q b f) cells a m' h' s' /\
  (forall n f, (exists b, R n b /\ Q b f) -> In f blks').
Proof.
  intros (S1 & S2 & S3 & S4) Q1 Q2 Q3 Q4 Q5 Q6 Q7.
  assert (V : forall v w w', vrel R h s v w -> word_rel Q h s h' s' w w' ->
     vrel (fun n f => exists b, R n b /\ Q b f) h' s' v w').
  { intros [x|n] w w' Hv Hw; cbn [vrel] in *.
    - destruct Hv as [-> Hv]. destruct Hw as [(A & _)|(A & B & C)]; [contradiction|]. auto.
    - destruct Hv as [Hv1 Hv2]. destruct Hw as [(A & B & C)|(A & _)]; [|contradiction].
      split; auto. eauto. }
  split; [split; [|split; [|split]]|].
  - intros n f f' (b & A & B) (b' & A' & B'). rewrite (S1 _ _ _ A A') in B. eauto.
  - intros n n' f (b & A & B) (b' & A' & B'). rewrite (Q2 _ _ _ B B') in A. eauto.
  - intros c Hc. eapply V; eauto.
  - intros n f (b & A & B). destruct (S4 n b A) as (o & Ho & Hr). exists o. split; auto.
    destruct (Q5 b f B) as (U & W).
    assert (Lf : 1 <= blen (m b)) by (rewrite <- U; apply Q6, Q3; eauto).
    destruct o as [fs|t p]; cbn [orel] in *.
    + destruct Hr as (X1 & X2 & X3). rewrite U. split; auto. split; auto.
      intros i v Hi. assert (i < length fs)%nat by (apply nth_error_Some; congruence).
      specialize (X3 i v Hi). specialize (W (Z.of_nat i + 1) ltac:(lia)).
      replace (b + 8 * (Z.of_nat i + 1)) with (b + 8 + 8 * Z.of_nat i) in W by lia.
      replace (f + 8 * (Z.of_nat i + 1)) with (f + 8 + 8 * Z.of_nat i) in W by lia.
      eapply V; eauto.
    + destruct Hr as (X1 & X2 & X3). rewrite U. split; auto. split; auto.
      specialize (W 1 ltac:(lia)). replace (b + 8 * 1) with (b + 8) in W by lia.
      replace (f + 8 * 1) with (f + 8) in W by lia.
      destruct W as [(A1 & _)|(_ & _ & A1)]; [|congruence].
      exfalso. apply (Q7 b f B); auto.
  - intros n f (b & A & B). apply Q3. eauto.
Qed.

Lemma ready_wf st m hp cells blks : gc_ready st m hp cells blks ->
  (forall b, In b blks -> In b blks /\ exists h2 s2, heap_wf m (g_heap st) (g_hsize st) h2 s2 hp cells blks).
Proof.
  intros [(-> & -> & ->)|(E1 & E2 & WF)] b Hb; [destruct Hb|eauto].
Qed.

Lemma sim_gc cells a st m hp ev fuel na nb needs :
  sim cells a (mkc st m hp ev) -> 0 < needs ->
  HEAP_SIZE + 2 * needs + 4 * g_hsize st < Z.of_nat fuel ->
  (forall blks, gc_ready st m hp cells blks -> alloc_ok st m cells blks na nb) ->
  exists m' st' hp' ev' (R : nat -> Z -> Prop) blks',
    cxm_hgc fuel na nb st m cells hp needs = Some (Val (m', st', hp', ev')) /\
    live st' m' hp' cells blks' /\
    (forall n b, R n b -> In b blks') /\
    sim_graph R cells a m' (g_heap st') (g_hsize st') /\
    Permutation (a_natives (a_heap a)) (natives m' blks' ++ ev ++ ev') /\
    g_heap st' + 8 * needs <= hp' /\
    ((g_heap st' = g_heap2 st /\ g_heap2 st' = g_heap st /\ g_hsize st' = g_hsize st) \/
     (exists k, 0 <= k /\ g_hsize st' = 2 ^ k /\
       g_heap st' = na (g_hsize st') /\ g_heap2 st' = nb (g_hsize st'))).
Proof.
  intros (R & blks & Rd & Rb & SG & PM) Hn Hf HA. cbn [c_gc c_mem c_hp c_ev] in *.
  destruct (hgc_any fuel na nb st m cells blks hp needs Rd (HA blks Rd) Hn Hf)
    as (m' & st' & hp' & ev' & blks' & E & dead & Ev & ND & Hd & M1 & M2 & WF' & ISO & PERM & ROOM & HALF & GE & FR).
  destruct ISO as (Q & Q1 & Q2 & Q3 & Q4 & Q5 & Q6).
  destruct (sim_graph_iso R cells a m (g_heap st) (g_hsize st) m' (g_heap st') (g_hsize st') blks' Q SG Q1 Q2 Q4 Q5 Q6)
    as (SG' & Rb').
  { intros b Hb. eapply blen_nn; eauto. }
  { intros b f Hq Hnat. assert (Hr : reach m (g_heap st) (g_hsize st) cells b) by (apply Q3; eauto).
    destruct Rd as [(-> & -> & ->)|(E1 & E2 & WF)].
    - cbn [g_heap g_hsize] in *. intros [C _]. unfold in_area in C. lia.
    - apply (wf_native _ _ _ _ _ _ _ _ WF b); auto. eapply reach_blks; eauto. }
  exists m', st', hp', ev', (fun n f => exists b, R n b /\ Q b f), blks'.
  split; [exact E|]. split; [split; auto|]. split; [auto|]. split; [exact SG'|].
  split; [|split; [exact ROOM|]].
  - rewrite PM, PERM. rewrite <- app_assoc. apply Permutation_app_head. apply Permutation_app_comm.
  - (* which areas *)
    clear - E Rd. unfold cxm_hgc in E.
    destruct Rd as [(-> & -> & ->)|(E1 & E2 & WF)].
    + cbn [g_heap g_hmask g_heap2 g_hmask2 g_hsize] in *. change (0 =? 0) with true in E. cbn [negb] in E.
      destruct (0 <? needs).
      * destruct (grow_size fuel HEAP_SIZE needs) eqn:G; [|discriminate]. right.
        assert (exists j, 0 <= j /\ z = 2 ^ j).
        { clear - G. assert (X : exists k, 0 <= k /\ HEAP_SIZE = 2 ^ k) by (exists 17; split; [lia|reflexivity]).
          revert X G. generalize HEAP_SIZE. induction fuel as [|f IH]; intros s X G; [discriminate|].
          cbn [grow_size] in G. destruct (s <? needs).
          - apply (IH (s * 2)); auto. destruct X as (k & Hk & ->). exists (k + 1). split; [lia|].
            rewrite Z.pow_add_r by lia. reflexivity.
          - injection G as <-. auto. }
        destruct H as (j & Hj & ->). injection E as <- <- <- <-. cbn [g_heap g_hmask g_heap2 g_hmask2 g_hsize].
        exists j. auto.
      * injection E as <- <- <- <-. left. auto.
    + destruct st as [h1 mm1 h2 mm2 hs]. cbn [g_heap g_hmask g_heap2 g_hmask2 g_hsize] in *.
      destruct (if negb (h1 =? 0) then _ else _) as [[[[[mx hpx] evx] nx]|]|]; try discriminate.
      destruct (hs <? nx).
      * destruct (grow_size fuel HEAP_SIZE nx) eqn:G; [|discriminate]. right.
        assert (exists j, 0 <= j /\ z = 2 ^ j).
        { clear - G. assert (X : exists k, 0 <= k /\ HEAP_SIZE = 2 ^ k) by (exists 17; split; [lia|reflexivity]).
          revert X G. generalize HEAP_SIZE. induction fuel as [|f IH]; intros s X G; [discriminate|].
          cbn [grow_size] in G. destruct (s <? nx).
          - apply (IH (s * 2)); auto. destruct X as (k & Hk & ->). exists (k + 1). split; [lia|].
            rewrite Z.pow_add_r by lia. reflexivity.
          - injection G as <-. auto. }
        destruct H as (j & Hj & ->).
        destruct (if negb (h2 =? 0) then _ else _) as [[[[my hpy] evy]|]|]; try discriminate.
        injection E as <- <- <- <-. cbn [g_heap g_hmask g_heap2 g_hmask2 g_hsize]. exists j. auto.
      * injection E as <- <- <- <-. left. auto.
Qed.

(** the state after [hreserve] *)
Lemma sim_hreserve cells a st m hp ev fuel na nb needs :
  sim cells a (mkc st m hp ev) -> 0 < needs ->
  HEAP_SIZE + 2 * needs + 4 * g_hsize st < Z.of_nat fuel ->
  (forall blks, gc_ready st m hp cells blks -> alloc_ok st m cells blks na nb) ->
  exists m' st' hp' ev' (R : nat -> Z -> Prop) blks',
    hreserve fuel na nb st m cells hp needs = Some (Val (m', st', hp', ev')) /\
    live st' m' hp' cells blks' /\
    (forall n b, R n b -> In b blks') /\
    sim_graph R cells a m' (g_heap st') (g_hsize st') /\
    Permutation (a_natives (a_heap a)) (natives m' blks' ++ ev ++ ev') /\
    g_heap st' + 8 * needs <= hp' /\
    ((g_heap st' = g_heap2 st /\ g_heap2 st' = g_heap st /\ g_hsize st' = g_hsize st) \/
     (g_heap st' = g_heap st /\ g_heap2 st' = g_heap2 st /\ g_hsize st' = g_hsize st) \/
     (exists k, 0 <= k /\ g_hsize st' = 2 ^ k /\
       g_heap st' = na (g_hsize st') /\ g_heap2 st' = nb (g_hsize st'))).
Proof.
  intros S Hn Hf HA. unfold hreserve. destruct (hp <? g_heap st + 8 * needs) eqn:E.
  - destruct (sim_gc _ _ _ _ _ _ _ _ _ _ S Hn Hf HA)
      as (m' & st' & hp' & ev' & R & blks' & X1 & X2 & X3 & X4 & X5 & X6 & X7).
    exists m', st', hp', ev', R, blks'. repeat (split; [assumption|]). tauto.
  - apply Z.ltb_ge in E. destruct S as (R & blks & Rd & Rb & SG & PM). cbn [c_gc c_mem c_hp c_ev] in *.
    exists m, st, hp, [], R, blks.
    destruct Rd as [(-> & -> & ->)|(E1 & E2 & WF)]; [cbn [g_heap] in E; lia|].
    split; [reflexivity|]. split; [split; auto|]. split; [auto|]. split; [auto|].
    split; [rewrite app_nil_r; auto|]. split; [auto|]. right; left. auto.
Qed.

(** ** root and field writes *)
Lemma existsb_in c cells : existsb (Z.eqb c) cells = true -> In c cells.
Proof. rewrite existsb_exists. intros (x & Hx & E). apply Z.eqb_eq in E. congruence. Qed.

Lemma vrel_word_ok (R : nat -> Z -> Prop) m h1 s1 h2 s2 hp cells blks v w :
  heap_wf m h1 s1 h2 s2 hp cells blks -> (forall n b, R n b -> In b blks) ->
  vrel R h1 s1 v w -> (forall x, v = AW x -> ~ isptr x h2 s2) -> word_ok h1 s1 h2 s2 blks w.
Proof.
  intros WF Rb Hv Hx. destruct v as [x|n]; cbn [vrel] in Hv.
  - destruct Hv as [-> Hv]. split; [intros C; contradiction|auto].
  - destruct Hv as [Hv1 Hv2]. split; [intros _; eauto|].
    intros [C _]. destruct Hv1 as [C1 _]. pose proof (wf_disj _ _ _ _ _ _ _ _ WF).
    unfold in_area in *. lia.
Qed.

(** natives are unaffected by writes that are not to native blocks or headers *)
Lemma natives_ext (m m' : mem) l : (forall b, In b l -> m' b = m b) ->
  (forall b, In b l -> native (m b) = true -> m' (b + 8) = m (b + 8)) -> natives m' l = natives m l.
Proof.
  induction l as [|b l IH]; intros A B; [reflexivity|]. unfold natives in *. cbn [filter].
  rewrite (A b) by (left; auto).
  specialize (IH ltac:(intros; apply A; right; auto) ltac:(intros; apply B; auto; right; auto)).
  destruct (native (m b)) eqn:E; auto. cbn [map]. rewrite IH, (A b), (B b); auto; left; auto.
Qed.

(** writing a root cell *)
Lemma sim_root_write (R : nat -> Z -> Prop) cells a st m hp ev blks c v w :
  live st m hp cells blks -> (forall n b, R n b -> In b blks) ->
  sim_graph R cells a m (g_heap st) (g_hsize st) ->
  Permutation (a_natives (a_heap a)) (natives m blks ++ ev) ->
  In c cells -> vrel R (g_heap st) (g_hsize st) v w ->
  word_ok (g_heap st) (g_hsize st) (g_heap2 st) (g_hsize st) blks w ->
  sim cells (mka (aupd (a_root a) c v) (a_heap a)) (mkc st (upd m c w) hp ev).
Proof.
  intros (E1 & E2 & WF) Rb (S1 & S2 & S3 & S4) PM Hc Hv Hw.
  assert (Eout : forall b i, In b blks -> 0 <= i <= blen (m b) -> upd m c w (b + 8 * i) = m (b + 8 * i)).
  { intros b i Hb Hi. apply upd_other. intros C.
    apply (proj1 (wf_cells _ _ _ _ _ _ _ _ WF c Hc)). rewrite <- C. eapply blk_in_area; eauto. }
  assert (Eout0 : forall b, In b blks -> upd m c w b = m b).
  { intros b Hb. pose proof (blen_nn _ _ _ _ _ _ _ _ b WF Hb).
    specialize (Eout b 0 Hb ltac:(lia)). replace (b + 8 * 0) with b in Eout by lia. auto. }
  assert (Eout1 : forall b, In b blks -> upd m c w (b + 8) = m (b + 8)).
  { intros b Hb. pose proof (blen_nn _ _ _ _ _ _ _ _ b WF Hb).
    specialize (Eout b 1 Hb ltac:(lia)). replace (b + 8 * 1) with (b + 8) in Eout by lia. auto. }
  exists R, blks. cbn [c_gc c_mem c_hp c_ev a_root a_heap]. split; [|split; [auto|split]].
  - right. split; auto. split; auto. apply write_ok; auto.
  - split; [auto|]. split; [auto|]. split.
    + intros c' Hc'. cbn [a_root]. unfold aupd, upd. destruct (c' =? c); auto.
    + intros n b Hr. destruct (S4 n b Hr) as (o & Ho & Hor). exists o. split; auto.
      pose proof (Rb _ _ Hr) as Hb.
      destruct o as [fs|t p]; cbn [orel] in *; rewrite Eout0 by auto.
      * destruct Hor as (X1 & X2 & X3). split; auto. split; auto.
        intros i u Hi. assert (i < length fs)%nat by (apply nth_error_Some; congruence).
        replace (b + 8 + 8 * Z.of_nat i) with (b + 8 * (Z.of_nat i + 1)) by lia.
        rewrite Eout by (auto; lia).
        replace (b + 8 * (Z.of_nat i + 1)) with (b + 8 + 8 * Z.of_nat i) by lia. auto.
      * rewrite Eout1 by auto. auto.
  - rewrite PM. apply Permutation_app_tail. rewrite (natives_ext m (upd m c w)); auto.
Qed.

Lemma set_nth_same {A} (l : list A) n v : (n < length l)%nat -> nth_error (set_nth l n v) n = Some v.
Proof.
  revert n. induction l as [|x l IH]; intros n H; [cbn in H; lia|].
  destruct n as [|n]; cbn; auto. apply IH. cbn in H. lia.
Qed.
Lemma set_nth_other {A} (l : list A) n k v : k <> n -> nth_error (set_nth l n v) k = nth_error l k.
Proof.
  revert n k. induction l as [|x l IH]; intros n k H; [reflexivity|].
  destruct n as [|n], k as [|k]; cbn; auto; congruence.
Qed.
Lemma set_nth_length {A} (l : list A) n v : length (set_nth l n v) = length l.
Proof. revert n. induction l as [|x l IH]; intros [|n]; cbn; auto. Qed.

Lemma a_natives_app h h' : a_natives (h ++ h') = a_natives h ++ a_natives h'.
Proof. unfold a_natives. apply flat_map_app. Qed.

Lemma a_natives_set h n fs fs' : nth_error h n = Some (ABlk fs) ->
  a_natives (set_nth h n (ABlk fs')) = a_natives h.
Proof.
  revert n. induction h as [|x h IH]; intros n E; [reflexivity|].
  destruct n as [|n]; cbn in E.
  - injection E as ->. reflexivity.
  - unfold a_natives in *. cbn [set_nth flat_map]. rewrite IH; auto.
Qed.

(** one step *)
Lemma live_of_graph st m hp cells blks a (R : nat -> Z -> Prop) c n :
  gc_ready st m hp cells blks -> sim_graph R cells a m (g_heap st) (g_hsize st) ->
  In c cells -> a_root a c = AP n -> live st m hp cells blks.
Proof.
  intros [(-> & -> & ->)|H] (S1 & S2 & S3 & S4) Hc E; [|exact H].
  specialize (S3 c Hc). rewrite E in S3. cbn [vrel g_heap g_hsize] in S3.
  destruct S3 as [[C _] _]. unfold in_area in C. lia.
Qed.

(** before the first collection all roots are plain words and no area exists *)
Lemma sim_root_write0 cells a m hp ev (R : nat -> Z -> Prop) c v w :
  sim_graph R cells a m 0 0 -> Permutation (a_natives (a_heap a)) (natives m [] ++ ev) ->
  (forall n b, R n b -> In b []) -> hp = 0 ->
  In c cells -> vrel R 0 0 v w ->
  sim cells (mka (aupd (a_root a) c v) (a_heap a)) (mkc (mkgc 0 0 0 0 0) (upd m c w) hp ev).
Proof.
  intros (S1 & S2 & S3 & S4) PM Rb -> Hc Hv. exists R, [].
  cbn [c_gc c_mem c_hp c_ev a_root a_heap g_heap g_hsize].
  split; [left; auto|]. split; [auto|]. split; [|exact PM].
  split; [auto|]. split; [auto|]. split.
  - intros c' Hc'. cbn [a_root]. unfold aupd, upd. destruct (c' =? c); auto.
  - intros n b Hr. destruct (Rb n b Hr).
Qed.

Lemma sim_step cells a c o fuel na nb a' :
  sim cells a c -> astep cells a o = Some a' -> step_ok cells c o fuel na nb ->
  exists c', cstep fuel na nb cells c o = Some (Val c') /\ sim cells a' c'.
Proof.
  destruct c as [st m hp ev]. intros S HA (Hf & HAO & Hside).
  cbn [c_gc c_mem c_hp c_ev] in *.
  destruct o as [c w|c c'|c c' i|c i c'|c cs|c t p]; cbn [astep op_needs] in *.
  - (* OImm *)
    destruct (existsb (Z.eqb c) cells) eqn:Ec; [|discriminate]. injection HA as <-.
    apply existsb_in in Ec. eexists. split; [reflexivity|]. cbn [c_gc c_mem c_hp c_ev].
    destruct S as (R & blks & Rd & Rb & SG & PM). cbn [c_gc c_mem c_hp c_ev] in *.
    destruct Hside as [O1 O2].
    destruct Rd as [(-> & -> & ->)|L].
    + cbn [g_heap g_hsize] in *. eapply sim_root_write0; eauto. cbn [vrel]. auto.
    + eapply sim_root_write; eauto; [cbn [vrel]; auto|split; [intros C; contradiction|auto]].
  - (* OMove *)
    destruct (existsb (Z.eqb c) cells) eqn:Ec; [|discriminate].
    destruct (existsb (Z.eqb c') cells) eqn:Ec'; [|discriminate]. injection HA as <-.
    apply existsb_in in Ec, Ec'. eexists. split; [reflexivity|]. cbn [c_gc c_mem c_hp c_ev].
    destruct S as (R & blks & Rd & Rb & SG & PM). cbn [c_gc c_mem c_hp c_ev] in *.
    pose proof (proj1 (proj2 (proj2 SG)) c' Ec') as Hv.
    destruct Rd as [(-> & -> & ->)|L].
    + cbn [g_heap g_hsize] in *. eapply sim_root_write0; eauto.
    + eapply sim_root_write; eauto. destruct L as (_ & _ & WF).
      apply (wf_roots _ _ _ _ _ _ _ _ WF); auto.
  - (* OLoad *)
    destruct (existsb (Z.eqb c) cells) eqn:Ec; [|discriminate].
    destruct (existsb (Z.eqb c') cells) eqn:Ec'; [|discriminate].
    destruct (0 <=? i) eqn:Ei; [|discriminate]. cbn [andb] in HA. apply Z.leb_le in Ei.
    apply existsb_in in Ec, Ec'.
    destruct (a_root a c') as [|n] eqn:Er; [discriminate|].
    destruct (nth_error (a_heap a) n) as [[fs|]|] eqn:En; try discriminate.
    destruct (nth_error fs (Z.to_nat i)) as [v|] eqn:Ef; [|discriminate]. injection HA as <-.
    eexists. split; [reflexivity|]. cbn [c_gc c_mem c_hp c_ev].
    destruct S as (R & blks & Rd & Rb & SG & PM). cbn [c_gc c_mem c_hp c_ev] in *.
    pose proof (live_of_graph _ _ _ _ _ _ _ _ _ Rd SG Ec' Er) as L.
    pose proof SG as (S1 & S2 & S3 & S4). specialize (S3 c' Ec'). rewrite Er in S3. cbn [vrel] in S3.
    destruct S3 as [P1 P2]. destruct (S4 n _ P2) as (o & Eo & Ho). rewrite En in Eo. injection Eo as <-.
    cbn [orel] in Ho. destruct Ho as (X1 & X2 & X3). specialize (X3 _ _ Ef).
    replace (m c' - 8 + 8 + 8 * Z.of_nat (Z.to_nat i)) with (m c' + 8 * i) in X3 by lia.
    eapply sim_root_write; eauto.
    destruct L as (_ & _ & WF).
    assert (Z.to_nat i < length fs)%nat by (apply nth_error_Some; congruence).
    replace (m c' + 8 * i) with (m c' - 8 + 8 * (i + 1)) by lia.
    apply (wf_words _ _ _ _ _ _ _ _ WF); [eauto|lia].
  - (* OStore *)
    destruct (existsb (Z.eqb c) cells) eqn:Ec; [|discriminate].
    destruct (existsb (Z.eqb c') cells) eqn:Ec'; [|discriminate].
    destruct (0 <=? i) eqn:Ei; [|discriminate]. cbn [andb] in HA. apply Z.leb_le in Ei.
    apply existsb_in in Ec, Ec'.
    destruct (a_root a c) as [|n] eqn:Er; [discriminate|].
    destruct (nth_error (a_heap a) n) as [[fs|]|] eqn:En; try discriminate.
    destruct (Z.to_nat i <? length fs)%nat eqn:Ef; [|discriminate]. injection HA as <-.
    apply Nat.ltb_lt in Ef.
    eexists. split; [reflexivity|]. cbn [c_gc c_mem c_hp c_ev].
    destruct S as (R & blks & Rd & Rb & SG & PM). cbn [c_gc c_mem c_hp c_ev] in *.
    pose proof (live_of_graph _ _ _ _ _ _ _ _ _ Rd SG Ec Er) as L.
    pose proof SG as (S1 & S2 & S3 & S4). pose proof (S3 c Ec) as P. rewrite Er in P. cbn [vrel] in P.
    destruct P as [P1 P2]. destruct (S4 n _ P2) as (o & Eo & Ho). rewrite En in Eo. injection Eo as <-.
    cbn [orel] in Ho. destruct Ho as (X1 & X2 & X3).
    destruct L as (E1 & E2 & WF).
    set (b := m c - 8) in *. pose proof (Rb _ _ P2) as Hb.
    replace (m c + 8 * i) with (b + 8 * (i + 1)) by (unfold b; lia).
    set (ad := b + 8 * (i + 1)).
    assert (Had : in_area ad (g_heap st) (g_hsize st)).
    { eapply blk_in_area; eauto. lia. }
    assert (Hcell : forall x, In x cells -> upd m ad (m c') x = m x).
    { intros x Hx. apply upd_other. intros C. apply (proj1 (wf_cells _ _ _ _ _ _ _ _ WF x Hx)). congruence. }
    assert (Hoth : forall b' j, In b' blks -> 0 <= j <= blen (m b') -> (b' <> b \/ j <> i + 1) ->
       upd m ad (m c') (b' + 8 * j) = m (b' + 8 * j)).
    { intros b' j Hb' Hj Hne. apply upd_other. unfold ad. intros C.
      destruct (Z.lt_trichotomy b b') as [Q|[Q|Q]].
      - pose proof (blk_apart _ _ _ _ _ _ _ _ WF b b' Hb Hb' Q). lia.
      - lia.
      - pose proof (blk_apart _ _ _ _ _ _ _ _ WF b' b Hb' Hb Q). lia. }
    assert (Hhd : forall b', In b' blks -> upd m ad (m c') b' = m b').
    { intros b' Hb'. pose proof (blen_nn _ _ _ _ _ _ _ _ b' WF Hb').
      specialize (Hoth b' 0 Hb' ltac:(lia) ltac:(lia)). replace (b' + 8 * 0) with b' in Hoth by lia. auto. }
    exists R, blks. cbn [c_gc c_mem c_hp c_ev a_root a_heap]. split; [|split; [auto|split]].
    + right. split; auto. split; auto. apply write_ok; auto.
      * apply (wf_roots _ _ _ _ _ _ _ _ WF); auto.
      * right. exists b, (i + 1). repeat split; auto; lia.
    + split; [auto|]. split; [auto|]. split.
      * intros x Hx. cbn [a_root]. rewrite Hcell by auto. auto.
      * intros n' b' Hr. pose proof (Rb _ _ Hr) as Hb'. cbn [a_heap].
        destruct (S4 n' b' Hr) as (o & Eo & Ho).
        destruct (Nat.eq_dec n' n) as [->|Hne].
        -- rewrite set_nth_same by (apply nth_error_Some; congruence).
           eexists. split; [reflexivity|]. cbn [orel].
           assert (b' = b) by (eapply S1; eauto). subst b'.
           rewrite Hhd by auto. split; auto. rewrite set_nth_length. split; auto.
           intros j v Hj. assert (j < length fs)%nat.
           { rewrite <- (set_nth_length fs (Z.to_nat i) (a_root a c')). apply nth_error_Some. congruence. }
           destruct (Nat.eq_dec j (Z.to_nat i)) as [->|Hnj].
           ++ rewrite set_nth_same in Hj by auto. injection Hj as <-.
              replace (b + 8 + 8 * Z.of_nat (Z.to_nat i)) with ad by (unfold ad; lia).
              rewrite upd_same. auto.
           ++ rewrite set_nth_other in Hj by auto.
              replace (b + 8 + 8 * Z.of_nat j) with (b + 8 * (Z.of_nat j + 1)) by lia.
              rewrite Hoth by (auto; lia).
              replace (b + 8 * (Z.of_nat j + 1)) with (b + 8 + 8 * Z.of_nat j) by lia. auto.
        -- rewrite set_nth_other by auto. exists o. split; auto.
           assert (b' <> b) by (intros ->; apply Hne; eapply S2; eauto).
           destruct o as [fs'|t p]; cbn [orel] in *; rewrite Hhd by auto.
           ++ destruct Ho as (Y1 & Y2 & Y3). split; auto. split; auto. intros j v Hj.
              assert (j < length fs')%nat by (apply nth_error_Some; congruence).
              replace (b' + 8 + 8 * Z.of_nat j) with (b' + 8 * (Z.of_nat j + 1)) by lia.
              rewrite Hoth by (auto; lia).
              replace (b' + 8 * (Z.of_nat j + 1)) with (b' + 8 + 8 * Z.of_nat j) by lia. auto.
           ++ pose proof (blen_nn _ _ _ _ _ _ _ _ b' WF Hb').
              specialize (Hoth b' 1 Hb' ltac:(lia) ltac:(lia)).
              replace (b' + 8 * 1) with (b' + 8) in Hoth by lia. rewrite Hoth. auto.
    + rewrite (a_natives_set _ _ fs) by auto. rewrite PM. apply Permutation_app_tail.
      rewrite (natives_ext m (upd m ad (m c'))); auto.
      intros b' Hb' Hn. pose proof (blen_nn _ _ _ _ _ _ _ _ b' WF Hb').
      specialize (Hoth b' 1 Hb' ltac:(lia)).
      replace (b' + 8 * 1) with (b' + 8) in Hoth by lia. apply Hoth.
      left. intros ->. congruence.
  - (* OAlloc *)
    destruct (existsb (Z.eqb c) cells) eqn:Ec; [|discriminate].
    destruct (forallb (fun c => existsb (Z.eqb c) cells) cs) eqn:Ecs; [|discriminate].
    destruct (length cs =? 0)%nat eqn:El; [discriminate|]. cbn [andb negb] in HA. injection HA as <-.
    apply existsb_in in Ec. rewrite forallb_forall in Ecs. apply Nat.eqb_neq in El.
    assert (Ics : forall x, In x cs -> In x cells) by (intros x Hx; apply existsb_in, Ecs; auto).
    unfold cstep, with_room. cbn [c_gc c_mem c_hp c_ev].
    destruct (sim_hreserve _ _ _ _ _ _ fuel na nb (1 + Z.of_nat (length cs)) S ltac:(lia) Hf (HAO ltac:(lia)))
      as (m1 & st1 & hp1 & ev1 & R & blks & E & (L1 & L2 & WF) & Rb & SG & PM & ROOM & _).
    rewrite E. cbn [c_gc c_mem c_hp c_ev].
    pose proof SG as (S1 & S2 & S3 & S4).
    destruct (alloc_block_ok m1 (g_heap st1) (g_hsize st1) (g_heap2 st1) (g_hsize st1) hp1 cells blks
                (rev (map m1 cs)) WF) as (m2 & hp2 & o & Ea & Ehp & Eo & WF2 & Hl & Hnn & Hfld & Hfr).
    { rewrite rev_length, map_length. lia. }
    { rewrite rev_length, map_length. lia. }
    { intros v Hv. apply in_rev in Hv. apply in_map_iff in Hv. destruct Hv as (x & <- & Hx).
      apply (wf_roots _ _ _ _ _ _ _ _ WF); auto. }
    rewrite Ea. rewrite rev_length, map_length in *. rewrite rev_involutive in Hfld.
    eexists. split; [reflexivity|].
    assert (Hold : forall b, In b blks -> hp1 <= b).
    { intros b Hb. destruct (blocks_le m1 (g_heap st1 + 8 * g_hsize st1) blks hp1) as (_ & _ & Q).
      - intros x Hx. pose proof (blen_nn _ _ _ _ _ _ _ _ x WF Hx). lia.
      - apply WF.
      - apply (Q b Hb). }
    set (N := length (a_heap a)).
    set (R' := fun n b => R n b \/ (n = N /\ b = hp2)).
    assert (HN : forall b, ~ R N b).
    { intros b Hr. destruct (S4 N b Hr) as (o' & Eo' & _).
      assert (N < length (a_heap a))%nat by (apply nth_error_Some; congruence). unfold N in *. lia. }
    assert (H2 : forall n, ~ R n hp2).
    { intros n Hr. apply Rb in Hr. apply Hold in Hr. lia. }
    assert (Vm : forall v w, vrel R (g_heap st1) (g_hsize st1) v w ->
                             vrel R' (g_heap st1) (g_hsize st1) v w).
    { intros [x|n] w; cbn [vrel]; auto. intros [A B]. split; auto. left. auto. }
    assert (Hc2 : forall x, In x cells -> m2 x = m1 x).
    { intros x Hx. apply Hfr. intros C.
      apply (proj1 (wf_cells _ _ _ _ _ _ _ _ WF x Hx)).
      pose proof (wf_hp _ _ _ _ _ _ _ _ WF2).
      destruct (blocks_le m1 (g_heap st1 + 8 * g_hsize st1) blks hp1) as (Q & _).
      - intros y Hy. pose proof (blen_nn _ _ _ _ _ _ _ _ y WF Hy). lia.
      - apply WF.
      - unfold in_area. lia. }
    assert (SG2 : sim_graph R' cells (mka (a_root a) (a_heap a ++ [ABlk (map (a_root a) cs)]))
                    m2 (g_heap st1) (g_hsize st1)).
    { split; [|split; [|split]].
      - intros n b b' [A|[A B]] [A'|[A' B']]; subst; eauto; exfalso; eapply HN; eauto.
      - intros n n' b [A|[A B]] [A'|[A' B']]; subst; eauto; exfalso; eapply H2; eauto.
      - intros x Hx. cbn [a_root]. rewrite Hc2 by auto. apply Vm. auto.
      - intros n b [Hr|[-> ->]]; cbn [a_heap].
        + destruct (S4 n b Hr) as (o' & Eo' & Ho'). exists o'.
          split; [rewrite nth_error_app1; auto; apply nth_error_Some; congruence|].
          pose proof (Hold b (Rb _ _ Hr)) as Hob.
          destruct o' as [fs|t p]; cbn [orel] in *; rewrite (Hfr b) by lia.
          * destruct Ho' as (Y1 & Y2 & Y3). split; auto. split; auto.
            intros j v Hj. rewrite Hfr by lia. apply Vm. auto.
          * rewrite (Hfr (b + 8)) by lia. auto.
        + exists (ABlk (map (a_root a) cs)).
          split; [rewrite nth_error_app2 by (unfold N; lia); unfold N; rewrite Nat.sub_diag; reflexivity|].
          cbn [orel]. split; auto. rewrite map_length. split; [auto|].
          intros j v Hj. assert (Hjl : (j < length cs)%nat).
          { rewrite <- (map_length (a_root a)). apply nth_error_Some. congruence. }
          rewrite nth_error_map in Hj. destruct (nth_error cs j) as [x|] eqn:Ex; [|discriminate].
          cbn [option_map] in Hj. injection Hj as <-.
          rewrite <- Eo. rewrite Hfld by auto.
          rewrite (nth_indep _ 0 (m1 x)) by (rewrite map_length; auto).
          rewrite map_nth. rewrite (nth_error_nth _ _ x Ex).
          apply Vm. apply S3. apply Ics. eapply nth_error_In; eauto. }
    assert (Hptr : isptr o (g_heap st1) (g_hsize st1)).
    { rewrite Eo. eapply isptr_blk; eauto. left; auto. }
    apply (sim_root_write R' cells (mka (a_root a) (a_heap a ++ [ABlk (map (a_root a) cs)]))
             st1 m2 hp2 (ev ++ ev1) (hp2 :: blks) c (AP N) o); auto.
    + split; auto.
    + intros n b [Hr|[_ ->]]; [right; eauto|left; auto].
    + cbn [a_heap]. rewrite a_natives_app. cbn [a_natives flat_map app]. rewrite app_nil_r, PM.
      apply Permutation_app_tail. unfold natives at 2. cbn [filter]. rewrite Hnn.
      fold (natives m2 blks). rewrite (natives_ext m1 m2); auto.
      * intros b Hb. apply Hfr. apply Hold in Hb. lia.
      * intros b Hb _. apply Hfr. apply Hold in Hb. lia.
    + cbn [vrel]. split; auto. right. split; auto. lia.
    + split; [intros _; left; lia|]. intros [C _]. destruct Hptr as [C' _].
      pose proof (wf_disj _ _ _ _ _ _ _ _ WF). unfold in_area in *. lia.
  - (* ONative *)
    destruct (existsb (Z.eqb c) cells) eqn:Ec; [|discriminate]. injection HA as <-.
    apply existsb_in in Ec. destruct Hside as (Ht & Ht0 & Hside).
    unfold cstep, with_room. cbn [c_gc c_mem c_hp c_ev].
    destruct (sim_hreserve _ _ _ _ _ _ fuel na nb 2 S ltac:(lia) Hf (HAO ltac:(lia)))
      as (m1 & st1 & hp1 & ev1 & R & blks & E & (L1 & L2 & WF) & Rb & SG & PM & ROOM & AR).
    rewrite E. cbn [c_gc c_mem c_hp c_ev].
    pose proof SG as (S1 & S2 & S3 & S4).
    assert (Hodd : Z.odd t = false).
    { pose proof (Zmod_odd t) as X. destruct (Z.odd t); [|reflexivity]. lia. }
    assert (OUT : ~ isptr t (g_heap st1) (g_hsize st1) /\ ~ isptr t (g_heap2 st1) (g_hsize st1) /\
                  ~ isptr p (g_heap st1) (g_hsize st1) /\ ~ isptr p (g_heap2 st1) (g_hsize st1)).
    { destruct AR as [(-> & -> & ->)|[(-> & -> & ->)|(k & Hk & Es & -> & ->)]].
      - destruct (Hside 1 0 ltac:(lia) eq_refl) as ((A & B) & (C & D) & _). auto.
      - destruct (Hside 1 0 ltac:(lia) eq_refl) as ((A & B) & (C & D) & _). auto.
      - destruct (Hside _ k Hk Es) as (_ & _ & A & B & C & D). auto. }
    destruct OUT as (O1 & O2 & O3 & O4).
    destruct (alloc_native_ok m1 (g_heap st1) (g_hsize st1) (g_heap2 st1) (g_hsize st1) hp1 cells blks p t WF)
      as (m2 & hp2 & o & Ea & Ehp & Eo & Hm0 & Hm1 & WF2 & Hfr); auto.
    { intros C. apply O1. split; auto. }
    { intros C. apply O2. split; auto. }
    rewrite Ea. eexists. split; [reflexivity|].
    assert (Hnat : native (m2 hp2) = true).
    { rewrite Hm0. unfold native. rewrite <- Z.negb_odd, Hodd. reflexivity. }
    assert (Hold : forall b, In b blks -> hp1 <= b).
    { intros b Hb. destruct (blocks_le m1 (g_heap st1 + 8 * g_hsize st1) blks hp1) as (_ & _ & Q).
      - intros x Hx. pose proof (blen_nn _ _ _ _ _ _ _ _ x WF Hx). lia.
      - apply WF.
      - apply (Q b Hb). }
    set (N := length (a_heap a)).
    set (R' := fun n b => R n b \/ (n = N /\ b = hp2)).
    assert (HN : forall b, ~ R N b).
    { intros b Hr. destruct (S4 N b Hr) as (o' & Eo' & _).
      assert (N < length (a_heap a))%nat by (apply nth_error_Some; congruence). unfold N in *. lia. }
    assert (H2 : forall n, ~ R n hp2).
    { intros n Hr. apply Rb in Hr. apply Hold in Hr. lia. }
    assert (Vm : forall v w, vrel R (g_heap st1) (g_hsize st1) v w ->
                             vrel R' (g_heap st1) (g_hsize st1) v w).
    { intros [x|n] w; cbn [vrel]; auto. intros [A B]. split; auto. left. auto. }
    assert (Hc2 : forall x, In x cells -> m2 x = m1 x).
    { intros x Hx. apply Hfr. intros C.
      apply (proj1 (wf_cells _ _ _ _ _ _ _ _ WF x Hx)).
      pose proof (wf_hp _ _ _ _ _ _ _ _ WF2).
      destruct (blocks_le m1 (g_heap st1 + 8 * g_hsize st1) blks hp1) as (Q & _).
      - intros y Hy. pose proof (blen_nn _ _ _ _ _ _ _ _ y WF Hy). lia.
      - apply WF.
      - unfold in_area. lia. }
    assert (SG2 : sim_graph R' cells (mka (a_root a) (a_heap a ++ [ANat t p]))
                    m2 (g_heap st1) (g_hsize st1)).
    { split; [|split; [|split]].
      - intros n b b' [A|[A B]] [A'|[A' B']]; subst; eauto; exfalso; eapply HN; eauto.
      - intros n n' b [A|[A B]] [A'|[A' B']]; subst; eauto; exfalso; eapply H2; eauto.
      - intros x Hx. cbn [a_root]. rewrite Hc2 by auto. apply Vm. auto.
      - intros n b [Hr|[-> ->]]; cbn [a_heap].
        + destruct (S4 n b Hr) as (o' & Eo' & Ho'). exists o'.
          split; [rewrite nth_error_app1; auto; apply nth_error_Some; congruence|].
          pose proof (Hold b (Rb _ _ Hr)) as Hob.
          destruct o' as [fs|t' p']; cbn [orel] in *; rewrite (Hfr b) by lia.
          * destruct Ho' as (Y1 & Y2 & Y3). split; auto. split; auto.
            intros j v Hj. rewrite Hfr by lia. apply Vm. auto.
          * rewrite (Hfr (b + 8)) by lia. auto.
        + exists (ANat t p).
          split; [rewrite nth_error_app2 by (unfold N; lia); unfold N; rewrite Nat.sub_diag; reflexivity|].
          cbn [orel]. auto. }
    assert (Hptr : isptr o (g_heap st1) (g_hsize st1)).
    { rewrite Eo. eapply isptr_blk; eauto. left; auto. }
    apply (sim_root_write R' cells (mka (a_root a) (a_heap a ++ [ANat t p]))
             st1 m2 hp2 (ev ++ ev1) (hp2 :: blks) c (AP N) o); auto.
    + split; auto.
    + intros n b [Hr|[_ ->]]; [right; eauto|left; auto].
    + cbn [a_heap]. rewrite a_natives_app. cbn [a_natives flat_map app].
      rewrite PM. unfold natives at 2. cbn [filter]. rewrite Hnat. cbn [map]. rewrite Hm0, Hm1.
      fold (natives m2 blks). rewrite (natives_ext m1 m2).
      * rewrite <- app_comm_cons. symmetry. apply Permutation_cons_append.
      * intros b Hb. apply Hfr. apply Hold in Hb. lia.
      * intros b Hb _. apply Hfr. apply Hold in Hb. lia.
    + cbn [vrel]. split; auto. right. split; auto. lia.
    + split; [intros _; left; lia|]. intros [C _]. destruct Hptr as [C' _].
      pose proof (wf_disj _ _ _ _ _ _ _ _ WF). unfold in_area in *. lia.
Qed.

Lemma sim_run cells : forall l a c a', sim cells a c -> arun cells a l = Some a' ->
  run_ok cells c l -> exists c', crun cells c l = Some (Val c') /\ sim cells a' c'.
Proof.
  induction l as [|[[[o fuel] na] nb] l IH]; intros a c a' S HA HR; cbn [arun crun run_ok] in *.
  - injection HA as <-. eauto.
  - destruct (astep cells a o) as [a1|] eqn:E; [|discriminate].
    destruct HR as [H1 H2].
    destruct (sim_step cells a c o fuel na nb a1 S E H1) as (c1 & Ec & S1).
    rewrite Ec. eapply IH; eauto.
Qed.

(** ** starting point and observations *)
Lemma sim_init cells m :
  sim cells (mka (fun c => AW (m c)) []) (mkc (mkgc 0 0 0 0 0) m 0 []).
Proof.
  exists (fun _ _ => False), []. cbn [c_gc c_mem c_hp c_ev a_heap a_natives flat_map].
  split; [left; auto|]. split; [tauto|]. split; [|constructor].
  split; [tauto|]. split; [tauto|]. split; [|tauto].
  intros c Hc. cbn [vrel a_root g_heap g_hsize]. split; auto.
  intros [C _]. unfold in_area in C. lia.
Qed.

Lemma sim_observe cells a c : sim cells a c ->
  (forall x w, In x cells -> a_root a x = AW w -> c_mem c x = w) /\
  (forall x y n n', In x cells -> In y cells -> a_root a x = AP n -> a_root a y = AP n' ->
     (c_mem c x = c_mem c y <-> n = n')) /\
  (forall x y w n, In x cells -> In y cells -> a_root a x = AW w -> a_root a y = AP n ->
     c_mem c x <> c_mem c y).
Proof.
  intros (R & blks & Rd & Rb & (S1 & S2 & S3 & S4) & PM). split; [|split].
  - intros x w Hx E. specialize (S3 x Hx). rewrite E in S3. apply S3.
  - intros x y n n' Hx Hy Ex Ey. pose proof (S3 x Hx) as Vx. pose proof (S3 y Hy) as Vy.
    rewrite Ex in Vx. rewrite Ey in Vy. cbn [vrel] in *. destruct Vx as [A B], Vy as [A' B'].
    split.
    + intros E. rewrite E in B. eapply S2; eauto.
    + intros <-. pose proof (S1 _ _ _ B B'). lia.
  - intros x y w n Hx Hy Ex Ey C. pose proof (S3 x Hx) as Vx. pose proof (S3 y Hy) as Vy.
    rewrite Ex in Vx. rewrite Ey in Vy. cbn [vrel] in *. destruct Vx as [A B], Vy as [A' B'].
    rewrite C in B. contradiction.
Qed.

Lemma transparent_from_start cells m l a' :
  arun cells (mka (fun c => AW (m c)) []) l = Some a' ->
  run_ok cells (mkc (mkgc 0 0 0 0 0) m 0 []) l ->
  exists c', crun cells (mkc (mkgc 0 0 0 0 0) m 0 []) l = Some (Val c') /\ sim cells a' c' /\
  (forall x w, In x cells -> a_root a' x = AW w -> c_mem c' x = w) /\
  (forall x y n n', In x cells -> In y cells -> a_root a' x = AP n -> a_root a' y = AP n' ->
     (c_mem c' x = c_mem c' y <-> n = n')).
Proof.
  intros HA HR. destruct (sim_run cells l _ _ a' (sim_init cells m) HA HR) as (c' & E & S).
  exists c'. split; auto. split; auto. destruct (sim_observe _ _ _ S) as (A & B & _). auto.
Qed.

(** natives that are reachable sit in the heap in distinct blocks *)
Lemma reach_R cells a (R : nat -> Z -> Prop) m h s n :
  sim_graph R cells a m h s -> areach cells a n -> exists b, R n b.
Proof.
  intros (S1 & S2 & S3 & S4). induction 1 as [c n Hc E|n fs n' Hr IH E Hin].
  - specialize (S3 c Hc). rewrite E in S3. cbn [vrel] in S3. destruct S3. eauto.
  - destruct IH as (b & Hb). destruct (S4 n b Hb) as (o & Eo & Ho). rewrite E in Eo. injection Eo as <-.
    cbn [orel] in Ho. destruct Ho as (_ & _ & X). apply In_nth_error in Hin. destruct Hin as (i & Hi).
    specialize (X i _ Hi). cbn [vrel] in X. destruct X. eauto.
Qed.

Lemma run_finalizers cells m l a' :
  arun cells (mka (fun c => AW (m c)) []) l = Some a' ->
  run_ok cells (mkc (mkgc 0 0 0 0 0) m 0 []) l ->
  exists c' blks (at_ : nat -> Z -> Prop),
    crun cells (mkc (mkgc 0 0 0 0 0) m 0 []) l = Some (Val c') /\
    NoDup blks /\
    Permutation (a_natives (a_heap a')) (natives (c_mem c') blks ++ c_ev c') /\
    (forall n n' b, at_ n b -> at_ n' b -> n = n') /\
    (forall n t p, areach cells a' n -> nth_error (a_heap a') n = Some (ANat t p) ->
       exists b, at_ n b /\ In b blks /\ c_mem c' b = t /\ c_mem c' (b + 8) = p).
Proof.
  intros HA HR. destruct (sim_run cells l _ _ a' (sim_init cells m) HA HR) as (c' & E & S).
  destruct S as (R & blks & Rd & Rb & SG & PM).
  exists c', blks, R. split; auto. split; [|split; [auto|split]].
  - destruct Rd as [(_ & _ & ->)|(_ & _ & WF)]; [constructor|eapply blk_nodup; eauto].
  - apply SG.
  - intros n t p Hr En. destruct (reach_R _ _ _ _ _ _ _ SG Hr) as (b & Hb). exists b.
    split; auto. split; [eauto|]. destruct SG as (_ & _ & _ & S4).
    destruct (S4 n b Hb) as (o & Eo & Ho). rewrite En in Eo. injection Eo as <-. cbn [orel] in Ho. tauto.
Qed.

(** ** statement lemmas for single collections *)
Lemma collection_ok fuel na nb st m cells blks hp needs :
  gc_ready st m hp cells blks -> alloc_ok st m cells blks na nb -> 0 < needs ->
  HEAP_SIZE + 2 * needs + 4 * g_hsize st < Z.of_nat fuel ->
  exists m' st' hp' ev blks',
    cxm_hgc fuel na nb st m cells hp needs = Some (Val (m', st', hp', ev)) /\
    gc_ready st' m' hp' cells blks' /\
    heap_iso m (g_heap st) (g_hsize st) m' (g_heap st') (g_hsize st') cells blks' /\
    (forall a, ~ In a cells -> ~ in_area a (g_heap st) (g_hsize st) ->
       ~ in_area a (g_heap2 st) (g_hsize st) ->
       ~ in_area a (na (g_hsize st')) (g_hsize st') -> ~ in_area a (nb (g_hsize st')) (g_hsize st') ->
       m' a = m a).
Proof.
  intros R A N F. destruct (hgc_any _ _ _ _ _ _ _ _ _ R A N F) as (m' & st' & hp' & ev & blks' & E & dead & P).
  exists m', st', hp', ev, blks'. unfold gc_ready. intuition auto.
Qed.

Lemma collection_finalizers fuel na nb st m cells blks hp needs :
  gc_ready st m hp cells blks -> alloc_ok st m cells blks na nb -> 0 < needs ->
  HEAP_SIZE + 2 * needs + 4 * g_hsize st < Z.of_nat fuel ->
  exists m' st' hp' blks' dead,
    cxm_hgc fuel na nb st m cells hp needs = Some (Val (m', st', hp', natives m dead)) /\
    NoDup dead /\
    (forall b, In b dead <-> In b blks /\ ~ reach m (g_heap st) (g_hsize st) cells b) /\
    gc_ready st' m' hp' cells blks' /\
    Permutation (natives m blks) (natives m' blks' ++ natives m dead).
Proof.
  intros R A N F. destruct (hgc_any _ _ _ _ _ _ _ _ _ R A N F) as (m' & st' & hp' & ev & blks' & E & dead & -> & P).
  exists m', st', hp', blks', dead. unfold gc_ready. intuition auto.
Qed.

Lemma reserve_room fuel na nb st m cells blks hp n :
  gc_ready st m hp cells blks -> alloc_ok st m cells blks na nb -> 0 < n ->
  HEAP_SIZE + 2 * n + 4 * g_hsize st < Z.of_nat fuel ->
  exists m' st' hp' ev blks',
    hreserve fuel na nb st m cells hp n = Some (Val (m', st', hp', ev)) /\
    gc_ready st' m' hp' cells blks' /\
    g_heap st' + 8 * n <= hp' <= g_heap st' + 8 * g_hsize st' /\
    (hp < g_heap st + 8 * n -> 2 * words_of m' blks' + n <= g_hsize st').
Proof.
  intros R A N F. unfold hreserve. destruct (hp <? g_heap st + 8 * n) eqn:E.
  - destruct (hgc_any _ _ _ _ _ _ _ _ _ R A N F)
      as (m' & st' & hp' & ev & blks' & E' & dead & _ & _ & _ & M1 & M2 & WF & _ & _ & RM & HF & _).
    exists m', st', hp', ev, blks'. split; auto. split; [right; auto|].
    split; [split; [auto|]|auto].
    destruct (blocks_le m' (g_heap st' + 8 * g_hsize st') blks' hp') as (Q & _); auto; [|apply WF].
    intros b Hb. pose proof (blen_nn _ _ _ _ _ _ _ _ b WF Hb). lia.
  - apply Z.ltb_ge in E. exists m, st, hp, [], blks. split; auto. split; auto.
    destruct R as [(-> & -> & ->)|(_ & _ & WF)]; [cbn [g_heap] in E; lia|].
    split; [split; [auto|]|lia].
    destruct (blocks_le m (g_heap st + 8 * g_hsize st) blks hp) as (Q & _); auto; [|apply WF].
    intros b Hb. pose proof (blen_nn _ _ _ _ _ _ _ _ b WF Hb). lia.
Qed.
