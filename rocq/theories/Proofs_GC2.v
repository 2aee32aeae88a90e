From Coq Require Import ZArith Lia List Bool Permutation.
From Verif Require Import Base Model_Imm Proofs_Imm Model_GC Spec_GC Proofs_GC1.
Import ListNotations.
Open Scope Z_scope.

Lemma pair_inv (a b c d : Z) : (a, b) = (c, d) -> a = c /\ b = d.
Proof. intros H. inversion H. auto. Qed.

Section Copy.
Variables (M0 : mem) (h1 s1 h2 s2 hp0 : Z) (cells blks : list Z).
Hypothesis WF : heap_wf M0 h1 s1 h2 s2 hp0 cells blks.
Hypothesis FIT : s1 <= s2.

Let he1 := h1 + 8 * s1.
Let he2 := h2 + 8 * s2.
Let len b := blen (M0 b).
Let is1 w := isptr w h1 s1.
Let is2 w := isptr w h2 s2.

Lemma in1 w : inheap w h1 (hmask s1) = true <-> is1 w.
Proof. apply inheap_spec; [apply (wf_s1 _ _ _ _ _ _ _ _ WF)|apply (wf_h1 _ _ _ _ _ _ _ _ WF)]. Qed.
Lemma in2 w : inheap w h2 (hmask s2) = true <-> is2 w.
Proof. apply inheap_spec; [apply (wf_s2 _ _ _ _ _ _ _ _ WF)|apply (wf_h2 _ _ _ _ _ _ _ _ WF)]. Qed.

Lemma len_pos b : In b blks -> 1 <= len b.
Proof. intros H. eapply hdr_len_pos. apply (wf_hdrs _ _ _ _ _ _ _ _ WF _ H). Qed.
Lemma len_nn b : In b blks -> 0 <= blen (M0 b).
Proof. intros H. pose proof (len_pos b H). unfold len in *. lia. Qed.

Lemma blk_range b : In b blks -> h1 <= b /\ b + 8 * (1 + len b) <= he1 /\ (b - h1) mod 8 = 0.
Proof.
  intros H.
  destruct (blocks_le M0 he1 blks hp0 len_nn (wf_blocks _ _ _ _ _ _ _ _ WF)) as (A & B & C).
  destruct (C b H) as (D & E & F).
  pose proof (wf_hp _ _ _ _ _ _ _ _ WF). unfold len, he1 in *. split; [lia|]. split; [lia|].
  zdm.
Qed.

Lemma blk_sep b c : In b blks -> In c blks -> b < c -> b + 8 * (1 + len b) <= c.
Proof. apply (blocks_sep M0 he1 blks hp0 len_nn (wf_blocks _ _ _ _ _ _ _ _ WF)). Qed.

Lemma blk_nodup : NoDup blks.
Proof. apply (blocks_sorted M0 he1 blks hp0 len_nn (wf_blocks _ _ _ _ _ _ _ _ WF)). Qed.

(** to-space as a stack of copied blocks, newest first *)
Inductive tile : Z -> list (Z * Z) -> Prop :=
| tile_nil : tile he2 []
| tile_cons hp b F : tile hp F ->
    tile (hp - 8 * (1 + len b)) ((b, hp - 8 * (1 + len b)) :: F).

Lemma tile_range hp F : (forall b f, In (b, f) F -> In b blks) -> tile hp F ->
  hp <= he2 /\ (he2 - hp) mod 8 = 0 /\
  forall b f, In (b, f) F -> hp <= f /\ f + 8 * (1 + len b) <= he2 /\ (he2 - f) mod 8 = 0.
Proof.
  intros Hd H. induction H as [|hp b F H IH].
  - split; [lia|]. split; [zdm|intros ? ? []].
  - destruct IH as (A & B & C); [intros b' f' Hin; apply (Hd b' f'); right; exact Hin|].
    assert (L : 1 <= len b) by (apply len_pos; apply (Hd b (hp - 8 * (1 + len b))); left; auto).
    assert (M : (he2 - (hp - 8 * (1 + len b))) mod 8 = 0) by zdm.
    split; [lia|]. split; [exact M|].
    intros b' f' [E|Hin].
    + apply pair_inv in E; destruct E as [<- <-]. split; [lia|]. split; [lia|exact M].
    + specialize (C _ _ Hin). lia.
Qed.

Lemma tile_words hp F : tile hp F -> he2 - hp = 8 * words_of M0 (map fst F).
Proof.
  induction 1 as [|hp b F H IH]; cbn [map words_of fold_right fst]; [lia|].
  fold (words_of M0 (map fst F)). unfold len. lia.
Qed.

Lemma tile_cover hp F : (forall b f, In (b, f) F -> In b blks) -> tile hp F ->
  forall c, hp <= c < he2 -> (he2 - c) mod 8 = 0 ->
  exists b f i, In (b, f) F /\ 0 <= i <= len b /\ c = f + 8 * i.
Proof.
  intros Hd H. induction H as [|hp b F H IH]; intros c Hc Hm; [lia|].
  destruct (tile_range hp F) as (A & B & C); auto.
  { intros b' f' Hin. apply (Hd b' f'). right; exact Hin. }
  destruct (Z_lt_le_dec c hp) as [Hlt|Hge].
  - exists b, (hp - 8 * (1 + len b)), ((c - (hp - 8 * (1 + len b))) / 8).
    split; [left; auto|]. zdm.
  - destruct (IH ltac:(intros b' f' Hin; apply (Hd b' f'); right; exact Hin) c ltac:(lia) Hm)
      as (b' & f' & i & Hin & Hi & E).
    exists b', f', i. split; [right; exact Hin|]. auto.
Qed.

Lemma tile_sep hp F : (forall b f, In (b, f) F -> In b blks) -> tile hp F ->
  forall b f i b' f' i', In (b, f) F -> In (b', f') F ->
  0 <= i <= len b -> 0 <= i' <= len b' -> f + 8 * i = f' + 8 * i' -> b = b' /\ f = f' /\ i = i'.
Proof.
  intros Hd H. induction H as [|hp b0 F H IH]; intros b f i b' f' i' H1 H2 Hi Hi' E; [inversion H1|].
  assert (Hd' : forall b f, In (b, f) F -> In b blks)
    by (intros b1 f1 Hin; apply (Hd b1 f1); right; exact Hin).
  destruct (tile_range hp F Hd' H) as (A & B & C).
  destruct H1 as [E1|H1], H2 as [E2|H2].
  - apply pair_inv in E1; destruct E1 as [<- <-]. apply pair_inv in E2; destruct E2 as [<- <-]. lia.
  - apply pair_inv in E1; destruct E1 as [<- <-]. specialize (C _ _ H2). lia.
  - apply pair_inv in E2; destruct E2 as [<- <-]. specialize (C _ _ H1). lia.
  - eapply IH; eauto.
Qed.

(** value [v] is the finished copy of source word [w] *)
Definition wrel (F : list (Z * Z)) (w v : Z) : Prop :=
  (~ is1 w /\ ~ is2 w /\ v = w) \/ (is1 w /\ exists f, In (w - 8, f) F /\ v = f + 8).

Record Inv (m : mem) (hp : Z) (F : list (Z * Z)) (D : Z -> bool) : Prop := {
  i_tile : tile hp F;
  i_nodup : NoDup (map fst F);
  i_dom : forall b f, In (b, f) F -> In b blks;
  i_reach : forall b f, In (b, f) F -> reach M0 h1 s1 cells b;
  i_fwd : forall b f, In (b, f) F -> m b = f + 8;
  i_from : forall a, in_area a h1 s1 -> ~ In a (map fst F) -> m a = M0 a;
  i_todo : forall b f i, In (b, f) F -> 0 <= i <= len b -> D (f + 8 * i) = false ->
             m (f + 8 * i) = M0 (b + 8 * i);
  i_done : forall b f i, In (b, f) F -> 0 <= i <= len b -> D (f + 8 * i) = true ->
             (i = 0 -> m f = M0 b) /\ (1 <= i -> wrel F (M0 (b + 8 * i)) (m (f + 8 * i)));
  i_rtodo : forall c, In c cells -> D c = false -> m c = M0 c;
  i_rdone : forall c, In c cells -> D c = true -> wrel F (M0 c) (m c);
  i_frame : forall a, ~ in_area a h1 s1 -> ~ (hp <= a < he2) -> ~ In a cells -> m a = M0 a;
  i_D : forall a, D a = true -> In a cells \/ hp <= a < he2
}.

Definition mark (D : Z -> bool) (p : Z) : Z -> bool := fun a => D a || (a =? p).

Lemma mark_same D p : mark D p p = true.
Proof. unfold mark. rewrite Z.eqb_refl. apply orb_true_r. Qed.
Lemma mark_other D p a : a <> p -> mark D p a = D a.
Proof. intros H. unfold mark. destruct (a =? p) eqn:E; [lia|apply orb_false_r]. Qed.

(** a cell that the collector may process: a root, or a word of a copied block *)
Definition procable (F : list (Z * Z)) (p : Z) : Prop :=
  In p cells \/ exists b f i, In (b, f) F /\ 0 <= i <= len b /\ p = f + 8 * i.

Lemma wrel_mono F x w v : wrel F w v -> wrel (x :: F) w v.
Proof.
  intros [H|(H & f & Hf & E)]; [left; auto|right].
  split; auto. exists f. split; auto. right; auto.
Qed.

Lemma hp_bound F hp : tile hp F -> NoDup (map fst F) -> (forall b f, In (b, f) F -> In b blks) ->
  h2 <= hp.
Proof.
  intros Ht Hn Hd. pose proof (tile_words _ _ Ht) as W.
  assert (I : words_of M0 (map fst F) <= words_of M0 blks).
  { apply words_of_incl; auto; [|apply len_nn].
    intros b Hb. apply in_map_iff in Hb. destruct Hb as ((b', f) & <- & Hin). apply (Hd _ _ Hin). }
  pose proof (blocks_words _ _ _ _ (wf_blocks _ _ _ _ _ _ _ _ WF)) as W'.
  pose proof (wf_hp _ _ _ _ _ _ _ _ WF). unfold he1, he2 in *. lia.
Qed.

Lemma in_fst (F : list (Z * Z)) b f : In (b, f) F -> In b (map fst F).
Proof. intros H. apply in_map_iff. exists (b, f). auto. Qed.
Lemma fst_in (F : list (Z * Z)) b : In b (map fst F) -> exists f, In (b, f) F.
Proof. intros H. apply in_map_iff in H. destruct H as ((b', f) & <- & H). eauto. Qed.

Lemma nodup_fun (F : list (Z * Z)) b f f' : NoDup (map fst F) -> In (b, f) F -> In (b, f') F -> f = f'.
Proof.
  induction F as [|(x, y) F IH]; intros Hn H H'; [inversion H|].
  cbn [map fst] in Hn. inversion Hn; subst.
  destruct H as [E|H], H' as [E'|H'].
  - congruence.
  - apply pair_inv in E; destruct E as [-> ->]. exfalso. apply H2. eapply in_fst; eauto.
  - injection E' as -> ->. exfalso. apply H2. eapply in_fst; eauto.
  - auto.
Qed.

(** the value currently in a procable cell, and what it stands for *)
Definition source (F : list (Z * Z)) (p w : Z) : Prop :=
  (In p cells /\ w = M0 p) \/
  (exists b f i, In (b, f) F /\ 0 <= i <= len b /\ p = f + 8 * i /\ w = M0 (b + 8 * i)).

Lemma hdr_not_is b : In b blks -> ~ is1 (M0 b) /\ ~ is2 (M0 b).
Proof.
  intros H. destruct (wf_hdrs _ _ _ _ _ _ _ _ WF _ H) as [[Ho _]|(Ho & _ & A & B)].
  - split; intros [_ E]; rewrite Zmod_odd, Ho in E; discriminate.
  - split; intros [E _]; contradiction.
Qed.

Lemma source_ok m hp F D p w : Inv m hp F D -> source F p w ->
  (is1 w -> In (w - 8) blks /\ reach M0 h1 s1 cells (w - 8)) /\ ~ is2 w.
Proof.
  intros I [[Hc ->]|(b & f & i & Hin & Hi & _ & ->)].
  - destruct (wf_roots _ _ _ _ _ _ _ _ WF _ Hc) as [A B]. split; auto.
    intros Hw. split; [auto|constructor; auto].
  - pose proof (i_dom _ _ _ _ I _ _ Hin) as Hb.
    destruct (Z.eq_dec i 0) as [->|Hne].
    + replace (b + 8 * 0) with b by lia. destruct (hdr_not_is b Hb). split; auto. contradiction.
    + destruct (wf_words _ _ _ _ _ _ _ _ WF b i Hb) as [A B]; [unfold len in Hi; lia|].
      split; auto. intros Hw. split; auto.
      apply reach_field; auto; [eapply i_reach; eauto|unfold len in Hi; lia].
Qed.

Lemma to_cell m hp F D b f i : Inv m hp F D -> In (b, f) F -> 0 <= i <= len b ->
  hp <= f + 8 * i < he2 /\ in_area (f + 8 * i) h2 s2 /\ ~ in_area (f + 8 * i) h1 s1 /\
  ~ In (f + 8 * i) cells /\ (f + 8 * i) mod 8 = 0.
Proof.
  intros I Hin Hi.
  destruct (tile_range hp F (i_dom _ _ _ _ I) (i_tile _ _ _ _ I)) as (A & B & C).
  destruct (C _ _ Hin) as (C1 & C2 & C3).
  pose proof (hp_bound F hp (i_tile _ _ _ _ I) (i_nodup _ _ _ _ I) (i_dom _ _ _ _ I)) as L.
  pose proof (wf_disj _ _ _ _ _ _ _ _ WF) as Dj.
  assert (A2 : in_area (f + 8 * i) h2 s2) by (unfold in_area, he2 in *; lia).
  split; [lia|]. split; [exact A2|].
  split; [unfold in_area, he1, he2 in *; lia|].
  split. { intros Hc. destruct (wf_cells _ _ _ _ _ _ _ _ WF _ Hc). contradiction. }
  pose proof (proj2 (wf_h2 _ _ _ _ _ _ _ _ WF)). unfold he2 in *. zdm.
Qed.

Lemma blk_area b i : In b blks -> 0 <= i <= len b -> in_area (b + 8 * i) h1 s1.
Proof. intros H Hi. destruct (blk_range b H) as (A & B & _). unfold in_area, he1 in *. lia. Qed.

Lemma s1_s2_disj a : in_area a h1 s1 -> in_area a h2 s2 -> False.
Proof. pose proof (wf_disj _ _ _ _ _ _ _ _ WF). unfold in_area. lia. Qed.

(** a cell that is already done keeps its value *)
Lemma done_not_is1 m hp F D p : Inv m hp F D -> procable F p -> D p = true -> ~ is1 (m p).
Proof.
  intros I Hp Hd.
  assert (Hwr : forall w v, wrel F w v -> ~ is1 v).
  { intros w v [(A & _ & ->)|(A & f & Hf & ->)]; auto.
    intros [Ha _].
    pose proof (i_dom _ _ _ _ I _ _ Hf) as Hb.
    destruct (to_cell m hp F D (w - 8) f 1 I Hf) as (_ & Q & _); [pose proof (len_pos _ Hb); lia|].
    replace (f + 8 * 1) with (f + 8) in Q by lia. eapply s1_s2_disj; eauto. }
  destruct Hp as [Hc|(b & f & i & Hin & Hi & ->)].
  - apply (Hwr (M0 p)). eapply i_rdone; eauto.
  - destruct (i_done _ _ _ _ I _ _ _ Hin Hi Hd) as [A B].
    destruct (Z.eq_dec i 0) as [->|Hne].
    + replace (f + 8 * 0) with f by lia. rewrite A by auto.
      apply hdr_not_is. eapply i_dom; eauto.
    + apply (Hwr _ _ (B ltac:(lia))).
Qed.

(** marking a cell without changing memory or copying *)
Lemma inv_mark m m' hp F D p w :
  Inv m hp F D -> D p = false -> source F p w -> m' p = m' p ->
  (forall a, a <> p -> m' a = m a) -> wrel F w (m' p) ->
  (~ is1 w -> m' p = m p) ->
  Inv m' hp F (mark D p).
Proof.
  intros I Hd Hs _ Hf Hw Hw'.
  assert (Hp1 : ~ in_area p h1 s1).
  { destruct Hs as [[Hc _]|(b & f & i & Hin & Hi & -> & _)].
    - apply (wf_cells _ _ _ _ _ _ _ _ WF _ Hc).
    - apply (to_cell m hp F D b f i I Hin Hi). }
  constructor.
  - apply (i_tile _ _ _ _ I).
  - apply (i_nodup _ _ _ _ I).
  - apply (i_dom _ _ _ _ I).
  - apply (i_reach _ _ _ _ I).
  - intros b f Hin. rewrite Hf; [apply (i_fwd _ _ _ _ I _ _ Hin)|].
    intros ->. apply Hp1. pose proof (i_dom _ _ _ _ I _ _ Hin) as Hb.
    replace p with (p + 8 * 0) by lia. apply blk_area; auto. pose proof (len_pos _ Hb). lia.
  - intros a Ha Hn. rewrite Hf; [apply (i_from _ _ _ _ I); auto|]. congruence.
  - intros b f i Hin Hi HD. destruct (Z.eq_dec (f + 8 * i) p) as [<-|Hne].
    + rewrite mark_same in HD. discriminate.
    + rewrite mark_other in HD by auto. rewrite Hf by auto. apply (i_todo _ _ _ _ I); auto.
  - intros b f i Hin Hi HD. destruct (Z.eq_dec (f + 8 * i) p) as [E|Hne].
    + destruct Hs as [[Hc _]|(b' & f' & i' & Hin' & Hi' & E' & ->)].
      { exfalso. apply (to_cell m hp F D b f i I Hin Hi). rewrite E. auto. }
      destruct (tile_sep hp F (i_dom _ _ _ _ I) (i_tile _ _ _ _ I) _ _ _ _ _ _ Hin Hin' Hi Hi')
        as (-> & -> & ->); [congruence|].
      split.
      * intros ->. replace (f' + 8 * 0) with f' in * by lia. subst p.
        rewrite Hw'; [|replace (b' + 8 * 0) with b' by lia; apply hdr_not_is; eapply i_dom; eauto].
        pose proof (i_todo _ _ _ _ I b' f' 0 Hin' ltac:(lia)) as Q.
        replace (f' + 8 * 0) with f' in Q by lia. rewrite Q by auto. f_equal. lia.
      * intros _. rewrite E. exact Hw.
    + rewrite mark_other in HD by auto. rewrite (Hf (f + 8 * i)) by auto.
      destruct (i_done _ _ _ _ I _ _ _ Hin Hi HD) as [A B]. split; auto.
      intros ->. replace (f + 8 * 0) with f in * by lia. rewrite Hf by auto. auto.
  - intros c Hc HD. destruct (Z.eq_dec c p) as [<-|Hne].
    + rewrite mark_same in HD. discriminate.
    + rewrite mark_other in HD by auto. rewrite Hf by auto. apply (i_rtodo _ _ _ _ I); auto.
  - intros c Hc HD. destruct (Z.eq_dec c p) as [->|Hne].
    + destruct Hs as [[_ ->]|(b' & f' & i' & Hin' & Hi' & E' & ->)]; auto.
      exfalso. apply (to_cell m hp F D b' f' i' I Hin' Hi'). rewrite <- E'. auto.
    + rewrite mark_other in HD by auto. rewrite Hf by auto. apply (i_rdone _ _ _ _ I); auto.
  - intros a Ha1 Ha2 Ha3. rewrite Hf; [apply (i_frame _ _ _ _ I); auto|].
    intros ->. destruct Hs as [[Hc _]|(b & f & i & Hin & Hi & -> & _)]; auto.
    apply Ha2. apply (to_cell m hp F D b f i I Hin Hi).
  - intros a HD. destruct (Z.eq_dec a p) as [->|Hne].
    + destruct Hs as [[Hc _]|(b & f & i & Hin & Hi & -> & _)]; auto.
      right. apply (to_cell m hp F D b f i I Hin Hi).
    + rewrite mark_other in HD by auto. apply (i_D _ _ _ _ I); auto.
Qed.

(** copying a block and marking the cell that refers to it *)
Lemma inv_copy m m' hp hp' F D p b :
  Inv m hp F D -> D p = false -> source F p (b + 8) -> In b blks -> is1 (b + 8) ->
  reach M0 h1 s1 cells b -> ~ In b (map fst F) ->
  hp' = hp - 8 * (1 + len b) ->
  m' p = hp' + 8 -> m' b = hp' + 8 ->
  (forall i, 0 <= i <= len b -> m' (hp' + 8 * i) = M0 (b + 8 * i)) ->
  (forall a, a <> p -> a <> b -> ~ (hp' <= a < hp) -> m' a = m a) ->
  Inv m' hp' ((b, hp') :: F) (mark D p).
Proof.
  intros I Hd Hs Hb Hb1 Hr Hnew Ehp Hp' Hb' Hc' Hf.
  pose proof (len_pos _ Hb) as Lb.
  assert (Hp1 : ~ in_area p h1 s1).
  { destruct Hs as [[Hc _]|(b2 & f & i & Hin & Hi & -> & _)].
    - apply (wf_cells _ _ _ _ _ _ _ _ WF _ Hc).
    - apply (to_cell m hp F D b2 f i I Hin Hi). }
  assert (Ht' : tile hp' ((b, hp') :: F)).
  { subst hp'. constructor. apply (i_tile _ _ _ _ I). }
  assert (Hn' : NoDup (map fst ((b, hp') :: F))).
  { cbn [map fst]. constructor; auto. apply (i_nodup _ _ _ _ I). }
  assert (Hd' : forall x f, In (x, f) ((b, hp') :: F) -> In x blks).
  { intros x f [E|Hin]; [apply pair_inv in E; destruct E as [<- <-]; auto|eapply i_dom; eauto]. }
  pose proof (hp_bound _ _ Ht' Hn' Hd') as L'.
  destruct (tile_range hp F (i_dom _ _ _ _ I) (i_tile _ _ _ _ I)) as (T1 & T2 & T3).
  assert (Hnew2 : forall a, hp' <= a < hp -> in_area a h2 s2).
  { intros a Ha. unfold in_area, he2 in *. lia. }
  assert (Hpn : ~ (hp' <= p < hp)).
  { intros Ha. destruct Hs as [[Hc _]|(b2 & f & i & Hin & Hi & -> & _)].
    - destruct (wf_cells _ _ _ _ _ _ _ _ WF _ Hc) as [_ X]. apply X. apply Hnew2. lia.
    - destruct (to_cell m hp F D b2 f i I Hin Hi) as (Y & _). lia. }
  assert (Hba : in_area b h1 s1).
  { replace b with (b + 8 * 0) by lia. apply blk_area; auto. lia. }
  assert (Hpb : p <> b) by (intros ->; contradiction).
  assert (Hto : forall x f i, In (x, f) F -> 0 <= i <= len x -> f + 8 * i <> p ->
                 m' (f + 8 * i) = m (f + 8 * i)).
  { intros x f i Hin Hi Hne. destruct (to_cell m hp F D x f i I Hin Hi) as (Y1 & Y2 & Y3 & _).
    apply Hf; auto; [congruence|lia]. }
  assert (HD0 : forall a, hp' <= a < hp -> D a = false).
  { intros a Ha. destruct (D a) eqn:E; auto. exfalso.
    destruct (i_D _ _ _ _ I _ E) as [Hc|Hc]; [|lia].
    apply (proj2 (wf_cells _ _ _ _ _ _ _ _ WF _ Hc)). apply Hnew2. lia. }
  assert (Hwp : wrel ((b, hp') :: F) (b + 8) (m' p)).
  { right. split; auto. exists hp'. split; [left; f_equal; lia|auto]. }
  constructor; auto.
  - intros x f [E|Hin]; [apply pair_inv in E; destruct E as [<- <-]; auto|eapply i_reach; eauto].
  - intros x f [E|Hin]; [apply pair_inv in E; destruct E as [<- <-]; auto|].
    pose proof (i_dom _ _ _ _ I _ _ Hin) as Hx.
    assert (Hxa : in_area x h1 s1).
    { replace x with (x + 8 * 0) by lia. apply blk_area; auto. pose proof (len_pos _ Hx); lia. }
    rewrite Hf; [eapply i_fwd; eauto| | |].
    + intros ->. contradiction.
    + intros ->. apply Hnew. eapply in_fst; eauto.
    + intros Ha. eapply s1_s2_disj; eauto.
  - intros a Ha Hn. cbn [map fst] in Hn.
    rewrite Hf; [apply (i_from _ _ _ _ I); auto| | |].
    + intros Hx. apply Hn. right; auto.
    + intros ->. contradiction.
    + intros ->. apply Hn. left; auto.
    + intros Hx. eapply s1_s2_disj; eauto.
  - intros x f i [E|Hin] Hi HD.
    + apply pair_inv in E; destruct E as [<- <-]. apply Hc'. auto.
    + assert (Hne : f + 8 * i <> p) by (intros E; rewrite E, mark_same in HD; discriminate).
      rewrite (Hto x) by auto. rewrite mark_other in HD by auto. eapply i_todo; eauto.
  - intros x f i [E|Hin] Hi HD.
    + apply pair_inv in E; destruct E as [<- <-]. exfalso.
      rewrite mark_other in HD by lia. rewrite HD0 in HD by lia. discriminate.
    + destruct (Z.eq_dec (f + 8 * i) p) as [E|Hne].
      * destruct Hs as [[Hc _]|(b2 & f2 & i2 & Hin2 & Hi2 & E2 & E3)].
        { exfalso. apply (to_cell m hp F D x f i I Hin Hi). rewrite E. auto. }
        destruct (tile_sep hp F (i_dom _ _ _ _ I) (i_tile _ _ _ _ I) _ _ _ _ _ _ Hin Hin2 Hi Hi2)
          as (-> & -> & ->); [congruence|].
        split.
        -- intros ->. exfalso. replace (b2 + 8 * 0) with b2 in E3 by lia.
           destruct (hdr_not_is b2) as [X _]; [eapply i_dom; eauto|]. apply X. rewrite <- E3. auto.
        -- intros _. rewrite E, <- E3. auto.
      * rewrite mark_other in HD by auto. rewrite (Hto x) by auto.
        destruct (i_done _ _ _ _ I _ _ _ Hin Hi HD) as [A B]. split.
        -- intros ->. specialize (Hto x f 0 Hin ltac:(lia) Hne).
           replace (f + 8 * 0) with f in * by lia. rewrite Hto. auto.
        -- intros Hi1. apply wrel_mono. auto.
  - intros c Hc HD. assert (Hne : c <> p) by (intros ->; rewrite mark_same in HD; discriminate).
    rewrite mark_other in HD by auto.
    destruct (wf_cells _ _ _ _ _ _ _ _ WF _ Hc) as [X1 X2].
    rewrite Hf; [apply (i_rtodo _ _ _ _ I); auto|auto|congruence|].
    intros Ha. apply X2, Hnew2; auto.
  - intros c Hc HD. destruct (Z.eq_dec c p) as [->|Hne].
    + destruct Hs as [[_ E]|(b' & f' & i' & Hin' & Hi' & E' & _)].
      * rewrite <- E. auto.
      * exfalso. apply (to_cell m hp F D b' f' i' I Hin' Hi'). rewrite <- E'. auto.
    + rewrite mark_other in HD by auto.
      destruct (wf_cells _ _ _ _ _ _ _ _ WF _ Hc) as [X1 X2].
      rewrite Hf; [|auto|congruence|].
      * apply wrel_mono. apply (i_rdone _ _ _ _ I); auto.
      * intros Ha. apply X2, Hnew2; auto.
  - intros a Ha1 Ha2 Ha3.
    rewrite Hf; [apply (i_frame _ _ _ _ I); auto; lia| |congruence|lia].
    intros ->. destruct Hs as [[Hc _]|(b2 & f & i & Hin & Hi & -> & _)]; auto.
    destruct (to_cell m hp F D b2 f i I Hin Hi) as (Y1 & _). lia.
  - intros a HD. destruct (Z.eq_dec a p) as [->|Hne].
    + destruct Hs as [[Hc _]|(b2 & f & i & Hin & Hi & -> & _)]; auto.
      destruct (to_cell m hp F D b2 f i I Hin Hi) as (Y1 & _). right; lia.
    + rewrite mark_other in HD by auto. destruct (i_D _ _ _ _ I _ HD); [auto|right; lia].
Qed.

Lemma inv_ext m hp F D D' : Inv m hp F D -> (forall a, D' a = D a) -> Inv m hp F D'.
Proof.
  intros I E. destruct I. constructor; auto; intros; rewrite E in *; eauto.
Qed.

(** ** one step of the collector *)
Lemma toheap2_step m hp F D p : Inv m hp F D -> procable F p ->
  exists m' hp' F', toheap2 m p hp h1 (hmask s1) h2 (hmask s2) = Val (m', hp') /\
    Inv m' hp' F' (mark D p) /\ (exists G, F' = G ++ F) /\ hp' <= hp.
Proof.
  intros I Hp. unfold toheap2.
  destruct (D p) eqn:HD.
  { pose proof (done_not_is1 _ _ _ _ _ I Hp HD) as Hn.
    destruct (inheap (m p) h1 (hmask s1)) eqn:E; [apply in1 in E; contradiction|].
    cbn [negb]. exists m, hp, F. split; [reflexivity|].
    split; [eapply inv_ext; eauto|split; [exists []; auto|lia]].
    intros a. unfold mark. destruct (a =? p) eqn:Ea; [|apply orb_false_r].
    apply Z.eqb_eq in Ea. subst. rewrite HD. reflexivity. }
  assert (Hsrc : exists w, source F p w /\ m p = w).
  { destruct Hp as [Hc|(b & f & i & Hin & Hi & ->)].
    - exists (M0 p). split; [left; auto|]. apply (i_rtodo _ _ _ _ I); auto.
    - exists (M0 (b + 8 * i)). split; [right; exists b, f, i; auto|]. eapply i_todo; eauto. }
  destruct Hsrc as (w & Hs & Ew). rewrite Ew.
  destruct (source_ok _ _ _ _ _ _ I Hs) as [Hw1 Hw2].
  destruct (inheap w h1 (hmask s1)) eqn:E.
  2:{ cbn [negb]. assert (Hn : ~ is1 w) by (intros C; apply in1 in C; congruence).
      exists m, hp, F. split; [reflexivity|].
      split; [|split; [exists []; auto|lia]].
      apply (inv_mark m m hp F D p w); auto. left. auto. }
  cbn [negb]. apply in1 in E. destruct (Hw1 E) as [Hb Hr].
  set (b := w - 8) in *. assert (Ewb : w = b + 8) by (unfold b; lia).
  destruct (in_dec Z.eq_dec b (map fst F)) as [Hin|Hnin].
  - (* already forwarded *)
    destruct (fst_in _ _ Hin) as (f & Hf).
    rewrite (i_fwd _ _ _ _ I _ _ Hf).
    destruct (to_cell m hp F D b f 1 I Hf) as (Q1 & Q2 & _ & _ & Q5); [pose proof (len_pos _ Hb); lia|].
    replace (f + 8 * 1) with (f + 8) in * by lia.
    assert (Hnz : f + 8 =? 0 = false).
    { apply Z.eqb_neq. pose proof (proj1 (wf_h2 _ _ _ _ _ _ _ _ WF)). unfold in_area in Q2. lia. }
    rewrite Hnz. rewrite notaptr_odd.
    assert (Hodd : Z.odd (f + 8) = false).
    { pose proof (Zmod_odd (f + 8)) as X. destruct (Z.odd (f + 8)); [|reflexivity]. exfalso. zdm. }
    rewrite Hodd.
    assert (Hi2 : inheap (f + 8) h2 (hmask s2) = true).
    { apply in2. split; auto. zdm. }
    rewrite Hi2. cbn [negb].
    exists (upd m p (f + 8)), hp, F. split; [reflexivity|].
    split; [|split; [exists []; auto|lia]].
    apply (inv_mark m _ hp F D p w); auto.
    + intros a Ha. apply upd_other. auto.
    + rewrite upd_same. right. split; auto. exists f. split; auto.
    + intros C. contradiction.
  - (* copy *)
    pose proof (len_pos _ Hb) as Lb.
    assert (Hba : in_area b h1 s1).
    { replace b with (b + 8 * 0) by lia. apply blk_area; auto. lia. }
    rewrite (i_from _ _ _ _ I b Hba Hnin).
    set (hp' := hp - 8 * (1 + len b)).
    assert (Ht' : tile hp' ((b, hp') :: F)) by (constructor; apply (i_tile _ _ _ _ I)).
    assert (Hn' : NoDup (map fst ((b, hp') :: F))).
    { cbn [map fst]. constructor; auto. apply (i_nodup _ _ _ _ I). }
    assert (Hd' : forall x f, In (x, f) ((b, hp') :: F) -> In x blks).
    { intros x f [Ex|Hin]; [apply pair_inv in Ex; destruct Ex as [<- <-]; auto|eapply i_dom; eauto]. }
    pose proof (hp_bound _ _ Ht' Hn' Hd') as L'.
    destruct (tile_range hp F (i_dom _ _ _ _ I) (i_tile _ _ _ _ I)) as (T1 & T2 & T3).
    assert (Hnew2 : forall a, hp' <= a < hp -> in_area a h2 s2).
    { intros a Ha. unfold in_area, he2 in *. lia. }
    assert (Hnew1 : forall a, hp' <= a < hp -> ~ in_area a h1 s1).
    { intros a Ha C. eapply s1_s2_disj; eauto. }
    assert (Hp1 : ~ in_area p h1 s1).
    { destruct Hs as [[Hc _]|(b2 & f & i & Hin & Hi & -> & _)].
      - apply (wf_cells _ _ _ _ _ _ _ _ WF _ Hc).
      - apply (to_cell m hp F D b2 f i I Hin Hi). }
    assert (Hpn : ~ (hp' <= p < hp)).
    { intros Ha. destruct Hs as [[Hc _]|(b2 & f & i & Hin & Hi & -> & _)].
      - destruct (wf_cells _ _ _ _ _ _ _ _ WF _ Hc) as [_ X]. apply X. apply Hnew2. lia.
      - destruct (to_cell m hp F D b2 f i I Hin Hi) as (Y & _). lia. }
    assert (Hpb : p <> b) by (intros ->; contradiction).
    assert (Hraw : forall i, 0 <= i <= len b -> m (b + 8 * i) = M0 (b + 8 * i)).
    { intros i Hi. apply (i_from _ _ _ _ I); [apply blk_area; auto|].
      intros C. destruct (fst_in _ _ C) as (f & Hf). pose proof (i_dom _ _ _ _ I _ _ Hf) as Hx.
      destruct (Z.eq_dec i 0) as [->|Hne].
      - apply Hnin. replace (b + 8 * 0) with b in C by lia. auto.
      - pose proof (blk_sep b _ Hb Hx ltac:(lia)). lia. }
    assert (Hcopy : forall m', m' p = hp' + 8 -> m' b = hp' + 8 ->
      (forall i, 0 <= i <= len b -> m' (hp' + 8 * i) = M0 (b + 8 * i)) ->
      (forall a, a <> p -> a <> b -> ~ (hp' <= a < hp) -> m' a = m a) ->
      exists m'' hp'' F', Val (m', hp') = Val (m'', hp'') /\ Inv m'' hp'' F' (mark D p) /\
        (exists G, F' = G ++ F) /\ hp'' <= hp).
    { intros m' A1 A2 A3 A4. exists m', hp', ((b, hp') :: F).
      split; [reflexivity|]. split; [|split; [exists [(b, hp')]; auto|unfold hp'; lia]].
      apply (inv_copy m m' hp hp' F D p b); auto; rewrite <- Ewb; auto. }
    destruct (wf_hdrs _ _ _ _ _ _ _ _ WF b Hb) as [[Ho Hr1]|(Ho & Hnz & Ha1 & Ha2)].
    + assert (Hz : M0 b =? 0 = false) by (apply Z.eqb_neq; lia).
      rewrite Hz, notaptr_odd, Ho.
      destruct (blen_size _ Ho Hr1) as [-> _]. fold (len b).
      assert (Enat : Z.of_nat (Z.to_nat (len b + 1)) = len b + 1) by lia.
      destruct (copy_down_spec (Z.to_nat (len b + 1)) m (w + 8 * len b) hp) as (m1 & E1 & C1 & C2).
      { intros j Hj. rewrite Enat in *. intros C.
        apply (Hnew1 (b + 8 * j)); [unfold hp'; lia|]. apply blk_area; auto. lia. }
      rewrite E1. rewrite Enat in *.
      replace (w + 8 * len b - 8 * (len b + 1)) with b by lia.
      replace (hp - 8 * (len b + 1)) with hp' in * by (unfold hp'; lia).
      apply Hcopy.
      * apply upd_same.
      * rewrite upd_other by auto. apply upd_same.
      * intros i Hi. assert (hp' <= hp' + 8 * i < hp) by (unfold hp'; lia).
        rewrite upd_other by congruence.
        rewrite upd_other; [|intros Eb; apply (Hnew1 (hp' + 8 * i)); auto; rewrite Eb; auto].
        rewrite C1 by lia. rewrite <- Hraw by auto. f_equal. lia.
      * intros a X1 X2 X3. rewrite !upd_other by auto. apply C2. auto.
    + assert (Hz : M0 b =? 0 = false) by (apply Z.eqb_neq; auto).
      rewrite Hz, notaptr_odd, Ho.
      assert (Hi2 : inheap (M0 b) h2 (hmask s2) = false).
      { destruct (inheap (M0 b) h2 (hmask s2)) eqn:C; auto. apply in2 in C. destruct C. contradiction. }
      rewrite Hi2. cbn [negb].
      assert (El : len b = 1) by (unfold len, blen; rewrite Ho; reflexivity).
      replace (hp - 16) with hp' by (unfold hp'; lia).
      replace (hp - 8) with (hp' + 8) by (unfold hp'; lia).
      assert (Hx0 : in_area (b + 8) h1 s1).
      { replace (b + 8) with (b + 8 * 1) by lia. apply blk_area; auto. lia. }
      assert (N0 : ~ in_area hp' h1 s1) by (apply Hnew1; unfold hp'; lia).
      assert (N1 : ~ in_area (hp' + 8) h1 s1) by (apply Hnew1; unfold hp'; lia).
      assert (P0 : p <> hp') by (intros Ep; apply Hpn; unfold hp' in *; lia).
      assert (P1 : p <> hp' + 8) by (intros Ep; apply Hpn; unfold hp' in *; lia).
      apply Hcopy.
      * apply upd_same.
      * rewrite upd_other by auto. apply upd_same.
      * intros i Hi. assert (Hi01 : i = 0 \/ i = 1) by lia. destruct Hi01 as [-> | ->].
        -- replace (hp' + 8 * 0) with hp' by lia. rewrite upd_other by auto.
           rewrite upd_other by (intros C; subst b; congruence).
           rewrite upd_same. rewrite upd_other; [|intros C; congruence].
           rewrite <- Hraw by lia. f_equal. lia.
        -- replace (hp' + 8 * 1) with (hp' + 8) by lia. rewrite upd_other by auto.
           rewrite upd_other by (intros C; subst b; congruence).
           rewrite upd_other by lia. rewrite upd_same.
           rewrite <- Hraw by lia. f_equal. lia.
      * intros a X1 X2 X3. rewrite !upd_other; auto; unfold hp' in *; lia.
Qed.

Lemma inv_init : Inv M0 he2 [] (fun _ => false).
Proof.
  constructor.
  - constructor.
  - constructor.
  - intros ? ? [].
  - intros ? ? [].
  - intros ? ? [].
  - auto.
  - intros ? ? ? [].
  - intros ? ? ? [].
  - auto.
  - discriminate.
  - auto.
  - discriminate.
Qed.

Lemma mark_true D p a : D a = true -> mark D p a = true.
Proof. intros H. unfold mark. rewrite H. reflexivity. Qed.

Lemma move_roots_ok : forall cs m hp F D, incl cs cells -> Inv m hp F D ->
  exists m' hp' F' D',
    move_roots cs m hp h1 (hmask s1) h2 (hmask s2) = Val (m', hp') /\
    Inv m' hp' F' D' /\ (forall c, In c cs -> D' c = true) /\
    (forall a, D a = true -> D' a = true).
Proof.
  induction cs as [|c cs IH]; intros m hp F D Hi I; cbn [move_roots].
  - exists m, hp, F, D. split; [reflexivity|]. split; [exact I|]. split; [intros ? []|auto].
  - destruct (toheap2_step m hp F D c I) as (m1 & hp1 & F1 & E & I1 & _ & _).
    { left. apply Hi. left; auto. }
    rewrite E. cbn [rbind fst snd].
    destruct (IH m1 hp1 F1 (mark D c)) as (m2 & hp2 & F2 & D2 & E2 & I2 & A & B); auto.
    { intros x Hx. apply Hi. right; auto. }
    exists m2, hp2, F2, D2. split; [exact E2|]. split; [exact I2|]. split.
    + intros x [<-|Hx]; auto. apply B. apply mark_same.
    + intros a Ha. apply B. apply mark_true. auto.
Qed.

Lemma scan_ok : forall fuel m p hp F D, Inv m hp F D ->
  hp <= p <= he2 -> (he2 - p) mod 8 = 0 -> (p - h2) / 8 < Z.of_nat fuel ->
  (forall a, p <= a < he2 -> (he2 - a) mod 8 = 0 -> D a = true) ->
  (forall c, In c cells -> D c = true) ->
  exists m' hp' F' D',
    scan fuel m p hp h1 (hmask s1) h2 (hmask s2) = Some (Val (m', hp')) /\
    Inv m' hp' F' D' /\
    (forall a, hp' <= a < he2 -> (he2 - a) mod 8 = 0 -> D' a = true) /\
    (forall c, In c cells -> D' c = true).
Proof.
  induction fuel as [|fuel IH]; intros m p hp F D I Hp Hal Hfuel Hdone Hroots.
  - exfalso. pose proof (hp_bound F hp (i_tile _ _ _ _ I) (i_nodup _ _ _ _ I) (i_dom _ _ _ _ I)).
    change (Z.of_nat 0) with 0 in Hfuel. zdm.
  - cbn [scan].
    destruct (hp <? p) eqn:E.
    + apply Z.ltb_lt in E.
      destruct (tile_range hp F (i_dom _ _ _ _ I) (i_tile _ _ _ _ I)) as (T1 & T2 & T3).
      assert (Hp8 : hp <= p - 8) by zdm.
      destruct (toheap2_step m hp F D (p - 8) I) as (m1 & hp1 & F1 & E1 & I1 & _ & Hle).
      { right. apply (tile_cover hp F (i_dom _ _ _ _ I) (i_tile _ _ _ _ I)); [lia|zdm]. }
      rewrite E1.
      apply (IH m1 (p - 8) hp1 F1 (mark D (p - 8)) I1).
      * lia.
      * zdm.
      * zdm.
      * intros a Ha Hm. destruct (Z.eq_dec a (p - 8)) as [->|Hne]; [apply mark_same|].
        apply mark_true. apply Hdone; auto. zdm.
      * intros c Hc. apply mark_true. auto.
    + apply Z.ltb_ge in E. assert (p = hp) by lia. subst p.
      exists m, hp, F, D. split; [reflexivity|]. split; [exact I|]. split; auto.
Qed.

(** final state: everything copied is done *)
Record Final (m : mem) (hp : Z) (F : list (Z * Z)) : Prop := {
  f_inv : exists D, Inv m hp F D /\
    (forall b f i, In (b, f) F -> 0 <= i <= len b -> D (f + 8 * i) = true) /\
    (forall c, In c cells -> D c = true)
}.

Lemma final_hdr m hp F b f : Final m hp F -> In (b, f) F -> m f = M0 b.
Proof.
  intros [(D & I & A & _)] Hin.
  pose proof (len_pos _ (i_dom _ _ _ _ I _ _ Hin)).
  pose proof (A b f 0 Hin ltac:(lia)) as Hd.
  apply (i_done _ _ _ _ I b f 0 Hin ltac:(lia) Hd). reflexivity.
Qed.

Lemma final_word m hp F b f i : Final m hp F -> In (b, f) F -> 1 <= i <= len b ->
  wrel F (M0 (b + 8 * i)) (m (f + 8 * i)).
Proof.
  intros [(D & I & A & _)] Hin Hi.
  pose proof (A b f i Hin ltac:(lia)) as Hd.
  apply (i_done _ _ _ _ I b f i Hin ltac:(lia) Hd). lia.
Qed.

Lemma final_root m hp F c : Final m hp F -> In c cells -> wrel F (M0 c) (m c).
Proof. intros [(D & I & _ & B)] Hc. apply (i_rdone _ _ _ _ I); auto. Qed.

(** the copied blocks are exactly the reachable ones *)
Lemma final_reach m hp F b : Final m hp F -> In b (map fst F) <-> reach M0 h1 s1 cells b.
Proof.
  intros HF. split.
  - intros H. destruct (fst_in _ _ H) as (f & Hf). destruct HF as [(D & I & _)].
    eapply i_reach; eauto.
  - induction 1 as [c Hc Hp|b i Hr IH Hi Hp].
    + destruct (final_root m hp F c HF Hc) as [(A & _)|(A & f & Hf & _)]; [contradiction|].
      eapply in_fst; eauto.
    + destruct (fst_in _ _ IH) as (f & Hf).
      destruct (final_word m hp F b f i HF Hf Hi) as [(A & _)|(A & f' & Hf' & _)]; [contradiction|].
      eapply in_fst; eauto.
Qed.

Definition fwdb (F : list (Z * Z)) (b : Z) : bool := existsb (fun x => fst x =? b) F.
Lemma fwdb_spec F b : fwdb F b = true <-> In b (map fst F).
Proof.
  unfold fwdb. rewrite existsb_exists. split.
  - intros ((x, y) & Hin & E). cbn [fst] in E. apply Z.eqb_eq in E. subst. eapply in_fst; eauto.
  - intros H. destruct (fst_in _ _ H) as (f & Hf). exists (b, f). split; auto. apply Z.eqb_refl.
Qed.

Definition deadl (F : list (Z * Z)) (l : list Z) : list Z := filter (fun b => negb (fwdb F b)) l.

Lemma finalize_ok m hp F : Final m hp F ->
  forall l a fuel, incl l blks -> blocks M0 he1 a l -> (length l < fuel)%nat ->
  finalize fuel m a he1 h2 (hmask s2) = Some (Val (natives M0 (deadl F l))).
Proof.
  intros HF. pose proof HF as [(D & I & HA & HB)].
  induction l as [|b l IH]; intros a fuel Hi Hb Hfu; inversion Hb as [|? ? Hb0 E1 E2]; subst.
  - destruct fuel as [|fuel]; [lia|]. cbn [finalize].
    rewrite Z.ltb_irrefl, Z.eqb_refl. reflexivity.
  - destruct fuel as [|fuel]; [cbn [length] in Hfu; lia|]. cbn [finalize].
    assert (Hbb : In b blks) by (apply Hi; left; auto).
    assert (Hil : incl l blks) by (intros x Hx; apply Hi; right; auto).
    cbn [length] in Hfu.
    pose proof (len_pos _ Hbb) as Lb. unfold len in Lb.
    destruct (blocks_le M0 he1 l _ ltac:(intros; apply len_nn; auto) Hb0) as (Q & _).
    assert (Hlt : b <? he1 = true) by (apply Z.ltb_lt; lia). rewrite Hlt.
    assert (IH' : finalize fuel m (b + 8 * (1 + blen (M0 b))) he1 h2 (hmask s2)
                  = Some (Val (natives M0 (deadl F l)))) by (apply IH; auto; lia).
    assert (Hskip : forall x, x = M0 b -> finalize fuel m (b + 8 + 8 * blen x) he1 h2 (hmask s2)
                  = Some (Val (natives M0 (deadl F l)))).
    { intros x ->. rewrite <- IH'. f_equal. lia. }
    assert (Hba : in_area b h1 s1).
    { replace b with (b + 8 * 0) by lia. apply blk_area; auto. unfold len. lia. }
    pose proof (wf_hdrs _ _ _ _ _ _ _ _ WF b Hbb) as Hh.
    cbn [deadl filter]. fold (deadl F l).
    destruct (fwdb F b) eqn:Ef; cbn [negb].
    + apply fwdb_spec in Ef. destruct (fst_in _ _ Ef) as (f & Hf).
      rewrite (i_fwd _ _ _ _ I _ _ Hf).
      destruct (to_cell m hp F D b f 1 I Hf) as (Q1 & Q2 & _ & _ & Q5); [unfold len; lia|].
      replace (f + 8 * 1) with (f + 8) in * by lia.
      assert (Hnz : f + 8 =? 0 = false).
      { apply Z.eqb_neq. pose proof (proj1 (wf_h2 _ _ _ _ _ _ _ _ WF)). unfold in_area in Q2. lia. }
      rewrite Hnz, notaptr_odd.
      assert (Hodd : Z.odd (f + 8) = false).
      { pose proof (Zmod_odd (f + 8)) as X. destruct (Z.odd (f + 8)); [|reflexivity]. exfalso. zdm. }
      rewrite Hodd.
      assert (Hi2 : inheap (f + 8) h2 (hmask s2) = true).
      { apply in2. split; auto. zdm. }
      rewrite Hi2. cbn [negb].
      replace (f + 8 - 8) with f by lia. rewrite (final_hdr m hp F b f HF Hf).
      rewrite notaptr_odd.
      destruct Hh as [[Ho Hr]|(Ho & Hz & A1 & A2)]; rewrite Ho.
      * destruct (blen_size _ Ho Hr) as [-> _]. apply Hskip. reflexivity.
      * rewrite <- IH'. f_equal. unfold blen. rewrite Ho. lia.
    + assert (Hnin : ~ In b (map fst F)) by (intros C; apply fwdb_spec in C; congruence).
      rewrite (i_from _ _ _ _ I b Hba Hnin).
      destruct Hh as [[Ho Hr]|(Ho & Hz & A1 & A2)].
      * assert (Hnz : M0 b =? 0 = false) by (apply Z.eqb_neq; lia).
        rewrite Hnz, notaptr_odd, Ho. destruct (blen_size _ Ho Hr) as [-> _].
        rewrite Hskip by reflexivity. unfold natives. cbn [filter]. unfold native at 2.
        rewrite <- Z.negb_odd, Ho. reflexivity.
      * assert (Hnz : M0 b =? 0 = false) by (apply Z.eqb_neq; auto).
        rewrite Hnz, notaptr_odd, Ho.
        assert (Hi2 : inheap (M0 b) h2 (hmask s2) = false).
        { destruct (inheap (M0 b) h2 (hmask s2)) eqn:C; auto. apply in2 in C. destruct C. contradiction. }
        rewrite Hi2. cbn [negb].
        assert (El : blen (M0 b) = 1) by (unfold blen; rewrite Ho; reflexivity).
        replace (b + 16) with (b + 8 + 8 * blen (M0 b)) by lia.
        rewrite Hskip by reflexivity. cbn [option_map rbind].
        unfold natives at 2. cbn [filter]. unfold native at 1.
        rewrite <- Z.negb_odd, Ho. cbn [negb map].
        fold (natives M0 (deadl F l)).
        rewrite (i_from _ _ _ _ I (b + 8)).
        -- reflexivity.
        -- replace (b + 8) with (b + 8 * 1) by lia. apply blk_area; auto. unfold len; lia.
        -- intros C. destruct (fst_in _ _ C) as (g & Hg). pose proof (i_dom _ _ _ _ I _ _ Hg) as Hx.
           pose proof (blk_sep b _ Hbb Hx ltac:(lia)) as S. unfold len in S. lia.
Qed.

Lemma blks_length : Z.of_nat (length blks) <= s1.
Proof.
  assert (G : forall l, incl l blks -> Z.of_nat (length l) <= words_of M0 l).
  { induction l as [|b l IH]; intros Hi; [cbn; lia|].
    cbn [length words_of fold_right]. fold (words_of M0 l).
    assert (In b blks) by (apply Hi; left; auto).
    pose proof (len_pos _ H). unfold len in *.
    specialize (IH ltac:(intros x Hx; apply Hi; right; auto)). lia. }
  pose proof (G blks (incl_refl _)).
  pose proof (blocks_words _ _ _ _ (wf_blocks _ _ _ _ _ _ _ _ WF)) as W'.
  pose proof (wf_hp _ _ _ _ _ _ _ _ WF). unfold he1 in *. lia.
Qed.

Definition gc_events (F : list (Z * Z)) : list event := natives M0 (deadl F blks).

Lemma relocate_ok fuel fin : s2 < Z.of_nat fuel ->
  exists m' hp' F,
    relocate fuel fin cells M0 he2 he1 hp0 h1 (hmask s1) h2 (hmask s2)
      = Some (Val (m', hp', if fin then gc_events F else [])) /\ Final m' hp' F.
Proof.
  intros Hfuel. unfold relocate.
  destruct (move_roots_ok cells M0 he2 [] _ (incl_refl _) inv_init)
    as (m1 & hp1 & F1 & D1 & E1 & I1 & HR & _).
  rewrite E1.
  destruct (tile_range hp1 F1 (i_dom _ _ _ _ I1) (i_tile _ _ _ _ I1)) as (T1 & T2 & T3).
  destruct (wf_s2 _ _ _ _ _ _ _ _ WF) as (k & Hk & Es).
  assert (0 < s2) by (rewrite Es; apply Z.pow_pos_nonneg; lia).
  destruct (scan_ok fuel m1 he2 hp1 F1 D1 I1) as (m2 & hp2 & F2 & D2 & E2 & I2 & A & B).
  - lia.
  - zdm.
  - unfold he2. zdm.
  - intros a Ha. lia.
  - auto.
  - rewrite E2.
    assert (HF : Final m2 hp2 F2).
    { constructor. exists D2. split; auto. split; auto.
      intros b f i Hin Hi. destruct (to_cell m2 hp2 F2 D2 b f i I2 Hin Hi) as (Q1 & Q2 & Q3 & Q4 & Q5).
      apply A; auto. pose proof (proj2 (wf_h2 _ _ _ _ _ _ _ _ WF)). unfold he2. zdm. }
    exists m2, hp2, F2. split; auto.
    destruct fin; auto.
    rewrite (finalize_ok m2 hp2 F2 HF blks hp0 fuel (incl_refl _) (wf_blocks _ _ _ _ _ _ _ _ WF)).
    + reflexivity.
    + pose proof blks_length. lia.
Qed.

End Copy.
