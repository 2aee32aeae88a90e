From Coq Require Import ZArith Lia List Bool Permutation.
From Verif Require Import Base Model_Imm Proofs_Imm Model_GC Spec_GC Proofs_GC1 Proofs_GC2.
Import ListNotations.
Open Scope Z_scope.

Lemma natives_perm m l l' : Permutation l l' -> Permutation (natives m l) (natives m l').
Proof.
  intros H. unfold natives. apply Permutation_map.
  induction H; cbn [filter].
  - constructor.
  - destruct (native (m x)); auto.
  - destruct (native (m x)), (native (m y)); auto. constructor.
  - eapply Permutation_trans; eauto.
Qed.
Lemma natives_app m l l' : natives m (l ++ l') = natives m l ++ natives m l'.
Proof. unfold natives. rewrite filter_app, map_app. reflexivity. Qed.

Lemma nodup_app (l l' : list Z) : NoDup l -> NoDup l' -> (forall x, In x l -> ~ In x l') -> NoDup (l ++ l').
Proof.
  induction l as [|x l IH]; intros A B C; cbn [app]; auto.
  inversion A; subst. constructor.
  - rewrite in_app_iff. intros [X|X]; [contradiction|]. apply (C x); [left; auto|auto].
  - apply IH; auto. intros y Hy. apply C. right; auto.
Qed.

(** What one pass of the collector achieves. *)
Definition pass_ok (M0 : mem) (h1 s1 h2 s2 : Z) (cells blks : list Z)
    (m' : mem) (hp' : Z) (blks' dead : list Z) : Prop :=
  heap_wf m' h2 s2 h1 s1 hp' cells blks' /\
  heap_iso M0 h1 s1 m' h2 s2 cells blks' /\
  NoDup dead /\
  (forall b, In b dead <-> In b blks /\ ~ reach M0 h1 s1 cells b) /\
  Permutation (natives M0 blks) (natives m' blks' ++ natives M0 dead) /\
  words_of m' blks' <= words_of M0 blks /\
  (forall a, ~ in_area a h1 s1 -> ~ in_area a h2 s2 -> ~ In a cells -> m' a = M0 a).

Section Pass.
Variables (M0 : mem) (h1 s1 h2 s2 hp0 : Z) (cells blks : list Z).
Hypothesis WF : heap_wf M0 h1 s1 h2 s2 hp0 cells blks.
Hypothesis FIT : s1 <= s2.
Variables (m : mem) (hp : Z) (F : list (Z * Z)).
Hypothesis HF : Final M0 h1 s1 h2 s2 cells blks m hp F.

Lemma F_inv : exists D, Inv M0 h1 s1 h2 s2 cells blks m hp F D.
Proof. destruct HF as [(D & I & _)]. eauto. Qed.

Lemma F_in_blks b f : In (b, f) F -> In b blks.
Proof. destruct F_inv as (D & I). apply (i_dom _ _ _ _ _ _ _ _ _ _ _ I). Qed.

Lemma F_cell b f i : In (b, f) F -> 0 <= i <= blen (M0 b) ->
  hp <= f + 8 * i < h2 + 8 * s2 /\ in_area (f + 8 * i) h2 s2 /\ ~ in_area (f + 8 * i) h1 s1 /\
  ~ In (f + 8 * i) cells /\ (f + 8 * i) mod 8 = 0.
Proof.
  destruct F_inv as (D & I). intros. eapply to_cell; eauto.
Qed.

Lemma F_hdr b f : In (b, f) F -> m f = M0 b.
Proof. intros. eapply final_hdr; eauto. Qed.

Lemma F_pos b f : In (b, f) F -> 1 <= blen (M0 b).
Proof. intros H. eapply len_pos; eauto. eapply F_in_blks; eauto. Qed.

Lemma F_blocks : blocks m (h2 + 8 * s2) hp (map snd F).
Proof.
  destruct F_inv as (D & I). pose proof (i_tile _ _ _ _ _ _ _ _ _ _ _ I) as T.
  assert (H : forall b f, In (b, f) F -> m f = M0 b) by (intros; eapply F_hdr; eauto).
  clear I HF. revert H. induction T as [|hp b F T IH]; intros H.
  - constructor.
  - cbn [map snd]. constructor. rewrite (H b) by (left; auto).
    replace (hp - 8 * (1 + blen (M0 b)) + 8 * (1 + blen (M0 b))) with hp by lia.
    apply IH. intros. apply H. right; auto.
Qed.

Lemma F_snd f : In f (map snd F) <-> exists b, In (b, f) F.
Proof.
  split.
  - intros H. apply in_map_iff in H. destruct H as ((b, f') & <- & H). eauto.
  - intros (b & H). apply in_map_iff. exists (b, f). auto.
Qed.

Lemma wrel_word w v : wrel h1 s1 h2 s2 F w v -> word_ok h2 s2 h1 s1 (map snd F) v.
Proof.
  intros [(A & B & ->)|(A & f & Hf & ->)]; split; auto.
  - intros C. contradiction.
  - intros _. apply F_snd. exists (w - 8). replace (f + 8 - 8) with f by lia. auto.
  - intros [C _]. destruct (F_cell (w - 8) f 1 Hf) as (_ & _ & Q & _).
    { pose proof (F_pos _ _ Hf). lia. }
    replace (f + 8 * 1) with (f + 8) in Q by lia. contradiction.
Qed.

Lemma wrel_rel w v : wrel h1 s1 h2 s2 F w v ->
  word_rel (fun b f => In (b, f) F) h1 s1 h2 s2 w v.
Proof.
  intros [(A & B & ->)|(A & f & Hf & ->)].
  - right. auto.
  - left. split; auto.
    destruct (F_cell (w - 8) f 1 Hf) as (_ & Q1 & Q & _ & Q5).
    { pose proof (F_pos _ _ Hf). lia. }
    replace (f + 8 * 1) with (f + 8) in * by lia.
    split; [split; auto; zdm|]. replace (f + 8 - 8) with f by lia. auto.
Qed.

Lemma F_inj b b' f : In (b, f) F -> In (b', f) F -> b = b'.
Proof.
  destruct F_inv as (D & I). intros H H'.
  destruct (tile_sep M0 h1 s1 h2 s2 hp0 cells blks WF hp F
    (i_dom _ _ _ _ _ _ _ _ _ _ _ I) (i_tile _ _ _ _ _ _ _ _ _ _ _ I) b f 0 b' f 0 H H') as (E & _); auto.
  - pose proof (F_pos _ _ H). lia.
  - pose proof (F_pos _ _ H'). lia.
Qed.

Lemma F_native_payload b f : In (b, f) F -> native (M0 b) = true -> m (f + 8) = M0 (b + 8).
Proof.
  intros Hin Hn.
  assert (El : blen (M0 b) = 1) by (unfold blen, native in *; rewrite <- Z.negb_odd in Hn; destruct (Z.odd (M0 b)); auto; discriminate).
  pose proof (final_word M0 h1 s1 h2 s2 cells blks m hp F b f 1 HF Hin ltac:(lia)) as W.
  replace (f + 8 * 1) with (f + 8) in W by lia. replace (b + 8 * 1) with (b + 8) in W by lia.
  destruct W as [(_ & _ & E)|(C & _)]; auto.
  exfalso. apply (wf_native _ _ _ _ _ _ _ _ WF b); auto. eapply F_in_blks; eauto.
Qed.

Lemma F_natives : natives m (map snd F) = natives M0 (map fst F).
Proof.
  assert (G : forall l, incl l F -> natives m (map snd l) = natives M0 (map fst l)).
  { induction l as [|(b, f) l IH]; intros Hi; [reflexivity|].
    assert (Hin : In (b, f) F) by (apply Hi; left; auto).
    specialize (IH ltac:(intros x Hx; apply Hi; right; auto)).
    unfold natives in *. cbn [map fst snd filter]. rewrite (F_hdr _ _ Hin).
    destruct (native (M0 b)) eqn:En; auto.
    cbn [map]. rewrite IH, (F_hdr _ _ Hin), (F_native_payload _ _ Hin En). reflexivity. }
  apply G. apply incl_refl.
Qed.

Lemma pass_final : pass_ok M0 h1 s1 h2 s2 cells blks m hp (map snd F) (deadl F blks).
Proof.
  destruct F_inv as (D & I).
  pose proof (i_nodup _ _ _ _ _ _ _ _ _ _ _ I) as ND.
  assert (Hdom : incl (map fst F) blks).
  { intros b Hb. destruct (fst_in _ _ Hb) as (f & Hf). eapply F_in_blks; eauto. }
  unfold pass_ok. split; [|split; [|split; [|split; [|split; [|split]]]]].
  - constructor.
    + apply (wf_s2 _ _ _ _ _ _ _ _ WF).
    + apply (wf_s1 _ _ _ _ _ _ _ _ WF).
    + apply (wf_h2 _ _ _ _ _ _ _ _ WF).
    + apply (wf_h1 _ _ _ _ _ _ _ _ WF).
    + pose proof (wf_disj _ _ _ _ _ _ _ _ WF). lia.
    + intros c Hc. pose proof (wf_cells _ _ _ _ _ _ _ _ WF c Hc). tauto.
    + eapply hp_bound; eauto; apply I.
    + apply F_blocks.
    + intros f Hf. apply F_snd in Hf. destruct Hf as (b & Hb). rewrite (F_hdr _ _ Hb).
      destruct (wf_hdrs _ _ _ _ _ _ _ _ WF b (F_in_blks _ _ Hb)) as [X|(A & B & C & E)];
        [left; auto|right; auto].
    + intros f i Hf Hi. apply F_snd in Hf. destruct Hf as (b & Hb). rewrite (F_hdr _ _ Hb) in Hi.
      eapply wrel_word. eapply final_word; eauto.
    + intros f Hf Hn. apply F_snd in Hf. destruct Hf as (b & Hb). rewrite (F_hdr _ _ Hb) in Hn.
      rewrite (F_native_payload _ _ Hb Hn).
      destruct (wf_words _ _ _ _ _ _ _ _ WF b 1 (F_in_blks _ _ Hb)) as [_ X].
      { pose proof (F_pos _ _ Hb). lia. }
      replace (b + 8 * 1) with (b + 8) in X by lia. exact X.
    + intros c Hc. eapply wrel_word. eapply final_root; eauto.
  - exists (fun b f => In (b, f) F). split; [|split; [|split; [|split; [|split]]]].
    + intros b f f' H H'. eapply nodup_fun; eauto.
    + intros b b' f H H'. eapply F_inj; eauto.
    + intros b. rewrite <- (final_reach M0 h1 s1 h2 s2 cells blks m hp F b HF). split.
      * intros (f & Hf). eapply in_fst; eauto.
      * apply fst_in.
    + intros f. symmetry. apply F_snd.
    + intros c Hc. apply wrel_rel. eapply final_root; eauto.
    + intros b f Hb. split; [eapply F_hdr; eauto|].
      intros i Hi. apply wrel_rel. eapply final_word; eauto.
  - apply NoDup_filter. eapply blk_nodup; eauto.
  - intros b. unfold deadl. rewrite filter_In.
    rewrite <- (final_reach M0 h1 s1 h2 s2 cells blks m hp F b HF).
    rewrite <- fwdb_spec. destruct (fwdb F b); cbn [negb]; intuition congruence.
  - rewrite F_natives, <- natives_app. apply natives_perm. apply NoDup_Permutation.
    + eapply blk_nodup; eauto.
    + apply nodup_app; auto.
      * apply NoDup_filter. eapply blk_nodup; eauto.
      * intros b Hb Hd. unfold deadl in Hd. apply filter_In in Hd. destruct Hd as [_ Hd].
        apply fwdb_spec in Hb. rewrite Hb in Hd. discriminate.
    + intros b. rewrite in_app_iff. unfold deadl. rewrite filter_In. split.
      * intros Hb. destruct (fwdb F b) eqn:E; [left; apply fwdb_spec; auto|right; auto].
      * intros [Hb|[Hb _]]; auto.
  - assert (E : words_of m (map snd F) = words_of M0 (map fst F)).
    { assert (G : forall l, incl l F -> words_of m (map snd l) = words_of M0 (map fst l)).
      { induction l as [|(b, f) l IH]; intros Hi; [reflexivity|].
        cbn [map fst snd words_of fold_right].
        fold (words_of m (map snd l)) (words_of M0 (map fst l)).
        rewrite IH by (intros x Hx; apply Hi; right; auto).
        rewrite (F_hdr b f) by (apply Hi; left; auto). reflexivity. }
      apply G. apply incl_refl. }
    rewrite E. apply words_of_incl; auto. intros b Hb. eapply len_nn; eauto.
  - intros a A1 A2 A3. apply (i_frame _ _ _ _ _ _ _ _ _ _ _ I); auto.
    assert (h2 <= hp) by (eapply hp_bound; eauto; apply I).
    unfold in_area in A2. lia.
Qed.
End Pass.

Lemma relocate_pass fuel fin M0 h1 s1 h2 s2 hp0 cells blks he1 :
  heap_wf M0 h1 s1 h2 s2 hp0 cells blks -> s1 <= s2 -> s2 < Z.of_nat fuel ->
  (fin = true -> he1 = h1 + 8 * s1) ->
  exists m' hp' blks' dead,
    relocate fuel fin cells M0 (h2 + 8 * s2) he1 hp0 h1 (hmask s1) h2 (hmask s2)
      = Some (Val (m', hp', if fin then natives M0 dead else [])) /\
    pass_ok M0 h1 s1 h2 s2 cells blks m' hp' blks' dead.
Proof.
  intros WF FIT Hf Hfin.
  destruct (relocate_ok M0 h1 s1 h2 s2 hp0 cells blks WF FIT fuel fin Hf) as (m' & hp' & F & E & HF).
  exists m', hp', (map snd F), (deadl F blks). split.
  - destruct fin; [rewrite Hfin by auto; exact E|]. etransitivity; [|exact E]. reflexivity.
  - eapply pass_final; eauto.
Qed.
