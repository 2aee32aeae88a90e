(** Calls with variable numbers of arguments. *)
From Coq Require Import ZArith List Bool Lia.
From Verif Require Import Model_Apply Spec_Apply.
Import ListNotations.
Open Scope Z_scope.
Local Open Scope nat_scope.

Lemma getr_mid pre x post : getr (pre ++ x :: post) (length pre) = AOk x.
Proof. unfold getr. rewrite nth_error_app2 by lia. now rewrite Nat.sub_diag. Qed.
Lemma getr_at r i pre x post : r = pre ++ x :: post -> i = length pre -> getr r i = AOk x.
Proof. intros -> ->. apply getr_mid. Qed.
Lemma upd_mid pre x post o : upd (pre ++ x :: post) (length pre) o = pre ++ o :: post.
Proof. induction pre as [|a pre IH]; cbn; [reflexivity|]. now rewrite IH. Qed.
Lemma setr_at r i pre x post o : r = pre ++ x :: post -> i = length pre -> setr r i o = AOk (pre ++ o :: post).
Proof.
  intros -> ->. unfold setr. rewrite upd_mid. destruct (Nat.ltb_spec (length pre) (length (pre ++ x :: post))); [auto|].
  rewrite app_length in *. cbn in *. lia.
Qed.
Lemma setr_out r i o : length r <= i -> setr r i o = AUndef.
Proof. intros H. unfold setr. destruct (Nat.ltb_spec i (length r)); [lia|auto]. Qed.

Lemma rreserve_ok m r : exists more, rreserve m r = r ++ more /\ length (r ++ more) = Nat.max (length r) m.
Proof.
  unfold rreserve. destruct (Nat.leb_spec (length r) m); [destruct (Nat.ltb_spec (length r) m)|].
  - eexists. split; [reflexivity|]. rewrite app_length, repeat_length. lia.
  - exists []. rewrite app_nil_r. split; [auto|lia].
  - exists []. rewrite app_nil_r. split; [auto|lia].
Qed.

Lemma shift_ok mid : forall pre x junk, exists y,
  shift (length mid) (S (length pre)) (pre ++ x :: mid ++ junk) = AOk (pre ++ mid ++ y :: junk).
Proof.
  induction mid as [|m mid IH]; intros pre x junk; cbn [length shift].
  { exists x. reflexivity. }
  rewrite (getr_at _ _ (pre ++ [x]) m (mid ++ junk)) by (rewrite ?app_length, <- ?app_assoc; cbn; auto; lia).
  cbn [abind]. rewrite (setr_at _ _ pre x (m :: mid ++ junk) m) by (auto; lia). cbn [abind].
  destruct (IH (pre ++ [m]) m junk) as [y E]. exists y.
  rewrite app_length in E. cbn [length] in E. rewrite Nat.add_1_r in E. rewrite <- !app_assoc in E. cbn in E. exact E.
Qed.

Lemma pair_at_ok h a x y : blk h a = Some (BPair x y) -> pair_at h (OPtr a) = AOk (x, y).
Proof. intros E. unfold pair_at. now rewrite E. Qed.

Lemma spread_ok h l es : list_of h l es -> forall f pre junk, length es < f -> length es <= length junk ->
  spread f h l (pre ++ junk) (length pre) = AOk (pre ++ es ++ skipn (length es) junk, length pre + length es).
Proof.
  induction 1 as [|a x y l B L IH]; intros f pre junk F J; (destruct f as [|f]; [cbn in F; lia|]); cbn [spread].
  - cbn. now rewrite Nat.add_0_r.
  - rewrite (pair_at_ok _ _ _ _ B). cbn [abind fst snd]. destruct junk as [|j junk]; [cbn in J; lia|].
    rewrite (setr_at _ _ pre j junk x) by auto. cbn [abind].
    replace (pre ++ x :: junk) with ((pre ++ [x]) ++ junk) by now rewrite <- app_assoc.
    replace (S (length pre)) with (length (pre ++ [x])) by (rewrite app_length; cbn; lia).
    cbn in F, J. rewrite IH by lia. rewrite <- app_assoc. cbn. f_equal. f_equal. rewrite app_length. cbn. lia.
Qed.
Lemma spread_over h l es : list_of h l es -> forall f pre junk, length junk < f -> length junk < length es ->
  spread f h l (pre ++ junk) (length pre) = AUndef.
Proof.
  induction 1 as [|a x y l B L IH]; intros f pre junk F J; (destruct f as [|f]; [lia|]); cbn [spread].
  - cbn in J. lia.
  - rewrite (pair_at_ok _ _ _ _ B). cbn [abind fst snd]. destruct junk as [|j junk].
    + rewrite setr_out by (rewrite app_length; cbn; lia). reflexivity.
    + rewrite (setr_at _ _ pre j junk x) by auto. cbn [abind].
      replace (pre ++ x :: junk) with ((pre ++ [x]) ++ junk) by now rewrite <- app_assoc.
      replace (S (length pre)) with (length (pre ++ [x])) by (rewrite app_length; cbn; lia).
      cbn in F, J. apply IH; lia.
Qed.

Lemma holds_intro l junk : holds (l ++ junk) (length l) l.
Proof. now exists junk. Qed.

(** ** apply *)
(** the registers after the operands have been moved down *)
Lemma apply_prep r rc p k f mid l h : holds r rc (p :: k :: f :: mid ++ [l]) ->
  exists r3 y junk,
    appcase 0 r rc h =
      (q <- spread (S (length r3)) h l r3 (2 + length mid);
       _ <- assert_ (Nat.leb (snd q) APPLY_MAX_REGS); AOk (fst q, snd q, h)) /\
    r3 = (f :: k :: mid) ++ y :: l :: junk /\ length r3 = Nat.max (length r) APPLY_MAX_REGS.
Proof.
  intros (junk & Er & Erc). cbn [app] in Er.
  assert (Hrc : rc = 4 + length mid) by (rewrite Erc; cbn; rewrite app_length; cbn; lia).
  unfold appcase. change (0 =? 0)%Z with true. cbn iota.
  assert (Nat.leb 4 rc = true) as -> by (apply Nat.leb_le; lia). cbn [assert_ abind].
  destruct (rreserve_ok APPLY_MAX_REGS r) as (more & -> & EL).
  set (J := junk ++ more).
  assert (E0 : r ++ more = p :: k :: f :: mid ++ l :: J).
  { rewrite Er. cbn. rewrite <- !app_assoc. reflexivity. }
  rewrite E0 in *.
  rewrite (getr_at _ _ (p :: k :: f :: mid) l J) by (cbn; auto; lia). cbn [abind].
  rewrite (getr_at _ _ [p; k] f (mid ++ l :: J)) by auto. cbn [abind].
  rewrite (setr_at _ _ [] p (k :: f :: mid ++ l :: J) f) by auto. cbn [abind app].
  replace (rc - 1 - 3) with (length mid) by lia.
  destruct (shift_ok mid [f; k] f (l :: J)) as [y Es]. cbn [length app] in Es. rewrite Es. cbn [abind].
  exists ((f :: k :: mid) ++ y :: l :: J), y, J.
  replace (rc - 2) with (2 + length mid) by lia. split; [reflexivity|]. split; [reflexivity|].
  rewrite <- EL. cbn. rewrite !app_length. cbn. lia.
Qed.

Lemma apply_case r rc p k f mid l es h : holds r rc (p :: k :: f :: mid ++ [l]) -> list_of h l es ->
  length mid + length es + 2 <= APPLY_MAX_REGS ->
  exists r', appcase 0 r rc h = AOk (r', length mid + length es + 2, h) /\
             holds r' (length mid + length es + 2) (f :: k :: mid ++ es).
Proof.
  intros H L M. destruct (apply_prep _ _ _ _ _ _ _ h H) as (r3 & y & junk & -> & E3 & L3).
  assert (LJ : 2 + length mid + length (y :: l :: junk) = length r3) by (rewrite E3; cbn; rewrite app_length; cbn; lia).
  remember (S (length r3)) as fl eqn:Efl. rewrite E3. change (2 + length mid) with (length (f :: k :: mid)).
  rewrite (spread_ok _ _ _ L) by lia. cbn [abind fst snd].
  assert (Nat.leb (length (f :: k :: mid) + length es) APPLY_MAX_REGS = true) as ->
    by (apply Nat.leb_le; cbn [length]; lia).
  cbn [assert_ abind]. replace (length (f :: k :: mid) + length es) with (length mid + length es + 2) by (cbn [length]; lia).
  eexists. split; [reflexivity|]. eexists. split; [cbn; rewrite <- app_assoc; reflexivity|].
  cbn. rewrite app_length. lia.
Qed.

Lemma apply_over r rc p k f mid l es h : holds r rc (p :: k :: f :: mid ++ [l]) -> list_of h l es ->
  Nat.max (length r) APPLY_MAX_REGS < length mid + length es + 2 -> appcase 0 r rc h = AUndef.
Proof.
  intros H L M. destruct (apply_prep _ _ _ _ _ _ _ h H) as (r3 & y & junk & -> & E3 & L3).
  assert (LJ : 2 + length mid + length (y :: l :: junk) = length r3) by (rewrite E3; cbn; rewrite app_length; cbn; lia).
  remember (S (length r3)) as fl eqn:Efl. rewrite E3. change (2 + length mid) with (length (f :: k :: mid)).
  rewrite (spread_over _ _ _ L) by lia. reflexivity.
Qed.

Lemma proc_at_ok h a c s : blk h a = Some (BProc c s) -> proc_at h (OPtr a) = AOk (c, s).
Proof. intros E. unfold proc_at. now rewrite E. Qed.

Lemma holds_0 r rc p l : holds r rc (p :: l) -> getr r 0 = AOk p.
Proof. intros (junk & -> & _). reflexivity. Qed.
Lemma holds_set0 r rc p l q : holds r rc (p :: l) -> exists r', setr r 0 q = AOk r' /\ holds r' rc (q :: l) /\ length r' = length r.
Proof.
  intros (junk & -> & ->). eexists. cbn [app]. rewrite (setr_at _ _ [] p (l ++ junk) q) by auto. split; [reflexivity|].
  split; [now exists junk|]. cbn. now rewrite app_length.
Qed.

(** one turn of the loop *)
Lemma apphost_step n f r rc a s l h : holds r rc (OPtr a :: l) -> blk h a = Some (BProc (CApp n) s) ->
  apphost (S f) r rc h = (q <- appcase n r rc h; let '(r', rc', h') := q in apphost f r' rc' h').
Proof. intros H B. cbn [apphost]. rewrite (holds_0 _ _ _ _ H). cbn [abind]. rewrite (proc_at_ok _ _ _ _ B). reflexivity. Qed.
Lemma apphost_exit f r rc p l h z : holds r rc (p :: l) -> plain h p z -> apphost (S f) r rc h = AOk (CExt z, r, rc, h).
Proof.
  intros H (a & s & -> & B). cbn [apphost]. rewrite (holds_0 _ _ _ _ H). cbn [abind]. rewrite (proc_at_ok _ _ _ _ B). reflexivity.
Qed.

Lemma apply_ok r rc p k f mid l es h n : is_apply h p -> holds r rc (p :: k :: f :: mid ++ [l]) -> list_of h l es ->
  length mid + length es + 2 <= APPLY_MAX_REGS ->
  exists r' rc', holds r' rc' (f :: k :: mid ++ es) /\ apphost (S n) r rc h = apphost n r' rc' h.
Proof.
  intros (a & s & -> & B) H L M. destruct (apply_case _ _ _ _ _ _ _ _ h H L M) as (r' & E & H').
  exists r', (length mid + length es + 2). split; [exact H'|]. rewrite (apphost_step _ _ _ _ _ _ _ _ H B), E. reflexivity.
Qed.

(** ** dotted lambda lists *)
Lemma list_of_ext h h' l es : extends h h' -> (forall a, blk h a <> None -> a < free h) -> list_of h l es -> list_of h' l es.
Proof.
  intros [_ E] W. induction 1 as [|a x y l B L IH]; econstructor; eauto. rewrite E; [exact B|]. apply W. congruence.
Qed.
Lemma wf_low h a : wf_heap h -> blk h a <> None -> a < free h.
Proof. intros W N. destruct (Nat.lt_ge_cases a (free h)) as [L|L]; [auto|]. now apply W in L. Qed.
Lemma alloc_ok h b : wf_heap h -> exists h', alloc h b = (OPtr (free h), h') /\ extends h h' /\ wf_heap h' /\ blk h' (free h) = Some b.
Proof.
  intros W. eexists. split; [reflexivity|]. split; [|split]; cbn.
  - split; cbn; [lia|]. intros a L. destruct (Nat.eqb_spec a (free h)); [lia|auto].
  - intros a L. cbn in *. destruct (Nat.eqb_spec a (free h)); [lia|]. apply W. lia.
  - now rewrite Nat.eqb_refl.
Qed.
Lemma extends_refl h : extends h h. Proof. split; auto. Qed.
Lemma extends_trans h1 h2 h3 : extends h1 h2 -> extends h2 h3 -> extends h1 h3.
Proof. intros [A B] [C D]. split; [lia|]. intros a L. rewrite D by lia. now apply B. Qed.

Lemma collect_ok : forall b h l es pre junk, wf_heap h -> list_of h l es ->
  exists l' h', collect (length b) h (length pre) (pre ++ b ++ junk) l = AOk (l', h') /\ extends h h' /\ wf_heap h' /\
                list_of h' l' (b ++ es).
Proof.
  induction b as [|x b IH] using rev_ind; intros h l es pre junk W L.
  { exists l, h. split; [reflexivity|]. split; [apply extends_refl|auto]. }
  rewrite app_length. cbn [length]. rewrite Nat.add_1_r. cbn [collect].
  rewrite (getr_at _ _ (pre ++ b) x junk) by (rewrite ?app_length, <- ?app_assoc; auto). cbn [abind].
  destruct (alloc_ok h (BPair x l) W) as (h1 & -> & E1 & W1 & B1).
  assert (L1 : list_of h1 (OPtr (free h)) (x :: es)).
  { econstructor; [exact B1|]. eapply list_of_ext; eauto. intros a. now apply wf_low. }
  rewrite <- app_assoc. destruct (IH h1 _ _ pre ([x] ++ junk) W1 L1) as (l' & h' & -> & E & W' & L').
  exists l', h'. split; [reflexivity|]. split; [eapply extends_trans; eauto|split; [auto|]]. now rewrite <- app_assoc.
Qed.

Lemma dotted_case r rc a k args n lam h : holds r rc (OPtr a :: k :: args) -> wf_heap h ->
  blk h a = Some (make_improper_lambda (Z.of_nat n) lam) -> n <= length args ->
  exists r' rc' h' l, appcase 1 r rc h = AOk (r', rc', h') /\ extends h h' /\ wf_heap h' /\
    list_of h' l (skipn n args) /\ holds r' rc' (lam :: k :: firstn n args ++ [l]).
Proof.
  intros H W B N. unfold appcase. change (1 =? 0)%Z with false. change (1 =? 1)%Z with true. cbn iota.
  rewrite (holds_0 _ _ _ _ H). cbn [abind]. rewrite (proc_at_ok _ _ _ _ B). cbn [abind snd slot nth_error fix_of].
  destruct (holds_set0 _ _ _ _ lam H) as (r1 & -> & (junk & -> & Erc) & _). cbn [abind]. rewrite Nat2Z.id.
  assert (Hrc : rc = 2 + length args) by exact Erc.
  assert (Nat.leb (n + 2) rc = true) as -> by (apply Nat.leb_le; lia). cbn [assert_ abind].
  destruct (rreserve_ok (n + 2 + 1) ((lam :: k :: args) ++ junk)) as (more & -> & EL).
  rewrite <- app_assoc in *. set (J := junk ++ more) in *.
  destruct (Nat.eqb_spec rc (n + 2)) as [E|NE].
  - assert (n = length args) as -> by lia.
    rewrite !app_length in EL. cbn [length] in EL. destruct J as [|j J]; [cbn [length] in EL; lia|].
    rewrite (setr_at _ _ (lam :: k :: args) j J ONull) by auto. cbn [abind].
    eexists _, _, h, ONull. split; [reflexivity|]. split; [apply extends_refl|]. split; [auto|].
    rewrite skipn_all, firstn_all. split; [constructor|]. exists J. split; [cbn; now rewrite <- app_assoc|].
    rewrite Hrc. cbn. rewrite app_length. cbn. lia.
  - set (pre := lam :: k :: firstn n args). set (b := skipn n args).
    assert (E1 : (lam :: k :: args) ++ J = pre ++ b ++ J).
    { unfold pre, b. cbn. rewrite app_assoc, firstn_skipn. reflexivity. }
    rewrite E1. assert (Lp : n + 2 = length pre) by (unfold pre; cbn; rewrite firstn_length; lia).
    assert (Lb : rc - (n + 2) = length b) by (unfold b; rewrite skipn_length; lia).
    rewrite Lp, <- Lp, Lb, Lp.
    destruct (collect_ok b h ONull [] pre J W (lo_nil h)) as (l & h' & -> & E & W' & L).
    cbn [abind fst snd]. rewrite app_nil_r in L.
    assert (b <> []) by (intros Z; rewrite Z in Lb; cbn in Lb; lia).
    destruct b as [|x b]; [contradiction|].
    rewrite (setr_at _ _ pre x (b ++ J) l) by auto. cbn [abind].
    eexists _, _, h', l. split; [reflexivity|]. split; [auto|]. split; [auto|]. split; [exact L|].
    exists (b ++ J). unfold pre. split; [cbn; now rewrite <- app_assoc|]. cbn. rewrite app_length. cbn. lia.
Qed.

Lemma plain_ext h h' p z : extends h h' -> wf_heap h -> plain h p z -> plain h' p z.
Proof.
  intros [_ E] W (a & s & -> & B). exists a, s. split; [auto|]. rewrite E; [exact B|]. apply wf_low; [auto|congruence].
Qed.

(** a procedure made by the lambda macro *)
Definition made (f : formals) (p q : obj) (h : heap) : Prop :=
  if rest f then exists a, q = OPtr a /\ blk h a = Some (make_improper_lambda (Z.of_nat (req f)) p) else q = p.
Lemma lambda_made f p h : wf_heap h -> exists q h', lambda_ f p h = (q, h') /\ extends h h' /\ wf_heap h' /\ made f p q h'.
Proof.
  intros W. unfold lambda_, made. destruct (rest f).
  - destruct (alloc_ok h (make_improper_lambda (Z.of_nat (req f)) p) W) as (h' & -> & E & W' & B).
    eexists _, h'. split; [reflexivity|]. split; [auto|]. split; [auto|]. eauto.
  - eexists _, h. split; [reflexivity|]. split; [apply extends_refl|auto].
Qed.
Lemma made_ext f p q h h' : extends h h' -> wf_heap h -> made f p q h -> made f p q h'.
Proof.
  intros [_ E] W. unfold made. destruct (rest f); [|auto]. intros (a & -> & B). exists a. split; [auto|].
  rewrite E; [exact B|]. apply wf_low; [auto|congruence].
Qed.

Lemma made_call f p q k args r rc h z n : wf_heap h -> made f p q h -> plain h p z -> accepts f (length args) ->
  holds r rc (q :: k :: args) -> outcome f p k args h (apphost (S (S n)) r rc h) z.
Proof.
  intros W M P A H. unfold outcome, made, accepts, bound in *. destruct (rest f).
  - destruct M as (a & -> & B). destruct (dotted_case _ _ _ _ _ _ _ _ H W B A) as (r' & rc' & h' & l & E & X & W' & L & H').
    exists r', rc', h', (firstn (req f) args ++ [l]). split; [|split; [auto|split; [eauto|auto]]].
    rewrite (apphost_step _ _ _ _ _ _ _ _ H B), E. cbn [abind].
    apply apphost_exit with (1 := H'). eapply plain_ext; eauto.
  - subst q. exists r, rc, h, args. split; [|split; [auto|split; [auto|apply extends_refl]]].
    now apply apphost_exit with (1 := H).
Qed.

Lemma lambda_call f p k args r rc h q h1 z n : wf_heap h -> plain h p z -> lambda_ f p h = (q, h1) ->
  accepts f (length args) -> holds r rc (q :: k :: args) -> outcome f p k args h1 (apphost (S (S n)) r rc h1) z.
Proof.
  intros W P E A H. destruct (lambda_made f p h W) as (q' & h' & E' & X & W' & M). rewrite E' in E. injection E as <- <-.
  eapply made_call; eauto. eapply plain_ext; eauto.
Qed.

(** ** case-lambda *)
Inductive slots (h : heap) : list (formals * obj) -> list obj -> obj -> Prop :=
| sl_nil fail : slots h [] [OFix 0; OFix FIXNUM_MAX; fail] fail
| sl_cons f p cs q s fail : made f p q h -> slots h cs s fail ->
    slots h ((f, p) :: cs) (OFix (min_accepted f) :: OFix (max_accepted f) :: q :: s) fail.
Lemma slots_ext h h' cs s fail : extends h h' -> wf_heap h -> slots h cs s fail -> slots h' cs s fail.
Proof. intros E W. induction 1; constructor; auto. eapply made_ext; eauto. Qed.
Lemma unroll_ok cs : forall fail h, wf_heap h ->
  exists s h', unroll_cases cs fail h = (s, h') /\ extends h h' /\ wf_heap h' /\ slots h' cs s fail.
Proof.
  induction cs as [|[f p] cs IH]; intros fail h W; cbn [unroll_cases].
  - eexists _, h. split; [reflexivity|]. split; [apply extends_refl|]. split; [auto|constructor].
  - destruct (lambda_made f p h W) as (q & h1 & -> & E1 & W1 & M1).
    destruct (IH fail h1 W1) as (s & h2 & -> & E2 & W2 & S2). eexists _, h2. split; [reflexivity|].
    split; [eapply extends_trans; eauto|]. split; [auto|]. constructor; [|auto]. eapply made_ext; eauto.
Qed.
Lemma case_lambda_ok cs fail h : wf_heap h ->
  exists a h' s, case_lambda cs fail h = (OPtr a, h') /\ extends h h' /\ wf_heap h' /\
                 blk h' a = Some (make_case_lambda s) /\ slots h' cs s fail.
Proof.
  intros W. unfold case_lambda. destruct (unroll_ok cs fail h W) as (s & h1 & -> & E1 & W1 & S1).
  destruct (alloc_ok h1 (make_case_lambda s) W1) as (h2 & -> & E2 & W2 & B2). exists (free h1), h2, s.
  split; [reflexivity|]. split; [eapply extends_trans; eauto|]. split; [auto|]. split; [auto|]. eapply slots_ext; eauto.
Qed.

Lemma accepts_range f n : (Z.of_nat n <= FIXNUM_MAX)%Z ->
  ((min_accepted f <=? Z.of_nat n) && (Z.of_nat n <=? max_accepted f))%Z = true <-> accepts f n.
Proof.
  intros H. unfold accepts, min_accepted, max_accepted. rewrite andb_true_iff, !Z.leb_le. destruct (rest f); lia.
Qed.

Lemma find_chosen h cs s fail n f p : slots h cs s fail -> (Z.of_nat n <= FIXNUM_MAX)%Z -> chosen n cs f p ->
  exists q, find_case s (Z.of_nat n) = AOk q /\ made f p q h.
Proof.
  intros S H C. revert s S. induction C as [f p cs A|f p cs f' p' NA C IH]; intros s S; inversion S; subst; cbn [find_case fix_of abind].
  - apply (accepts_range f n H) in A. rewrite A. eauto.
  - destruct (_ && _)%bool eqn:E; [|auto]. apply (accepts_range f n H) in E. contradiction.
Qed.
Lemma find_none h cs s fail n : slots h cs s fail -> (Z.of_nat n <= FIXNUM_MAX)%Z -> (forall f p, ~ chosen n cs f p) ->
  find_case s (Z.of_nat n) = AOk fail.
Proof.
  intros S H. induction S as [fail|f p cs q s fail M S IH]; intros C; cbn [find_case fix_of abind].
  - assert (((0 <=? Z.of_nat n) && (Z.of_nat n <=? FIXNUM_MAX))%Z = true) as ->; [|reflexivity].
    rewrite andb_true_iff, !Z.leb_le. lia.
  - destruct (_ && _)%bool eqn:E.
    + apply (accepts_range f n H) in E. exfalso. apply (C f p). now constructor.
    + apply IH. intros f' p' C'. apply (C f' p'). apply ch_later; [|auto]. intros A.
      apply (accepts_range f n H) in A. congruence.
Qed.

Lemma case_dispatch r rc a k args s h q : holds r rc (OPtr a :: k :: args) -> blk h a = Some (make_case_lambda s) ->
  find_case s (Z.of_nat (length args)) = AOk q ->
  exists r', appcase 4 r rc h = AOk (r', rc, h) /\ holds r' rc (q :: k :: args).
Proof.
  intros H B F. unfold appcase. change (4 =? 0)%Z with false. change (4 =? 1)%Z with false. change (4 =? 2)%Z with false.
  change (4 =? 3)%Z with false. change (4 =? 4)%Z with true. cbn iota.
  rewrite (holds_0 _ _ _ _ H). cbn [abind]. rewrite (proc_at_ok _ _ _ _ B). cbn [abind snd].
  assert (Z.of_nat rc - 2 = Z.of_nat (length args))%Z as -> by (destruct H as (j & _ & ->); cbn [length]; lia).
  rewrite F. cbn [abind]. destruct (holds_set0 _ _ _ _ q H) as (r1 & -> & H1 & _). cbn [abind]. eauto.
Qed.

Lemma chosen_in n cs f p : chosen n cs f p -> In (f, p) cs /\ accepts f n.
Proof. induction 1; [split; [now left|auto]|]. destruct IHchosen. split; [now right|auto]. Qed.

Lemma case_lambda_call cs fail h q h1 k args r rc f p z n : wf_heap h -> case_lambda cs fail h = (q, h1) ->
  plain h p z -> (Z.of_nat (length args) <= FIXNUM_MAX)%Z -> chosen (length args) cs f p ->
  holds r rc (q :: k :: args) -> outcome f p k args h1 (apphost (S (S (S n))) r rc h1) z.
Proof.
  intros W E P L C H. destruct (case_lambda_ok cs fail h W) as (a & h' & s & E' & X & W' & B & S).
  rewrite E' in E. injection E as <- <-. destruct (find_chosen _ _ _ _ _ _ _ S L C) as (q & F & M).
  destruct (case_dispatch _ _ _ _ _ _ _ _ H B F) as (r' & Ec & H').
  rewrite (apphost_step _ _ _ _ _ _ _ _ H B), Ec. cbn [abind].
  eapply made_call; eauto; [eapply plain_ext; eauto|]. now apply chosen_in in C.
Qed.
Lemma case_lambda_fails cs fail h q h1 k args r rc n : wf_heap h -> case_lambda cs fail h = (q, h1) ->
  (Z.of_nat (length args) <= FIXNUM_MAX)%Z -> (forall f p, ~ chosen (length args) cs f p) ->
  holds r rc (q :: k :: args) ->
  exists r', holds r' rc (fail :: k :: args) /\ apphost (S n) r rc h1 = apphost n r' rc h1.
Proof.
  intros W E L C H. destruct (case_lambda_ok cs fail h W) as (a & h' & s & E' & X & W' & B & S).
  rewrite E' in E. injection E as <- <-. pose proof (find_none _ _ _ _ _ S L C) as F.
  destruct (case_dispatch _ _ _ _ _ _ _ _ H B F) as (r' & Ec & H').
  exists r'. split; [exact H'|]. rewrite (apphost_step _ _ _ _ _ _ _ _ H B), Ec. reflexivity.
Qed.

(** ** argument-count dispatch and void continuations *)
Lemma argc_call h a pv b v k args r rc f n : blk h a = Some (make_argc_dispatch pv) -> pv = OPtr b -> blk h b = Some (BVec v) ->
  nth_error v (Nat.min (length args) (length v - 1)) = Some f -> holds r rc (OPtr a :: k :: args) ->
  exists r', holds r' rc (f :: k :: args) /\ apphost (S n) r rc h = apphost n r' rc h.
Proof.
  intros B -> V N H. destruct (holds_set0 _ _ _ _ f H) as (r1 & E1 & H1 & _). exists r1. split; [exact H1|].
  rewrite (apphost_step _ _ _ _ _ _ _ _ H B). unfold appcase. cbn [Z.eqb Pos.eqb]. rewrite (holds_0 _ _ _ _ H). cbn [abind].
  rewrite (proc_at_ok _ _ _ _ B). cbn [abind snd slot nth_error vec_at]. rewrite V. cbn [abind].
  assert (Hl : 0 < length v) by (destruct v; [destruct (Nat.min _ _); discriminate N|cbn; lia]).
  apply Nat.ltb_lt in Hl as Hl'. rewrite Hl'. cbn [assert_ abind].
  assert (Hrc : rc - 2 = length args) by (destruct H as (j & _ & ->); cbn [length]; lia). rewrite Hrc.
  destruct (Nat.ltb_spec (length args) (length v - 1)).
  - rewrite Nat.min_l in N by lia. unfold slot. rewrite N. cbn [abind]. now rewrite E1.
  - rewrite Nat.min_r in N by lia. unfold slot. rewrite N. cbn [abind]. now rewrite E1.
Qed.

Lemma void_call h a c k args r rc n : blk h a = Some (make_void_continuation c) -> holds r rc (OPtr a :: k :: args) ->
  exists r', holds r' 3 [c; k; OVoid] /\ apphost (S n) r rc h = apphost n r' 3 h.
Proof.
  intros B H. destruct (holds_set0 _ _ _ _ c H) as (r1 & E1 & (junk & E2 & Hrc) & EL).
  rewrite (apphost_step _ _ _ _ _ _ _ _ H B). unfold appcase. cbn [Z.eqb Pos.eqb].
  assert (Nat.leb 2 rc = true) as -> by (apply Nat.leb_le; rewrite Hrc; cbn; lia). cbn [assert_ abind].
  rewrite (holds_0 _ _ _ _ H). cbn [abind]. rewrite (proc_at_ok _ _ _ _ B). cbn [abind snd slot nth_error].
  rewrite E1. cbn [abind]. destruct (rreserve_ok 3 r1) as (more & -> & E3).
  assert (exists x rest, r1 ++ more = c :: k :: x :: rest) as (x & rst & Ex).
  { clear - E2 E3. rewrite E2 in *. destruct args as [|y args]; [|cbn; eauto].
    rewrite <- app_assoc in *. cbn [app length] in *. destruct (junk ++ more) as [|y j]; [cbn [length] in E3; lia|eauto]. }
  rewrite Ex, (setr_at _ _ [c; k] x rst OVoid) by auto. cbn [abind]. eexists. split; [|reflexivity].
  exists rst. auto.
Qed.

Lemma too_few r rc k args f p q h h1 n : wf_heap h -> lambda_ f p h = (q, h1) -> rest f = true -> length args < req f ->
  holds r rc (q :: k :: args) -> apphost (S n) r rc h1 = AAbort.
Proof.
  intros W E R L H. unfold lambda_ in E. rewrite R in E.
  destruct (alloc_ok h (make_improper_lambda (Z.of_nat (req f)) p) W) as (h' & E' & _ & _ & B). rewrite E' in E. injection E as <- <-.
  rewrite (apphost_step _ _ _ _ _ _ _ _ H B). unfold appcase. cbn [Z.eqb Pos.eqb]. rewrite (holds_0 _ _ _ _ H). cbn [abind].
  rewrite (proc_at_ok _ _ _ _ B). cbn [abind snd slot nth_error fix_of].
  destruct (holds_set0 _ _ _ _ p H) as (r1 & -> & (junk & -> & Erc) & _). cbn [abind]. rewrite Nat2Z.id.
  assert (Nat.leb (req f + 2) rc = false) as ->; [|reflexivity]. apply Nat.leb_gt. rewrite Erc. cbn [length]. lia.
Qed.

Lemma apply_then_case cs fail h ap q h1 k mid l es r rc f p z n : wf_heap h -> case_lambda cs fail h = (q, h1) ->
  is_apply h1 ap -> plain h p z -> chosen (length (mid ++ es)) cs f p -> list_of h1 l es ->
  length mid + length es + 2 <= APPLY_MAX_REGS -> holds r rc (ap :: k :: q :: mid ++ [l]) ->
  outcome f p k (mid ++ es) h1 (apphost (S (S (S (S n)))) r rc h1) z.
Proof.
  intros W E A P C L M H. destruct (apply_ok _ _ _ _ _ _ _ _ _ (S (S (S n))) A H L M) as (r' & rc' & H' & ->).
  eapply case_lambda_call; eauto. rewrite app_length. unfold APPLY_MAX_REGS, FIXNUM_MAX in *. lia.
Qed.
