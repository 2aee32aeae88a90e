(** Sorting, and the numbers of closure entries. *)
From Coq Require Import ZArith String List Bool Lia Arith Permutation Sorted.
From Verif Require Import Base Model_Lit Model_Core Model_CodeGen Model_Roots Model_Cases Proofs_Sim Proofs_Core Proofs_Free.
Import ListNotations.

Section Sort.
Context {A : Type}.
Variable less : A -> A -> bool.
Lemma merge_cons a l1 b l2 : merge_by less (a :: l1) (b :: l2) = if less b a then b :: merge_by less (a :: l1) l2 else a :: merge_by less l1 (b :: l2).
Proof. reflexivity. Qed.
Lemma merge_nil l : merge_by less l [] = l.
Proof. now destruct l. Qed.
Lemma merge_ind (Q : list A -> list A -> list A -> Prop) : (forall l, Q [] l l) -> (forall l, Q l [] l) ->
  (forall a l1 b l2 r, less b a = true -> Q (a :: l1) l2 r -> Q (a :: l1) (b :: l2) (b :: r)) ->
  (forall a l1 b l2 r, less b a = false -> Q l1 (b :: l2) r -> Q (a :: l1) (b :: l2) (a :: r)) -> forall l1 l2, Q l1 l2 (merge_by less l1 l2).
Proof.
  intros N1 N2 L R. induction l1 as [|a l1 IH1]; intros l2; [apply N1|]. induction l2 as [|b l2 IH2]; [apply N2|]. rewrite merge_cons. destruct (less b a) eqn:E; auto.
Qed.
Lemma merge_perm l1 l2 : Permutation (merge_by less l1 l2) (l1 ++ l2).
Proof.
  apply (merge_ind (fun (l1 l2 r : list A) => @Permutation A r (@app A l1 l2))); intros.
  - reflexivity.
  - now rewrite app_nil_r.
  - rewrite H0. apply Permutation_cons_app. reflexivity.
  - cbn. now constructor.
Qed.
Lemma split_loop_app : forall hd tl x y : list A, split_loop hd tl = (x, y) -> hd = x ++ y.
Proof.
  induction hd as [|a hd IH]; intros tl x y E; cbn in E; [now injection E as <- <-|]. destruct tl as [|? [|? tl]]; try (injection E as <- <-; reflexivity).
  destruct (split_loop hd tl) as (x' & y') eqn:S. injection E as <- <-. cbn. f_equal. eauto.
Qed.
Lemma split_short : forall n (hd tl x y : list A), (length tl < n)%nat -> (S (length tl) <= length hd)%nat -> tl <> [] -> split_loop hd tl = (x, y) -> (length x < length hd)%nat /\ x <> [].
Proof.
  induction n as [|n IH]; intros hd tl x y L H N E; [lia|]. destruct hd as [|a hd]; [cbn in H; lia|]. destruct tl as [|t1 [|t2 tl]]; [easy | |].
  - cbn in E. injection E as <- <-. destruct hd; cbn in *; [lia|]. split; [lia | discriminate].
  - cbn in E. destruct (split_loop hd tl) as (x' & y') eqn:S. injection E as <- <-. split; [|discriminate]. cbn in L, H |- *.
    destruct tl as [|t3 tl].
    + destruct hd as [|b hd]; [cbn in *; lia|]. cbn in S. injection S as <- <-. cbn in *. lia.
    + apply IH in S; [|cbn in *; lia | cbn in *; lia | discriminate]. lia.
Qed.
Lemma split_ok (l x y : list A) : (2 <= length l)%nat -> split_by l = (x, y) -> l = x ++ y /\ (length x < length l)%nat /\ (length y < length l)%nat.
Proof.
  intros L E. destruct l as [|a l]; [cbn in L; lia|]. cbn [split_by] in E. assert (H := split_loop_app _ _ _ _ E). destruct l as [|b l]; [cbn in L; lia|].
  destruct (split_short (S (length (b :: l))) (a :: b :: l) (b :: l) x y) as (X & N); [lia | cbn; lia | discriminate | assumption |].
  split; [assumption | split; [assumption|]]. rewrite H in *. rewrite app_length in *. destruct x; [easy | cbn in *; lia].
Qed.
Lemma sort_total : forall n l, (length l < n)%nat -> exists r, sort_by less n l = Some r /\ Permutation r l.
Proof.
  induction n as [|n IH]; intros l L; [lia|]. cbn [sort_by]. destruct l as [|a [|b l]]; [eauto | eauto |]. destruct (split_by (a :: b :: l)) as (x & y) eqn:S.
  apply split_ok in S; [|cbn; lia]. destruct S as (E & X & Y). destruct (IH x) as (r1 & -> & P1); [lia|]. destruct (IH y) as (r2 & -> & P2); [lia|].
  eexists. split; [reflexivity|]. rewrite merge_perm, P1, P2, E. reflexivity.
Qed.
(** ** Order *)
Definition le (a b : A) : Prop := less b a = false.
Hypothesis asym : forall a b, less a b = true -> less b a = false.
Hypothesis trans : forall a b c, less a b = true -> less a c = true \/ less c b = true.
Lemma le_trans a b c : le a b -> le b c -> le a c.
Proof. unfold le. intros H H0. destruct (less c a) eqn:E; [|reflexivity]. destruct (trans c a b E); congruence. Qed.
Lemma merge_in l1 l2 x : In x (merge_by less l1 l2) -> In x l1 \/ In x l2.
Proof. intros I. apply (Permutation_in _ (merge_perm l1 l2)) in I. now apply in_app_or. Qed.
Lemma merge_sorted l1 l2 : StronglySorted le l1 -> StronglySorted le l2 -> StronglySorted le (merge_by less l1 l2).
Proof.
  revert l2. induction l1 as [|a l1 IH1]; intros l2 S1 S2; [assumption|]. induction l2 as [|b l2 IH2]; [assumption|]. rewrite merge_cons. inversion S1 as [|? ? S1' F1]; subst. inversion S2 as [|? ? S2' F2]; subst.
  rewrite Forall_forall in F1, F2. destruct (less b a) eqn:E.
  - constructor; [auto|]. apply Forall_forall. intros x I. assert (B : le b a) by (unfold le; auto). apply merge_in in I. destruct I as [[<-|I]|I]; [assumption | eapply le_trans; eauto | auto].
  - constructor; [auto|]. apply Forall_forall. intros x I. apply merge_in in I. destruct I as [I|[<-|I]]; [auto | exact E | eapply le_trans; [exact E | auto]].
Qed.
(** elements that are not told apart keep their order *)
Lemma merge_stable p l1 l2 : (forall a b, p a = true -> p b = true -> less a b = false) ->
  StronglySorted le l1 -> StronglySorted le l2 -> filter p (merge_by less l1 l2) = filter p l1 ++ filter p l2.
Proof.
  intros Eq. revert l2. induction l1 as [|a l1 IH1]; intros l2 S1 S2; [reflexivity|]. induction l2 as [|b l2 IH2]; [cbn; now rewrite app_nil_r|]. rewrite merge_cons. inversion S1 as [|? ? S1' F1]; subst. inversion S2 as [|? ? S2' F2]; subst.
  destruct (less b a) eqn:E.
  - cbn [filter] in *. rewrite IH2 by assumption. destruct (p b) eqn:Pb; [|reflexivity].
    assert (No : filter p (a :: l1) = []).
    { assert (N : forall d, In d (a :: l1) -> p d = false).
      { intros d I. destruct (p d) eqn:Pd; [|reflexivity]. assert (L : le a d) by (destruct I as [<-|I]; [unfold le; destruct (less a a) eqn:Q; [apply asym in Q as Q'; congruence | reflexivity] | rewrite Forall_forall in F1; auto]).
        assert (X := Eq b d Pb Pd). destruct (trans b a d E) as [Y|Y]; [congruence|]. unfold le in L. congruence. }
      clear - N. induction (a :: l1) as [|d l IH]; [reflexivity|]. cbn. rewrite (N d) by now left. apply IH. intros x I. apply N. now right. }
    cbn [filter] in No. rewrite No. reflexivity.
  - cbn [filter]. rewrite IH1 by assumption. cbn [filter]. now destruct (p a).
Qed.
Lemma sort_sorted : forall n l r, sort_by less n l = Some r -> StronglySorted le r.
Proof.
  induction n as [|n IH]; intros l r E; [discriminate|]. cbn [sort_by] in E. destruct l as [|a [|b l]]; [injection E as <-; constructor | injection E as <-; repeat constructor |].
  destruct (split_by (a :: b :: l)) as (x & y). destruct (sort_by less n x) as [r1|] eqn:E1; [|discriminate]. destruct (sort_by less n y) as [r2|] eqn:E2; [|discriminate]. injection E as <-. apply merge_sorted; eauto.
Qed.
Lemma sort_stable p : (forall a b, p a = true -> p b = true -> less a b = false) -> forall n l r, sort_by less n l = Some r -> filter p r = filter p l.
Proof.
  intros Eq. induction n as [|n IH]; intros l r E; [discriminate|]. cbn [sort_by] in E. destruct l as [|a [|b l]]; [now injection E as <- | now injection E as <- |].
  destruct (split_by (a :: b :: l)) as (x & y) eqn:S. destruct (sort_by less n x) as [r1|] eqn:E1; [|discriminate]. destruct (sort_by less n y) as [r2|] eqn:E2; [|discriminate]. injection E as <-.
  rewrite merge_stable by (eauto using sort_sorted). rewrite (IH _ _ E1), (IH _ _ E2). apply split_ok in S; [|cbn; lia]. destruct S as (-> & _). now rewrite filter_app.
Qed.
End Sort.

(** ** Numbers *)
Lemma curries_in l : forall al x, In x (add_curries l al) <-> In x al \/ exists ids n, In (FCurry x ids n) l.
Proof.
  induction l as [|f l IH]; intros al x; cbn [add_curries]; [split; [auto | intros [H|(? & ? & [])]; exact H]|]. destruct f as [lb ids n|y lb|lb n]; rewrite IH.
  - assert (Q : In x (if memq lb al then al else lb :: al) <-> In x al \/ x = lb). { destruct (memq lb al) eqn:M; [apply memq_In in M; split; [auto | intros [H| ->]; auto] | cbn; split; intros [H|H]; auto]. }
    rewrite Q. split.
    + intros [[H| ->]|(i & k & H)]; [auto | right; exists ids, n; now left | right; exists i, k; now right].
    + intros [H|(i & k & [H|H])]; [auto | injection H as -> -> ->; auto | eauto].
  - split; (intros [H|(i & k & H)]; [auto | right; exists i, k]); [now right | destruct H as [H|H]; [discriminate | exact H]].
  - split; (intros [H|(i & k & H)]; [auto | right; exists i, k]); [now right | destruct H as [H|H]; [discriminate | exact H]].
Qed.
Lemma curries_nodup l : forall al, NoDup al -> NoDup (add_curries l al).
Proof.
  induction l as [|f l IH]; intros al N; cbn [add_curries]; [assumption|]. destruct f as [lb ids n|y lb|lb n]; auto. apply IH. destruct (memq lb al) eqn:M; [assumption|]. constructor; [|assumption]. intros I. apply memq_In in I. congruence.
Qed.
Lemma pos_in x l : In x l -> exists i, pos x l = Some i.
Proof. induction l as [|y l IH]; [easy|]. cbn. destruct (id_eqb x y) eqn:E; [eauto|]. intros [->|I]; [rewrite id_eqb_refl in E; discriminate|]. destruct (IH I) as (i & ->). cbn. eauto. Qed.
Lemma pos_inj l x y i : pos x l = Some i -> pos y l = Some i -> x = y.
Proof.
  revert i. induction l as [|z l IH]; intros i A B; [discriminate|]. cbn in A, B. destruct (id_eqb x z) eqn:E1, (id_eqb y z) eqn:E2.
  - apply id_eqb_eq in E1, E2. congruence.
  - injection A as <-. destruct (pos y l); discriminate.
  - injection B as <-. destruct (pos x l); discriminate.
  - destruct (pos x l) as [k|] eqn:P1, (pos y l) as [k'|] eqn:P2; try discriminate. injection A as <-. injection B as <-. eauto.
Qed.
Lemma case_no_app lb : forall l1 l2 i, ~ In lb l1 -> case_no lb (l1 ++ l2) i = case_no lb l2 (i + length l1).
Proof.
  induction l1 as [|y l1 IH]; intros l2 i N; cbn [app case_no length]; [now rewrite Nat.add_0_r|]. destruct (id_eqb y lb) eqn:E; [apply id_eqb_eq in E; subst; destruct N; now left|]. rewrite IH by (intros I; apply N; now right). f_equal. lia.
Qed.
Lemma case_no_none lb : forall l i, ~ In lb l -> case_no lb l i = None.
Proof. induction l as [|y l IH]; intros i N; [reflexivity|]. cbn. destruct (id_eqb y lb) eqn:E; [apply id_eqb_eq in E; subst; destruct N; now left|]. apply IH. intros I. apply N. now right. Qed.
Lemma case_no_bound lb : forall l i k, case_no lb l i = Some k -> (i <= k < i + length l)%nat /\ nth_error l (k - i) = Some lb.
Proof.
  induction l as [|y l IH]; intros i k E; [discriminate|]. cbn in E. destruct (id_eqb y lb) eqn:Q.
  - apply id_eqb_eq in Q. injection E as <-. rewrite Nat.sub_diag. cbn. subst. split; [lia | reflexivity].
  - apply IH in E. destruct E as (B & N). cbn [length]. split; [lia|]. replace (k - i)%nat with (S (k - S i)) by lia. exact N.
Qed.
Lemma case_no_in lb l i : In lb l -> exists k, case_no lb l i = Some k.
Proof. revert i. induction l as [|y l IH]; intros i I; [easy|]. cbn. destruct (id_eqb y lb) eqn:E; [eauto|]. destruct I as [->|I]; [rewrite id_eqb_refl in E; discriminate | eauto]. Qed.
Lemma pos_app x l1 l2 : ~ In x l1 -> pos x (l1 ++ l2) = option_map (plus (length l1)) (pos x l2).
Proof.
  induction l1 as [|y l1 IH]; intros N; cbn [app pos length]; [now destruct (pos x l2)|]. destruct (id_eqb x y) eqn:E; [apply id_eqb_eq in E; subst; destruct N; now left|]. rewrite IH by (intros I; apply N; now right). now destruct (pos x l2).
Qed.
Lemma nodup_apart (a b : list id) x : NoDup (a ++ b) -> In x a -> ~ In x b.
Proof. induction a as [|y a IH]; [easy|]. cbn. intros N [->|I]; inversion N as [|? ? H N']; subst; [intros K; apply H, in_or_app; auto | auto]. Qed.
Definition key (ids : list id) (x : id) : nat := match pos x ids with Some i => i | None => O end.
Definition sooner (ids : list id) (a b : id) : bool := Nat.ltb (key ids a) (key ids b).
Lemma merge_ext {A} (f g : A -> A -> bool) : forall l1 l2, (forall a b, In a (l1 ++ l2) -> In b (l1 ++ l2) -> f a b = g a b) -> merge_by f l1 l2 = merge_by g l1 l2.
Proof.
  induction l1 as [|a l1 IH1]; intros l2 H; [reflexivity|]. induction l2 as [|b l2 IH2]; [reflexivity|]. rewrite !merge_cons.
  rewrite <- H; [|apply in_or_app; right; now left | now left]. destruct (f b a); f_equal.
  - apply IH2. intros x y X Y. apply H; [apply in_app_or in X; apply in_or_app; destruct X as [X|X]; [now left | right; now right] | apply in_app_or in Y; apply in_or_app; destruct Y as [Y|Y]; [now left | right; now right]].
  - apply IH1. intros x y X Y. apply H; now right.
Qed.
Lemma sort_ext {A} (f g : A -> A -> bool) : forall n l, (forall a b, In a l -> In b l -> f a b = g a b) -> sort_by f n l = sort_by g n l.
Proof.
  induction n as [|n IH]; intros l H; [reflexivity|]. cbn [sort_by]. destruct l as [|a [|b l]]; try reflexivity. destruct (split_by (a :: b :: l)) as (x & y) eqn:S. apply (split_ok f) in S; [|cbn; lia]. destruct S as (E & X & Y).
  rewrite E in H. assert (Hx : forall a b, In a x -> In b x -> f a b = g a b) by (intros; apply H; apply in_or_app; auto). assert (Hy : forall a b, In a y -> In b y -> f a b = g a b) by (intros; apply H; apply in_or_app; auto).
  rewrite (IH x Hx), (IH y Hy). destruct (sort_by g n x) as [r1|] eqn:E1; [|reflexivity]. destruct (sort_by g n y) as [r2|] eqn:E2; [|reflexivity]. f_equal. apply merge_ext.
  assert (P1 : Permutation r1 x /\ Permutation r2 y).
  { assert (Q : forall n (l r : list A), sort_by g n l = Some r -> Permutation r l).
    { clear. induction n as [|n IH]; intros l r E; [discriminate|]. cbn [sort_by] in E. destruct l as [|a [|b l]]; [now injection E as <- | now injection E as <- |]. destruct (split_by (a :: b :: l)) as (x & y) eqn:S.
      destruct (sort_by g n x) as [r1|] eqn:E1; [|discriminate]. destruct (sort_by g n y) as [r2|] eqn:E2; [|discriminate]. injection E as <-. apply (split_ok g) in S; [|cbn; lia]. destruct S as (-> & _). rewrite merge_perm. apply IH in E1, E2. now rewrite E1, E2. }
    eauto. }
  destruct P1 as (P1 & P2). intros u w U W. apply H; eapply Permutation_in; try eassumption; now rewrite P1, P2.
Qed.
Lemma sooner_before ids a b : In a ids -> In b ids -> c_before ids a b = sooner ids a b.
Proof. intros A B. unfold c_before, sooner, key. destruct (pos_in _ _ A) as (i & ->). destruct (pos_in _ _ B) as (j & ->). reflexivity. Qed.
Lemma sooner_asym ids a b : sooner ids a b = true -> sooner ids b a = false.
Proof. unfold sooner. rewrite Nat.ltb_lt, Nat.ltb_ge. lia. Qed.
Lemma sooner_trans ids a b c : sooner ids a b = true -> sooner ids a c = true \/ sooner ids c b = true.
Proof. unfold sooner. intros H. apply Nat.ltb_lt in H. destruct (Nat.ltb_spec (key ids a) (key ids c)); [now left | right; apply Nat.ltb_lt; lia]. Qed.
Section Written.
Variable ids : list id.
Hypothesis nd : NoDup ids.
Lemma written_seq : forall rest front al done, ids = front ++ rest -> NoDup (done ++ al) -> (forall x, In x done -> In x front) -> (forall x, In x al -> In x rest) ->
  StronglySorted (le (sooner ids)) al ->
  flat_map (fun lb => match case_no lb (done ++ al) case_start with Some i => [i] | None => [] end) rest = seq (case_start + length done) (length al).
Proof.
  induction rest as [|x rest IH]; intros front al don E N D R S.
  - destruct al as [|y al]; [reflexivity | destruct (R y); now left].
  - assert (Nx : ~ In x front /\ ~ In x rest). { rewrite E in nd. apply NoDup_remove in nd. destruct nd as (_ & K). split; intros I; apply K, in_or_app; auto. }
    assert (Ef : ids = (front ++ [x]) ++ rest) by now rewrite <- app_assoc.
    cbn [flat_map]. destruct al as [|y al].
    + rewrite case_no_none; [|rewrite app_nil_r; intros I; apply D in I; tauto]. cbn [app length]. rewrite (IH (front ++ [x]) [] don); auto; [intros z Z; apply in_or_app; auto | intros z []].
    + inversion S as [|? ? S' F]; subst. destruct (id_eqb x y) eqn:Q.
      * apply id_eqb_eq in Q. subst y. assert (Nd : ~ In x don) by (intros I; apply D in I; tauto). rewrite case_no_app by assumption. cbn [case_no]. rewrite id_eqb_refl. cbn [app length seq]. f_equal.
        assert (Ap : (don ++ [x]) ++ al = don ++ x :: al) by (now rewrite <- app_assoc). assert (X := IH (front ++ [x]) al (don ++ [x])). rewrite Ap, app_length in X. cbn [length] in X. rewrite Nat.add_assoc, Nat.add_1_r in X. rewrite X; auto.
        -- intros z Z. apply in_app_or in Z. apply in_or_app. destruct Z as [Z|[<-|[]]]; [left; auto | right; now left].
        -- intros z Z. destruct (R z) as [->|H]; [now right| |exact H]. apply NoDup_remove in N. destruct N as (_ & K). destruct K. apply in_or_app. auto.
      * assert (Ne : x <> y) by (intros ->; rewrite id_eqb_refl in Q; discriminate).
        assert (Nal : ~ In x (y :: al)).
        { intros [<-|I]; [easy|]. destruct (R y) as [->|Iy]; [now left | easy |].
          assert (Ny : ~ In y front) by (intros K; apply (nodup_apart _ _ y nd K); now right). destruct Nx as (Nf & _).
          rewrite Forall_forall in F. apply F in I. unfold le, sooner, key in I. rewrite (pos_app y front), (pos_app x front) in I by assumption.
          cbn [pos] in I. rewrite id_eqb_refl in I. destruct (id_eqb y x) eqn:Q2; [apply id_eqb_eq in Q2; congruence|]. destruct (pos_in y rest Iy) as (i & Pi). rewrite Pi in I. cbn [option_map] in I. apply Nat.ltb_ge in I. lia. }
        rewrite case_no_none; [|intros I; apply in_app_or in I; destruct I as [I|I]; [apply D in I; tauto | tauto]]. cbn [app]. rewrite (IH (front ++ [x]) (y :: al) don); auto; [intros z Z; apply in_or_app; auto|].
        intros z Z. destruct (R z Z) as [->|H]; [tauto | exact H].
Qed.
End Written.

Lemma cases_ok ids lams b : NoDup ids -> let e := EFix ids lams b in (forall lb ps n, In (FCurry lb ps n) (collected e) -> In lb ids) ->
  exists al, curry_alist e = Some al /\ cases_written ids al = seq 0 (ncases al) /\ NoDup al /\ (forall x, In x al <-> exists ps n, In (FCurry x ps n) (collected e)).
Proof.
  intros N e H. cbn [curry_alist]. set (l := add_curries (collected (EFix ids lams b)) []).
  assert (I : forall x, In x l <-> exists ps n, In (FCurry x ps n) (collected e)). { intros x. unfold l. rewrite curries_in. cbn [In]. fold e. tauto. }
  assert (J : forall x, In x l -> In x ids) by (intros x X; apply I in X; destruct X as (ps & n & X); eauto).
  destruct (sort_total (c_before ids) (S (length l)) l) as (al & E & P); [lia|]. exists al. split; [exact E|].
  rewrite (sort_ext _ (sooner ids)) in E by (intros a c A C; apply sooner_before; auto).
  assert (Nal : NoDup al) by (eapply Permutation_NoDup; [apply Permutation_sym; exact P | apply curries_nodup; constructor]).
  assert (K : forall x, In x al <-> In x l) by (intros x; split; apply Permutation_in; [exact P | now apply Permutation_sym]).
  split; [|split; [exact Nal | intros x; rewrite K; apply I]].
  unfold cases_written, ncases, case_start. cbn [plus seq]. f_equal. apply (written_seq ids N ids [] al []); [reflexivity | exact Nal | easy | intros x X; apply J; now apply K |].
  eapply sort_sorted; [apply sooner_asym | apply sooner_trans | exact E].
Qed.
