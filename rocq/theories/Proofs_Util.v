From Coq Require Import ZArith List Bool Lia.
Import ListNotations.
From Verif Require Import Model_Util.
Open Scope Z_scope.

(** ** sets *)
Lemma memq_In : forall x s, memq x s = true <-> In x s.
Proof.
  induction s as [|y s IH]; cbn [memq In]; [split; [discriminate|tauto]|].
  destruct (Z.eqb_spec x y) as [->|Hne]; [tauto|]. rewrite IH. intuition congruence.
Qed.

Lemma memq_nIn : forall x s, memq x s = false <-> ~ In x s.
Proof.
  intros x s. rewrite <- memq_In. destruct (memq x s); split; congruence.
Qed.

Lemma adjoinq_In : forall x s y, In y (adjoinq x s) <-> y = x \/ In y s.
Proof.
  intros x s y. unfold adjoinq. destruct (memq x s) eqn:E.
  - apply memq_In in E. intuition congruence.
  - cbn [In]. intuition.
Qed.

Lemma adjoinq_NoDup : forall x s, NoDup s -> NoDup (adjoinq x s).
Proof.
  intros x s H. unfold adjoinq. destruct (memq x s) eqn:E; [assumption|].
  constructor; [now apply memq_nIn|assumption].
Qed.

Lemma subsetq_incl : forall s1 s2, subsetq s1 s2 = true <-> (forall x, In x s1 -> In x s2).
Proof.
  induction s1 as [|y s IH]; intros s2; cbn [subsetq In]; [tauto|].
  destruct (memq y s2) eqn:E.
  - apply memq_In in E. rewrite IH. split; [intros H x [<-|Hx]; auto|auto].
  - apply memq_nIn in E. split; [discriminate|]. intros H. exfalso; apply E; auto.
Qed.

Lemma seteq_ext : forall s1 s2, seteq s1 s2 = true <-> (forall x, In x s1 <-> In x s2).
Proof.
  intros s1 s2. unfold seteq. destruct (subsetq s1 s2) eqn:E.
  - rewrite subsetq_incl in *. firstorder.
  - split; [discriminate|]. intros H.
    assert (subsetq s1 s2 = true) by (apply subsetq_incl; firstorder). congruence.
Qed.

Lemma unionq_In : forall s1 s2 x, In x (unionq s1 s2) <-> In x s1 \/ In x s2.
Proof.
  induction s1 as [|y s IH]; intros s2 x; cbn [unionq In]; [tauto|].
  destruct (memq y s2) eqn:E.
  - apply memq_In in E. rewrite IH. intuition congruence.
  - cbn [In]. rewrite IH. tauto.
Qed.

Lemma intersectionq_In : forall s1 s2 x, In x (intersectionq s1 s2) <-> In x s1 /\ In x s2.
Proof.
  induction s1 as [|y s IH]; intros s2 x; cbn [intersectionq In]; [tauto|].
  destruct (memq y s2) eqn:E.
  - apply memq_In in E. cbn [In]. rewrite IH. intuition congruence.
  - apply memq_nIn in E. rewrite IH. intuition congruence.
Qed.

Lemma setdiffq_In : forall s1 s2 x, In x (setdiffq s1 s2) <-> In x s1 /\ ~ In x s2.
Proof.
  induction s1 as [|y s IH]; intros s2 x; cbn [setdiffq In]; [tauto|].
  destruct (memq y s2) eqn:E.
  - apply memq_In in E. rewrite IH. intuition congruence.
  - apply memq_nIn in E. cbn [In]. rewrite IH. intuition congruence.
Qed.

Lemma unionq_NoDup : forall s1 s2, NoDup s1 -> NoDup s2 -> NoDup (unionq s1 s2).
Proof.
  induction s1 as [|y s IH]; intros s2 H1 H2; cbn [unionq]; [assumption|].
  inversion_clear H1. destruct (memq y s2) eqn:E; [auto|].
  constructor; [|auto]. rewrite unionq_In. apply memq_nIn in E. tauto.
Qed.

Lemma intersectionq_NoDup : forall s1 s2, NoDup s1 -> NoDup (intersectionq s1 s2).
Proof.
  induction s1 as [|y s IH]; intros s2 H1; cbn [intersectionq]; [assumption|].
  inversion_clear H1. destruct (memq y s2) eqn:E; [|auto].
  constructor; [|auto]. rewrite intersectionq_In. tauto.
Qed.

Lemma setdiffq_NoDup : forall s1 s2, NoDup s1 -> NoDup (setdiffq s1 s2).
Proof.
  induction s1 as [|y s IH]; intros s2 H1; cbn [setdiffq]; [assumption|].
  inversion_clear H1. destruct (memq y s2) eqn:E; [auto|].
  constructor; [|auto]. rewrite setdiffq_In. tauto.
Qed.

Lemma union_all_In : forall l x, In x (union_all l) <-> exists s, In s l /\ In x s.
Proof.
  induction l as [|s l IH]; intros x; unfold union_all in *; cbn [fold_right In].
  - firstorder.
  - rewrite unionq_In, IH. firstorder. subst; auto.
Qed.

Lemma union_all_NoDup : forall l, Forall (fun s => NoDup s) l -> NoDup (union_all l).
Proof.
  induction 1; unfold union_all in *; cbn [fold_right]; [constructor|].
  now apply unionq_NoDup.
Qed.

(** ** forests *)
Section ForestInd.
Variable P : forest -> Prop.
Hypothesis HS : forall s, P (FStr s).
Hypothesis HN : P FNull.
Hypothesis HP : forall a d, P a -> P d -> P (FPair a d).
Hypothesis HV : forall v, Forall P v -> P (FVec v).
Fixpoint forest_ind2 (x : forest) : P x :=
  match x with
  | FStr s => HS s
  | FNull => HN
  | FPair a d => HP a d (forest_ind2 a) (forest_ind2 d)
  | FVec v => HV v ((fix go v : Forall P v :=
                       match v with
                       | [] => Forall_nil P
                       | y :: v' => Forall_cons y (forest_ind2 y) (go v')
                       end) v)
  end.
End ForestInd.

(** the leaves, left to right *)
Fixpoint leaves (x : forest) : list Z :=
  match x with
  | FStr s => s
  | FNull => []
  | FPair a d => leaves a ++ leaves d
  | FVec v => flat_map leaves v
  end.

Lemma forest_length_leaves : forall x, forest_length x = length (leaves x).
Proof.
  induction x as [s| |a d IHa IHd|v IH] using forest_ind2; cbn [forest_length leaves].
  - reflexivity.
  - reflexivity.
  - rewrite app_length; congruence.
  - set (loop := fix loop v sum := match v with
                                 | [] => sum
                                 | y :: v' => loop v' (sum + forest_length y)%nat
                                 end).
    assert (H : forall v, Forall (fun x => forest_length x = length (leaves x)) v ->
              forall sum, loop v sum = (sum + length (flat_map leaves v))%nat).
    { clear. induction 1; intros sum; cbn [loop flat_map length]; [lia|].
      fold loop. rewrite IHForall, app_length. lia. }
    now rewrite H.
Qed.

Lemma string_set_mid : forall pre x post c,
  string_set (pre ++ x :: post) (length pre) c = Some (pre ++ c :: post).
Proof. induction pre; intros; cbn; [reflexivity|now rewrite IHpre]. Qed.

Lemma copy_chars_mid : forall s pre mid post, length mid = length s ->
  copy_chars s (pre ++ mid ++ post) (length pre)
  = Some (pre ++ s ++ post, (length pre + length s)%nat).
Proof.
  induction s as [|c s IH]; intros pre mid post H; cbn [copy_chars].
  - destruct mid; [|discriminate]. cbn [length]. now rewrite Nat.add_0_r.
  - destruct mid as [|m mid]; [discriminate|]. cbn [app]. rewrite string_set_mid.
    specialize (IH (pre ++ [c]) mid post). rewrite <- !app_assoc in IH. cbn [app] in IH.
    rewrite app_length in IH. cbn [length] in *. rewrite Nat.add_1_r in IH.
    rewrite IH by lia. rewrite Nat.add_succ_comm. reflexivity.
Qed.

Lemma forest_copy_mid : forall x pre mid post, length mid = length (leaves x) ->
  forest_copy x (pre ++ mid ++ post) (length pre)
  = Some (pre ++ leaves x ++ post, (length pre + length (leaves x))%nat).
Proof.
  induction x as [s| |a d IHa IHd|v IH] using forest_ind2; intros pre mid post H;
    cbn [forest_copy leaves] in *.
  - now apply copy_chars_mid.
  - destruct mid; [|discriminate]. cbn [length app]. now rewrite Nat.add_0_r.
  - rewrite app_length in H.
    rewrite <- (firstn_skipn (length (leaves a)) mid).
    set (m1 := firstn (length (leaves a)) mid). set (m2 := skipn (length (leaves a)) mid).
    assert (Hm1 : length m1 = length (leaves a)) by (unfold m1; rewrite firstn_length; lia).
    assert (Hm2 : length m2 = length (leaves d)) by (unfold m2; rewrite skipn_length; lia).
    rewrite <- app_assoc, IHa by assumption.
    specialize (IHd (pre ++ leaves a) m2 post Hm2). rewrite <- !app_assoc, app_length in IHd.
    rewrite IHd, <- app_assoc, app_length, Nat.add_assoc. reflexivity.
  - revert pre mid post H. induction IH as [|y v Hy Hv IHv]; intros pre mid post H.
    + destruct mid; [|discriminate]. cbn. now rewrite Nat.add_0_r.
    + cbn [flat_map] in *. rewrite app_length in H.
      rewrite <- (firstn_skipn (length (leaves y)) mid).
      set (m1 := firstn (length (leaves y)) mid). set (m2 := skipn (length (leaves y)) mid).
      assert (Hm1 : length m1 = length (leaves y)) by (unfold m1; rewrite firstn_length; lia).
      assert (Hm2 : length m2 = length (flat_map leaves v)) by (unfold m2; rewrite skipn_length; lia).
      rewrite <- app_assoc, Hy by assumption.
      specialize (IHv (pre ++ leaves y) m2 post Hm2). rewrite <- !app_assoc, app_length in IHv.
      rewrite IHv, <- app_assoc, app_length, Nat.add_assoc. reflexivity.
Qed.

Lemma forest_to_string_leaves : forall fill x, (forall n, length (fill n) = n) ->
  forest_to_string fill x = Some (leaves x).
Proof.
  intros fill x Hf. unfold forest_to_string.
  pose proof (forest_copy_mid x [] (fill (forest_length x)) []) as H.
  cbn [app length] in H. rewrite !app_nil_r in H. rewrite H; [reflexivity|].
  now rewrite Hf, forest_length_leaves.
Qed.

(** ** memoization *)
(** what a strategy computes when every question is answered by [f] *)
Fixpoint eval {B} (f : Z -> B) (s : strategy B) : B :=
  match s with Answer b => b | Ask e k => eval f (k (f e)) end.

(** every question asked is about an expression of rank below [r] *)
Fixpoint below {B} (f : Z -> B) (rank : Z -> nat) (r : nat) (s : strategy B) : Prop :=
  match s with Answer _ => True | Ask e k => (rank e < r)%nat /\ below f rank r (k (f e)) end.

Section MemoProof.
Variable B : Type.
Variable fn : Z -> strategy B.
Variable f : Z -> B.
Variable rank : Z -> nat.
Hypothesis Hf : forall e, eval f (fn e) = f e.
Hypothesis Hr : forall e, below f rank (rank e) (fn e).

Definition memo_ok (m : memo B) : Prop :=
  (forall e b, In (e, b) (m_al m) -> b = f e) /\
  m_len m = length (m_al m) /\ (length (m_al m) <= 1000)%nat.

Lemma assq_In : forall e al b, assq (B:=B) e al = Some b -> In (e, b) al.
Proof.
  induction al as [|[x b'] al IH]; intros b; cbn [assq In]; [discriminate|].
  destruct (Z.eqb_spec e x) as [->|]; [injection 1 as ->; auto|auto].
Qed.

Lemma memo_add_ok : forall m e, memo_ok m -> memo_ok (memo_add e (f e) m).
Proof.
  intros m e (H1 & H2 & H3). unfold memo_add.
  destruct (Nat.ltb_spec memo_limit (S (m_len m))) as [H|H].
  - set (al := firstn _ _). repeat split; cbn [m_al m_len].
    + intros e' b Hin. assert (Hin' : In (e', b) ((e, f e) :: m_al m)).
      { rewrite <- (firstn_skipn (S memo_optsz)). apply in_or_app. now left. }
      destruct Hin' as [E|Hin']; [injection E as <- <-; reflexivity|auto].
    + unfold al. rewrite firstn_length. unfold memo_optsz. lia.
  - repeat split; cbn [m_al m_len].
    + intros e' b [E|Hin']; [injection E as <- <-; reflexivity|auto].
    + cbn [length]. lia.
    + cbn [length]. unfold memo_limit in H. lia.
Qed.

Lemma query_ok : forall fuel m e, memo_ok m -> (rank e < fuel)%nat ->
  exists m', query fuel fn m e = Some (m', f e) /\ memo_ok m'.
Proof.
  induction fuel as [|fuel IH]; intros m e Hm Hlt; [lia|]. cbn [query].
  destruct (assq e (m_al m)) as [b|] eqn:Ea.
  { apply assq_In in Ea. apply (proj1 Hm) in Ea. subst b. eauto. }
  set (run := fix run (s : strategy B) (m : memo B) : option (memo B * B) :=
        match s with
        | Answer b => Some (m, b)
        | Ask e' k => match query fuel fn m e' with
                      | None => None
                      | Some (m', b') => run (k b') m'
                      end
        end).
  assert (Hrun : forall s m, memo_ok m -> below f rank (rank e) s ->
             exists m', run s m = Some (m', eval f s) /\ memo_ok m').
  { induction s as [b|e' k IHs]; intros m0 Hm0 Hb; cbn [run eval below] in *; [eauto|].
    destruct Hb as [Hb1 Hb2]. destruct (IH m0 e' Hm0) as (m1 & -> & Hm1); [lia|].
    apply IHs; assumption. }
  destruct (Hrun (fn e) m Hm (Hr e)) as (m1 & -> & Hm1). rewrite Hf.
  eexists; split; [reflexivity|]. now apply memo_add_ok.
Qed.

Definition queries (l : list creq) : list Z :=
  flat_map (fun c => match c with CQuery e => [e] | CClear => [] end) l.

Lemma session_ok : forall fuel l m, memo_ok m -> (forall e, In e (queries l) -> (rank e < fuel)%nat) ->
  exists m', session fuel fn m l = Some (m', map f (queries l)) /\ memo_ok m'.
Proof.
  intros fuel. induction l as [|[e|] l IH]; intros m Hm Hl; cbn [session queries flat_map map].
  - eauto.
  - destruct (query_ok fuel m e Hm) as (m1 & -> & Hm1); [apply Hl; now left|].
    destruct (IH m1 Hm1) as (m2 & -> & Hm2); [intros; apply Hl; now right|].
    eexists; split; [reflexivity|assumption].
  - apply IH; [|assumption]. repeat split; cbn; [tauto|lia].
Qed.
End MemoProof.

(** ** two-key memoization *)
Fixpoint eval2 {B} (f : Z -> Z -> B) (s : strategy2 B) : B :=
  match s with Answer2 b => b | Ask2 id e k => eval2 f (k (f id e)) end.
Fixpoint below2 {B} (f : Z -> Z -> B) (rank : Z -> nat) (r : nat) (s : strategy2 B) : Prop :=
  match s with
  | Answer2 _ => True
  | Ask2 id e k => (rank e < r)%nat /\ below2 f rank r (k (f id e))
  end.

Section Memo2Proof.
Variable B : Type.
Variable fn : Z -> Z -> strategy2 B.
Variable f : Z -> Z -> B.
Variable rank : Z -> nat.
Hypothesis Hf : forall id e, eval2 f (fn id e) = f id e.
Hypothesis Hr : forall id e, below2 f rank (rank e) (fn id e).

(** numbers identify entries: two entries with one number are for one expression;
    [seen no e] records which expression every number was ever given to *)
Definition memo2_ok (m : memo2 B) (seen : nat -> option Z) : Prop :=
  (forall x, In x (m2_al m) -> seen (e_no x) = Some (e_exp x) /\
     forall id b, In (id, b) (e_ids x) -> b = f id (e_exp x)) /\
  (forall n, (m2_next m <= n)%nat -> seen n = None) /\
  m2_len m = length (m2_al m) /\ (length (m2_al m) <= 1000)%nat.

Definition extends (s s' : nat -> option Z) := forall n e, s n = Some e -> s' n = Some e.

Lemma find_entry_In : forall e l x, find_entry (B:=B) e l = Some x -> In x l /\ e_exp x = e.
Proof.
  induction l as [|y l IH]; intros x; cbn [find_entry In]; [discriminate|].
  destruct (Z.eqb_spec e (e_exp y)) as [->|]; [injection 1 as ->; auto|].
  intros H; apply IH in H; tauto.
Qed.

Lemma record2_ok : forall m s no id e, memo2_ok m s -> s no = Some e ->
  memo2_ok (record2 no id (f id e) m) s.
Proof.
  intros m s no id e (H1 & H2 & H3 & H4) Hno. unfold record2.
  repeat split; cbn [m2_al m2_len m2_next]; try assumption.
  - apply in_map_iff in H. destruct H as (y & <- & Hy).
    destruct (H1 y Hy) as [Hs _]. destruct (Nat.eqb (e_no y) no); assumption.
  - apply in_map_iff in H. destruct H as (y & <- & Hy). intros id' b.
    destruct (H1 y Hy) as [Hs Hb]. destruct (Nat.eqb_spec (e_no y) no) as [En|]; [|apply Hb].
    cbn [e_ids e_exp]. intros [E|Hin]; [|now apply Hb].
    injection E as <- <-. rewrite En in Hs. congruence.
  - now rewrite map_length.
  - now rewrite map_length.
Qed.

Lemma memo_add2_ok : forall m s id e, memo2_ok m s ->
  exists s', memo2_ok (memo_add2 e id (f id e) m) s' /\ extends s s'.
Proof.
  intros m s id e (H1 & H2 & H3 & H4).
  exists (fun n => if Nat.eqb n (m2_next m) then Some e else s n). split.
  2:{ intros n e' Hn. destruct (Nat.eqb_spec n (m2_next m)) as [->|]; [|assumption].
      rewrite H2 in Hn by lia. discriminate. }
  unfold memo_add2. set (al := mkentry _ _ _ :: _).
  assert (Hal : forall x, In x al ->
     (if Nat.eqb (e_no x) (m2_next m) then Some e else s (e_no x)) = Some (e_exp x) /\
     forall id b, In (id, b) (e_ids x) -> b = f id (e_exp x)).
  { intros x [<-|Hx]; cbn [e_no e_exp e_ids].
    - rewrite Nat.eqb_refl. split; [reflexivity|].
      intros id' b [E|[]]; injection E as <- <-; reflexivity.
    - destruct (H1 x Hx) as [Hs Hb]. split; [|assumption].
      destruct (Nat.eqb_spec (e_no x) (m2_next m)) as [En|]; [|assumption].
      rewrite En, H2 in Hs by lia. discriminate. }
  destruct (Nat.ltb_spec memo_limit (S (m2_len m))) as [H|H].
  - repeat split; cbn [m2_al m2_len m2_next].
    + apply Hal. rewrite <- (firstn_skipn (S memo_optsz)). apply in_or_app. now left.
    + apply Hal. rewrite <- (firstn_skipn (S memo_optsz)). apply in_or_app. now left.
    + intros n Hn. destruct (Nat.eqb_spec n (m2_next m)); [lia|]. apply H2; lia.
    + rewrite firstn_length. unfold memo_optsz. lia.
  - repeat split; cbn [m2_al m2_len m2_next].
    + now apply Hal.
    + now apply Hal.
    + intros n Hn. destruct (Nat.eqb_spec n (m2_next m)); [lia|]. apply H2; lia.
    + unfold al; cbn [length]; lia.
    + unfold al; cbn [length]. unfold memo_limit in H. lia.
Qed.

Lemma query2_ok : forall fuel m s id e, memo2_ok m s -> (rank e < fuel)%nat ->
  exists m' s', query2 fuel fn m id e = Some (m', f id e) /\ memo2_ok m' s' /\ extends s s'.
Proof.
  induction fuel as [|fuel IH]; intros m s id e Hm Hlt; [lia|]. cbn [query2].
  set (run := fix run (s : strategy2 B) (m : memo2 B) : option (memo2 B * B) :=
      match s with
      | Answer2 b => Some (m, b)
      | Ask2 id' e' k => match query2 fuel fn m id' e' with
                         | None => None
                         | Some (m', b') => run (k b') m'
                         end
      end).
  assert (Hrun : forall st m s, memo2_ok m s -> below2 f rank (rank e) st ->
             exists m' s', run st m = Some (m', eval2 f st) /\ memo2_ok m' s' /\ extends s s').
  { induction st as [b|id' e' k IHs]; intros m0 s0 Hm0 Hb; cbn [run eval2 below2] in *.
    { exists m0, s0. split; [reflexivity|split; [assumption|intros n x; auto]]. }
    destruct Hb as [Hb1 Hb2].
    destruct (IH m0 s0 id' e' Hm0) as (m1 & s1 & -> & Hm1 & Hx); [lia|].
    destruct (IHs (f id' e') m1 s1 Hm1 Hb2) as (m2 & s2 & -> & Hm2 & Hx2).
    exists m2, s2. split; [reflexivity|split; [assumption|]]. intros n x Hn; auto. }
  destruct (find_entry e (m2_al m)) as [x|] eqn:Ex.
  - apply find_entry_In in Ex. destruct Ex as [Hx He].
    destruct (proj1 Hm x Hx) as [Hs Hids].
    destruct (assq id (e_ids x)) as [b|] eqn:Ea.
    + apply assq_In in Ea. apply Hids in Ea. subst b e.
      exists m, s. split; [reflexivity|split; [assumption|intros n y; auto]].
    + destruct (Hrun (fn id e) m s Hm (Hr id e)) as (m1 & s1 & -> & Hm1 & Hx1).
      rewrite Hf. exists (record2 (e_no x) id (f id e) m1), s1.
      split; [reflexivity|split; [|assumption]].
      apply record2_ok; [assumption|]. apply Hx1. congruence.
  - destruct (Hrun (fn id e) m s Hm (Hr id e)) as (m1 & s1 & -> & Hm1 & Hx1).
    rewrite Hf. destruct (memo_add2_ok m1 s1 id e Hm1) as (s2 & Hm2 & Hx2).
    exists (memo_add2 e id (f id e) m1), s2.
    split; [reflexivity|split; [assumption|]]. intros n y Hn; auto.
Qed.
Definition queries2 (l : list creq2) : list (Z * Z) :=
  flat_map (fun c => match c with CQuery2 id e => [(id, e)] | CClear2 => [] end) l.

Lemma session2_ok : forall fuel l m s, memo2_ok m s ->
  (forall id e, In (id, e) (queries2 l) -> (rank e < fuel)%nat) ->
  exists m' s', session2 fuel fn m l = Some (m', map (fun q => f (fst q) (snd q)) (queries2 l))
     /\ memo2_ok m' s'.
Proof.
  intros fuel. induction l as [|[id e|] l IH]; intros m s Hm Hl; cbn [session2 queries2 flat_map map].
  - eauto.
  - destruct (query2_ok fuel m s id e Hm) as (m1 & s1 & -> & Hm1 & _); [apply (Hl id); now left|].
    destruct (IH m1 s1 Hm1) as (m2 & s2 & -> & Hm2); [intros; eapply Hl; right; eassumption|].
    exists m2, s2; split; [reflexivity|assumption].
  - apply (IH _ s); [|assumption]. destruct Hm as (H1 & H2 & H3 & H4).
    split; [intros x []|]. split; [exact H2|]. cbn; split; [reflexivity|lia].
Qed.
End Memo2Proof.
