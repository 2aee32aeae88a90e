(** The analysis of globals: the whole pass. *)
From Coq Require Import ZArith List Bool Lia.
From Verif Require Import Model_Lit Model_Core Model_Globals Spec_Sem Spec_Free Spec_Scope Spec_Lift Spec_Fold Spec_Letrec Spec_Globals Proofs_Sim Proofs_Core Proofs_Free Proofs_Agree Proofs_GlobalsSem Proofs_GlobalsRun Proofs_Globals Proofs_GlobalsDefs Proofs_GlobalsOk.
From Verif Require Proofs_FoldMore.
Import ListNotations.
Open Scope Z_scope.

(** ** Without functions for the C stack *)
Definition tame (d : id * id * exp) : Prop :=
  private (d_cid d) = true -> forall y xs b, rec_view (snd d) = Some (y, (xs, b)) -> ~ straight b.
Lemma plain_ok nm fuel x c d s sf t sf' : finalize_plain nm fuel x c d s sf = Some (t, sf') ->
  (sf' = sf /\ entry_ok x c d s t /\ (e_set t <> None -> ag_simple d = true /\ private c = true)) \/ (length sf < length sf')%nat.
Proof.
  unfold finalize_plain. destruct (ag_simple d && ag_inlineable (ag_subst s d)) eqn:B.
  - intros [= <- <-]. apply andb_true_iff in B. destruct B as (S & I). left. split; [reflexivity|]. split.
    + split; [reflexivity|]. split; [reflexivity|]. right. repeat split; assumption.
    + cbn [e_set]. unfold private. destruct (global_id_private_constant c); [auto | now intros []].
  - destruct (ag_stack_function fuel d x (know s)) as [[]|]; [| |discriminate].
    + intros [= _ <-]. right. cbn. lia.
    + intros [= <- <-]. left. split; [reflexivity|]. split; [|now intros []]. split; [reflexivity|]. split; [reflexivity|]. now left.
Qed.
Lemma finalize_ok nm fuel x c d s sf t sf' : tame (x, c, d) -> finalize nm fuel x c d s sf = Some (t, sf') -> (sf' = sf /\ entry_ok x c d s t) \/ (length sf < length sf')%nat.
Proof.
  intros T. unfold finalize. destruct (rec_view d) as [(y & (xs & b))|] eqn:R.
  - destruct (finalize_plain _ _ _ _ _ _ _) as [(t0 & sf0)|] eqn:E; [|discriminate]. intros [= <- <-]. apply plain_ok in E. destruct E as [(-> & _ & N)|X]; [left|now right].
    split; [reflexivity|]. destruct (e_set t0) as [a|] eqn:A; [|split; [reflexivity|]; split; [reflexivity|]; now left].
    exfalso. destruct (N ltac:(congruence)) as (S & Pc). apply (T Pc y xs b R). apply simple_straight. apply simple_subst in S; [exact S|]. intros t [<-|[]]. cbn. eauto.
  - intros E. apply plain_ok in E. tauto.
Qed.
Lemma finalize_all_made nm fuel l : (forall d, In d l -> tame d) -> forall s sf s' sf', finalize_all nm fuel l s sf = Some (s', sf') ->
  (length sf <= length sf')%nat /\ (length sf = length sf' -> forall L, made L s -> made (rev l ++ L) s').
Proof.
  induction l as [|((x & c) & d) l IH]; intros T s sf s' sf' E; cbn [finalize_all] in E.
  - injection E as <- <-. split; [lia | intros _ L M; exact M].
  - destruct (finalize nm fuel x c d s sf) as [(t & sf1)|] eqn:F; [|discriminate]. apply IH in E; [|intros; apply T; now right]. destruct E as (LE & M).
    apply finalize_ok in F; [|apply T; now left]. destruct F as [(-> & OK)|LT]; [|split; [lia|]; intros; lia].
    split; [assumption|]. intros EQ L ML. cbn [rev]. rewrite <- app_assoc. apply M; [assumption|]. now constructor.
Qed.
Lemma made_ids L s : made L s -> map e_id s = ids L.
Proof. induction 1 as [|L s x c d t M IH (E & _)]; [reflexivity|]. cbn. unfold ids in IH. rewrite IH, E. reflexivity. Qed.
Lemma made_split L s : made L s -> forall l1 d l2, L = l1 ++ d :: l2 -> exists s1 t s2, s = s1 ++ t :: s2 /\ made l2 s2 /\ entry_ok (d_id d) (d_cid d) (snd d) s2 t.
Proof.
  induction 1 as [|L s x c d t M IH OK]; intros l1 d0 l2 E; [destruct l1; discriminate|]. destruct l1 as [|d1 l1]; cbn in E; injection E as <- E.
  - subst L. exists [], t, s. auto.
  - destruct (IH _ _ _ E) as (s1 & t' & s2 & -> & M2 & O2). exists (t :: s1), t', s2. auto.
Qed.
Lemma find_in_ids x s t : find_entry x s = Some t -> In x (map e_id s).
Proof. intros E. apply find_in in E. destruct E as (I & <-). now apply in_map. Qed.
Lemma find_none_ids x s : find_entry x s = None -> ~ In x (map e_id s).
Proof. intros E I. apply in_map_iff in I. destruct I as (t & <- & I). apply (find_none _ _ E) in I. now rewrite id_eqb_refl in I. Qed.
Lemma find_right x a b t : NoDup (map e_id (a ++ b)) -> find_entry x b = Some t -> find_entry x (a ++ b) = Some t.
Proof.
  induction a as [|u a IH]; [auto|]. intros N E. cbn in N. inversion N as [|? ? NI N']; subst. cbn. destruct (id_eqb x (e_id u)) eqn:X; [|now apply IH].
  apply id_eqb_eq in X. exfalso. apply NI. rewrite map_app, in_app_iff. right. rewrite <- X. eapply find_in_ids; eauto.
Qed.
Lemma simple_sets e : ag_simple e = true -> sets e = [].
Proof.
  induction e as [y|y e IH|a b c IHa IHb IHc|ef p l IH|f l IHf IHl|xs b IH|xs ls b IHl IHb|y b IH|k e IHk IHe] using exp_ind2; cbn; intros H; try discriminate; auto.
  - rewrite forallb_forall in H. rewrite Forall_forall in IH. induction l as [|e l IHL]; [reflexivity|]. cbn. rewrite IH; [|now left|apply H; now left]. apply IHL; intros; [apply IH | apply H]; auto; now right.
  - apply andb_true_iff in H. destruct H as (A & B). rewrite IHf by assumption. rewrite forallb_forall in B. rewrite Forall_forall in IHl. clear - B IHl.
    induction l as [|e l IHL]; [reflexivity|]. cbn. rewrite IHl; [|now left|apply B; now left]. apply IHL; intros; [apply IHl | apply B]; auto; now right.
Qed.

Section Main.
Variable P : prim -> script.
Variables (p : exp) (n n' : Z) (l : defs) (s : list entry).
Hypothesis fine_p : fine P p.
Hypothesis ln : 0 <= n.
Hypothesis low : forall x, free_in x p -> - n <= ts x.
Hypothesis lift_p : lifted [] p.
Hypothesis nls : forall x d, In (x, d) (sets p) -> global_id x = true.
Hypothesis closed_defs : forall x d, defines x d p -> closed d.
Hypothesis spec_l : gspec p (sets p) (fun x d => defines x d p) n l n'.
Hypothesis ord_l : ordered [] l.
Hypothesis made_s : made (rev l) s.

Definition cs : list (id * id) := map (fun d => (d_cid d, d_id d)) l.
Notation st := (storage cs).

Lemma once x d : In (x, d) (sets p) -> (exists c d', In (x, c, d') l) -> (times x (sets p) <= 1)%nat.
Proof.
  intros I (c & d' & J). destruct (gs_in _ _ _ _ _ _ spec_l _ _ _ J) as (G & _ & _ & [(Px & _)|(_ & CT & _)]).
  - now apply (lifted_times P [] p lift_p fine_p x Px).
  - rewrite <- (times_sets P x p fine_p G). lia.
Qed.
Lemma nodup_dtimes L : (forall x, In x (ids L) -> (dtimes x L <= 1)%nat) -> NoDup (ids L).
Proof.
  induction L as [|d L IH]; intros H; [constructor|]. cbn. assert (A : forall x, (dtimes x L <= dtimes x (d :: L))%nat) by (intros x; unfold dtimes; cbn; destruct (id_eqb x (d_id d)); cbn; lia). constructor.
  - intros I. specialize (H (d_id d) (or_introl eq_refl)). unfold dtimes in H. cbn [filter] in H. rewrite id_eqb_refl in H. cbn [length] in H.
    apply in_map_iff in I. destruct I as (d1 & E & I). assert (J : In d1 (filter (fun d0 => id_eqb (d_id d) (d_id d0)) L)) by (apply filter_In; split; [assumption|]; rewrite E; apply id_eqb_refl).
    destruct (filter _ L); [easy | cbn in H; lia].
  - apply IH. intros x I. etransitivity; [apply A | apply H; now right].
Qed.
Lemma nodup_l : NoDup (ids l).
Proof.
  apply nodup_dtimes. intros x I. apply in_map_iff in I. destruct I as (((y & c) & d) & E & I). cbn in E. subst y. etransitivity; [apply (gs_times _ _ _ _ _ _ spec_l x)|].
  eapply once; [apply (gs_in _ _ _ _ _ _ spec_l _ _ _ I) | eauto].
Qed.
Lemma nodup_s : NoDup (map e_id s).
Proof. rewrite (made_ids _ _ made_s). unfold ids. rewrite map_rev. apply NoDup_rev. exact nodup_l. Qed.
Lemma same_id x x' c d d' : In (x, c, d) l -> In (x', c, d') l -> x = x'.
Proof.
  intros I J. destruct (gs_in _ _ _ _ _ _ spec_l _ _ _ I) as (_ & _ & _ & [(Px & ->)|(Px & _ & m & -> & _)]); destruct (gs_in _ _ _ _ _ _ spec_l _ _ _ J) as (_ & _ & _ & [(Px' & E)|(Px' & _ & m' & E & _)]).
  - assumption.
  - exfalso. rewrite E in Px. unfold private, global_id_private_constant in Px. cbn in Px. now rewrite andb_false_r in Px.
  - exfalso. rewrite <- E in Px'. unfold private, global_id_private_constant in Px'. cbn in Px'. now rewrite andb_false_r in Px'.
  - pose proof (gs_nodup _ _ _ _ _ _ spec_l) as N. unfold others in N. clear - N I J Px Px'.
    assert (A : forall k, private (d_id k) = false -> In k l -> In k (filter (fun d => negb (private (d_id d))) l)) by (intros k K KI; apply filter_In; split; [assumption | now rewrite K]).
    apply (A (x, _, d) Px) in I. apply (A (x', _, d') Px') in J. clear A. induction (filter _ l) as [|k L IH]; [easy|]. cbn in N. inversion N as [|? ? NI N']; subst.
    destruct I as [->|I], J as [E|J]; try (injection E as <- <-; reflexivity); try (exfalso; apply NI; apply in_map_iff; [eexists; split; [|exact J]; reflexivity]).
    + exfalso. apply NI. apply in_map_iff. subst k. eexists. split; [|exact I]. reflexivity.
    + auto.
Qed.
Lemma assq_in {A} x (m : list (id * A)) y : assq x m = Some y -> In (x, y) m.
Proof. induction m as [|(z & a) m IH]; [discriminate|]. cbn. destruct (id_eqb x z) eqn:E; [|auto]. apply id_eqb_eq in E. intros [= ->]. left. congruence. Qed.
Lemma assq_none {A} x (m : list (id * A)) y : assq x m = None -> ~ In (x, y) m.
Proof. induction m as [|(z & a) m IH]; [easy|]. cbn. destruct (id_eqb x z) eqn:E; [discriminate|]. intros H [[= -> _]|I]; [now rewrite id_eqb_refl in E | now apply IH]. Qed.
Lemma name_cid x c d : In (x, c, d) l -> name cs c = x.
Proof.
  intros I. unfold name. destruct (assq c cs) as [y|] eqn:E.
  - apply assq_in in E. apply in_map_iff in E. destruct E as (((x' & c') & d') & [= <- <-] & J). eapply same_id; eauto.
  - exfalso. apply (assq_none c cs x E). apply in_map_iff. exists (x, c, d). auto.
Qed.
Lemma name_low x : - n <= ts x -> name cs x = x.
Proof.
  intros L. unfold name. destruct (assq x cs) as [y|] eqn:E; [|reflexivity]. apply assq_in in E. apply in_map_iff in E. destruct E as (((x' & c') & d') & [= <- <-] & J).
  destruct (gs_in _ _ _ _ _ _ spec_l _ _ _ J) as (_ & _ & _ & [(_ & ->)|(_ & _ & m & -> & M)]); [reflexivity|]. cbn in L. lia.
Qed.
Lemma name_local x : global_id x = false -> name cs x = x.
Proof. unfold global_id. intros G. apply name_low. apply Z.ltb_ge in G. lia. Qed.
Lemma name_ref x : In x (refs p) -> name cs x = x.
Proof. intros R. destruct (global_id x) eqn:G; [|now apply name_local]. apply name_low, low. eapply refs_free; eauto. Qed.
Lemma name_set x d : In (x, d) (sets p) -> name cs x = x.
Proof. intros R. apply name_low, low, assigned_free. eapply sets_assigned; eauto. Qed.
Lemma private_cid x c d : In (x, c, d) l -> private c = true -> c = x /\ private x = true.
Proof.
  intros I Pc. destruct (gs_in _ _ _ _ _ _ spec_l _ _ _ I) as (_ & _ & _ & [(Px & ->)|(Px & _ & m & -> & _)]); [auto|].
  unfold private, global_id_private_constant in Pc. cbn in Pc. now rewrite andb_false_r in Pc.
Qed.

Definition def (x : id) : exp := match find (fun d => id_eqb x (d_id d)) l with Some d => snd d | None => EVar x end.
Definition inl (x : id) : option exp := match find_entry x s with Some t => match e_exp t with EVar _ => None | e => Some (st e) end | None => None end.
Definition gone (x : id) : Prop := exists t a, find_entry x s = Some t /\ e_set t = Some a.
Lemma nodup_id d d' : In d l -> In d' l -> d_id d = d_id d' -> d = d'.
Proof.
  pose proof nodup_l as N. unfold ids in N. clear - N. induction l as [|k L IH]; [easy|]. cbn in N. inversion N as [|? ? NI N']; subst.
  intros [->|I] [->|J] E; [reflexivity | | | auto]; exfalso; apply NI; [rewrite E | rewrite <- E]; now apply in_map.
Qed.
Lemma def_eq x c d : In (x, c, d) l -> def x = d.
Proof.
  intros I. unfold def. destruct (find _ l) as [k|] eqn:E.
  - apply find_some in E. destruct E as (J & E). apply id_eqb_eq in E. now rewrite <- (nodup_id _ _ I J E).
  - apply (find_none _ _ E) in I. cbn in I. now rewrite id_eqb_refl in I.
Qed.
(** an entry was made for a definition, with those made before *)
Inductive origin (x : id) (t : entry) : Prop :=
| origin_i c d L1 L2 s1 s2 : rev l = L1 ++ (x, c, d) :: L2 -> s = s1 ++ t :: s2 -> made L2 s2 -> entry_ok x c d s2 t -> In (x, c, d) l -> origin x t.
Lemma find_origin x t : find_entry x s = Some t -> origin x t.
Proof.
  intros E. assert (I := find_in_ids _ _ _ E). rewrite (made_ids _ _ made_s) in I. apply in_map_iff in I. destruct I as (((y & c) & d) & X & I). cbn in X. subst y.
  destruct (in_split _ _ I) as (L1 & L2 & S). destruct (made_split _ _ made_s _ _ _ S) as (s1 & t' & s2 & Es & M2 & OK). cbn in OK.
  assert (F : find_entry x s = Some t'). { rewrite Es. apply find_right; [rewrite <- Es; exact nodup_s|]. cbn. destruct OK as (-> & _). now rewrite id_eqb_refl. }
  rewrite E in F. injection F as <-. econstructor; eauto. now apply in_rev.
Qed.
Lemma earlier s1 t s2 x u : s = s1 ++ t :: s2 -> find_entry x s2 = Some u -> find_entry x s = Some u.
Proof.
  intros E F. assert (E' : s = (s1 ++ [t]) ++ s2) by now rewrite <- app_assoc. rewrite E'. apply find_right; [rewrite <- E'; exact nodup_s | assumption].
Qed.
Lemma gone_iff x t : find_entry x s = Some t -> (gone x <-> e_set t <> None).
Proof. intros E. split; [intros (t' & a & F & A); congruence|]. intros N. destruct (e_set t) as [a|] eqn:A; [|easy]. exists t, a. auto. Qed.
Lemma gone_set x t a : find_entry x s = Some t -> e_set t = Some a -> a = void_exp /\ private x = true.
Proof.
  intros E A. apply find_origin in E. destruct E as [c d L1 L2 s1 s2 R S M (_ & _ & [(_ & N)|(_ & _ & _ & N)]) I]; rewrite A in N; [discriminate|].
  destruct (private c) eqn:Pc; [|discriminate]. injection N as ->. split; [reflexivity|]. now apply (private_cid _ _ _ I).
Qed.
Lemma entry_var x t y : find_entry x s = Some t -> e_exp t = EVar y -> name cs y = x /\ e_set t = None /\ global_id y = true.
Proof.
  intros E V. apply find_origin in E. destruct E as [c d L1 L2 s1 s2 R S M (_ & _ & [(V' & N)|(_ & IN & V' & N)]) I]; rewrite V in V'.
  - injection V' as ->. split; [eapply name_cid; eauto|]. split; [assumption|]. destruct (gs_in _ _ _ _ _ _ spec_l _ _ _ I) as (G & _ & _ & [(_ & ->)|(_ & _ & m & -> & M1)]); [assumption|].
    unfold global_id. cbn. apply Z.ltb_lt. lia.
  - rewrite <- V' in IN. discriminate.
Qed.
Lemma inl_some x e : inl x = Some e -> exists t, find_entry x s = Some t /\ e = st (e_exp t) /\ forall y, e_exp t <> EVar y.
Proof. unfold inl. destruct (find_entry x s) as [t|]; [|discriminate]. intros H. exists t. destruct (e_exp t); try discriminate; injection H as <-; repeat split; discriminate. Qed.
Lemma inl_find x t : find_entry x s = Some t -> (forall y, e_exp t <> EVar y) -> inl x = Some (st (e_exp t)).
Proof. intros E N. unfold inl. rewrite E. destruct (e_exp t); try reflexivity. now destruct (N x0). Qed.
Lemma gone_inl x : gone x -> exists e, inl x = Some e.
Proof.
  intros (t & a & E & A). exists (st (e_exp t)). apply inl_find; [assumption|]. intros y V. destruct (entry_var _ _ _ E V) as (_ & N & _). congruence.
Qed.

Lemma fine_made L s0 : made L s0 -> (forall d, In d L -> fine P (snd d)) -> fine_entries P s0.
Proof.
  induction 1 as [|L s0 x c d t M IH OK]; intros F u I; [easy|]. destruct I as [<-|I]; [|apply IH; auto; intros; apply F; now right].
  destruct OK as (_ & _ & [(-> & _)|(SI & _ & -> & _)]).
  - constructor; [discriminate | easy].
  - apply fine_subst; [apply IH; intros; apply F; now right | assumption | apply (F (x, c, d)); now left].
Qed.
Lemma fine_def d : In d l -> fine P (snd d).
Proof. destruct d as ((x & c) & d). intros I. apply (fine_sets P x d p fine_p). apply (gs_in _ _ _ _ _ _ spec_l _ _ _ I). Qed.
Lemma glob_made L s0 t : made L s0 -> incl L l -> In t s0 -> global_id (e_id t) = true.
Proof.
  intros M IL I. apply (in_map e_id) in I. rewrite (made_ids _ _ M) in I. apply in_map_iff in I. destruct I as (((x & c) & d) & <- & I). apply IL in I. apply (gs_in _ _ _ _ _ _ spec_l _ _ _ I).
Qed.
Lemma rev_incl L1 d L2 : rev l = L1 ++ d :: L2 -> incl L2 l.
Proof. intros E k I. apply in_rev. rewrite E. apply in_or_app. right. now right. Qed.
Lemma shape_ok x t : find_entry x s = Some t -> (forall y, e_exp t <> EVar y) -> inlv P (st (e_exp t)) /\ inlv P (st (ag_subst s (def x))).
Proof.
  intros E N. assert (O := find_origin _ _ E). destruct O as [c d L1 L2 s1 s2 R S M (_ & _ & [(V' & _)|(SI & IN & V' & _)]) I]; [now destruct (N c)|].
  rewrite V', (def_eq _ _ _ I). assert (IL := rev_incl _ _ _ R). assert (F2 : fine_entries P s2) by (eapply fine_made; [exact M|]; intros k K; apply fine_def; auto).
  assert (Fd : fine P d) by now apply (fine_def (x, c, d)). split.
  - apply inlineable_inlv; [exact name_local | assumption|]. now apply fine_subst.
  - apply (same_shape P cs name_local s2 s); try assumption.
    + intros y u U. eapply earlier; eauto.
    + intros u U. exact (glob_made _ _ u made_s (fun k K => proj2 (in_rev l k) K) U).
    + intros u y U V. apply (entry_var (e_id u) u y); [|assumption]. assert (UI : In u s) by (rewrite S; apply in_or_app; right; now right).
      pose proof nodup_s as ND. clear - UI ND. induction s as [|w s0 IH]; [easy|]. cbn in ND. inversion ND as [|? ? NI ND']; subst. cbn. destruct UI as [->|UI]; [now rewrite id_eqb_refl|].
      destruct (id_eqb (e_id u) (e_id w)) eqn:X; [|auto]. apply id_eqb_eq in X. exfalso. apply NI. rewrite <- X. now apply in_map.
Qed.
Notation tr := (tr P inl gone def).
Lemma forall2_map {A B C D} (R : C -> D -> Prop) (f : A -> C) (g : B -> D) (h : A -> B) m : (forall a, In a m -> R (f a) (g (h a))) -> Forall2 R (map f m) (map g (map h m)).
Proof. induction m as [|a m IH]; cbn; intros H; constructor; [apply H; now left | apply IH; intros; apply H; now right]. Qed.
Lemma translation s' : forall e, fine P e -> (s' = s \/ sets e = []) ->
  (forall x, In x (refs e) -> name cs x = x /\ (find_entry x s' = find_entry x s \/ find_entry x s' = None /\ ~ gone x)) ->
  (forall x d, In (x, d) (sets e) -> global_id x = true /\ name cs x = x /\ forall t, find_entry x s = Some t -> d = def x) ->
  tr e (st (ag_subst s' e)).
Proof.
  induction e as [e IH] using size_ind. intros F SE HR HS. destruct (exp_cases e) as [(x & ->)|[(x & d & ->)|[(b & D)|C]]].
  - cbn [ag_subst]. destruct (HR x (or_introl eq_refl)) as (NX & H). destruct (find_entry x s') as [t|] eqn:E.
    + destruct H as [H|(H & _)]; [|discriminate]. symmetry in H. destruct (e_exp t) eqn:V; try (rewrite <- V; apply tr_inl, inl_find; [assumption | intros y; congruence]).
      destruct (entry_var _ _ _ H V) as (NC & NS & _). cbn [storage]. rewrite NC. apply tr_var. rewrite (gone_iff _ _ H), NS. now intros [].
    + cbn [storage]. rewrite NX. apply tr_var. destruct H as [H|(_ & H)]; [|assumption]. intros (t & a & T & _). congruence.
  - destruct SE as [->|SE]; [|discriminate]. cbn [ag_subst]. destruct (HS x d (or_introl eq_refl)) as (G & NX & DX). rewrite G.
    assert (T : tr d (st (ag_subst s d))). { apply IH; [cbn; lia | eapply fine_part; [exact F | now left] | now left | intros y Y; now apply HR | intros y d0 Y; apply HS; now right]. }
    destruct (find_entry x s) as [t|] eqn:E.
    + destruct (e_set t) as [a|] eqn:A.
      * rewrite (DX t eq_refl). rewrite (proj1 (gone_set _ _ _ E A)). apply tr_gone. exists t, a. auto.
      * cbn [storage]. assert (O := find_origin _ _ E). assert (NC : name cs (e_cid t) = x). { destruct O as [c d0 L1 L2 s1 s2 R S M (_ & -> & _) I]. eapply name_cid; eauto. }
        rewrite NC. constructor; [assumption | rewrite (gone_iff _ _ E), A; now intros [] | | assumption].
        intros d0 X. split; [now apply (DX t)|]. apply inl_some in X. destruct X as (t' & E' & _ & N). rewrite (DX t eq_refl). now apply (shape_ok x t').
    + cbn [storage]. rewrite NX. constructor; [assumption | intros (t & a & T' & _); congruence | | assumption]. unfold inl. rewrite E. discriminate.
  - rewrite (degenerate_subst _ _ _ D). destruct (degenerate_sub _ _ D) as (L & RI & SI & FD & _).
    assert (T : tr b (st (ag_subst s' b))). { apply IH; auto. destruct SE as [->|SE]; [now left|right]. rewrite SE in SI. destruct (sets b) as [|z]; [reflexivity|]. now destruct (SI z (or_introl eq_refl)). }
    destruct e as [| | | |f r| | | |]; try discriminate. destruct (degenerate_inv _ _ _ D) as [(-> & ->)|(x & -> & ->)]; [now constructor|]. constructor; [|assumption].
    apply (fine_bound P [x] (EVar x) (ELam [x] (EVar x))); [eapply fine_part; [exact F | now left] | now left | now left].
  - assert (IP : forall ys e', In (ys, e') (parts e) -> tr e' (st (ag_subst s' e'))).
    { intros ys e' I. apply IH; [eapply part_size; eauto | eapply fine_part; eauto | | |].
      - destruct SE as [->|SE]; [now left|right]. assert (SI := sets_part _ _ _ I). rewrite SE in SI. destruct (sets e') as [|z]; [reflexivity|]. now destruct (SI z (or_introl eq_refl)).
      - intros x X. apply HR. now apply (refs_part _ _ _ I).
      - intros x d X. apply HS. now apply (sets_part _ _ _ I). }
    destruct e as [y|y e|a b c|ef q r|f r|xs b|xs ls b|y b|k e]; [destruct C | destruct C | | | | | | | ].
    + cbn [ag_subst storage]. constructor; apply (IP []); cbn; auto.
    + cbn [ag_subst storage]. constructor. rewrite <- (map_id r) at 1. apply forall2_map. intros e I. apply (IP []). cbn. now apply in_map.
    + rewrite app_subst. cbn [compound] in C. rewrite C. cbn [storage]. constructor; [assumption | apply (IP []); now left|]. rewrite <- (map_id r) at 1. apply forall2_map. intros e I. apply (IP []). right. now apply in_map.
    + cbn [ag_subst storage]. constructor. apply (IP xs). now left.
    + cbn [ag_subst storage]. constructor; [|apply (IP xs); now left]. rewrite <- (map_id ls) at 1. apply forall2_map. intros (zs & e) I. cbn. split; [reflexivity|].
      eapply IP. right. apply in_map_iff. exists (zs, e). split; [reflexivity | assumption].
    + cbn [ag_subst storage]. constructor. apply (IP [y]). now left.
    + cbn [ag_subst storage]. constructor; apply (IP []); cbn; auto.
Qed.
Lemma inl_fine x e : inl x = Some e -> global_id x = true /\ inlv P e /\ tr (def x) e /\ ag_simple (def x) = true /\ closed (def x).
Proof.
  intros E. apply inl_some in E. destruct E as (t & E & -> & N). destruct (shape_ok x t E N) as (V & _). assert (O := find_origin _ _ E).
  destruct O as [c d L1 L2 s1 s2 R S M (_ & _ & [(V' & _)|(SI & IN & V' & _)]) I]; [now destruct (N c)|]. rewrite (def_eq _ _ _ I). destruct (gs_in _ _ _ _ _ _ spec_l _ _ _ I) as (G & SP & DF & _).
  split; [assumption|]. split; [assumption|]. split; [|split; [assumption | eapply closed_defs; eauto]]. rewrite V'. apply translation.
  - now apply (fine_def (x, c, d)).
  - right. now apply simple_sets.
  - intros y Y. split; [apply name_ref; eapply sets_refs; eauto|]. destruct (find_entry y s2) as [u|] eqn:U; [left; symmetry; eapply earlier; eauto|]. right. split; [reflexivity|].
    intros (w & a & W & A). destruct (gone_set _ _ _ W A) as (_ & Py).
    assert (LE : l = rev L2 ++ (x, c, d) :: rev L1). { rewrite <- (rev_involutive l), R, rev_app_distr. cbn. now rewrite <- app_assoc. }
    destruct (ord_l _ _ _ _ _ LE y Py Y) as [[]|J]. apply (find_none_ids _ _ U). rewrite (made_ids _ _ M). unfold ids in *. rewrite map_rev in J. now apply in_rev.
  - rewrite (simple_sets _ SI). easy.
Qed.
Lemma translated : tr p (st (ag_subst s p)).
Proof.
  apply translation; [assumption | now left | |].
  - intros x X. split; [now apply name_ref | now left].
  - intros x d I. split; [eapply nls; eauto|]. split; [eapply name_set; eauto|]. intros t T. apply find_origin in T. destruct T as [c d0 L1 L2 s1 s2 R S M _ J].
    rewrite (def_eq _ _ _ J). eapply times_one; [eapply once; eauto | eassumption | apply (gs_in _ _ _ _ _ _ spec_l _ _ _ J)].
Qed.
Lemma inl_assigned x e : inl x = Some e -> assigned_in x p.
Proof.
  intros E. apply inl_some in E. destruct E as (t & E & _ & N). apply find_origin in E. destruct E as [c d L1 L2 s1 s2 R S M _ I].
  destruct (gs_in _ _ _ _ _ _ spec_l _ _ _ I) as (G & SP & _). eapply sets_assigned; eauto.
Qed.
Lemma public_stays x : public x -> ~ gone x.
Proof. intros V (t & a & E & A). destruct (gone_set _ _ _ E A) as (_ & Px). unfold public in V. unfold private in Px. congruence. Qed.
End Main.

Theorem globals_refine P nm fuel p n e' n' :
  makes P the_void_prim CVoid -> honest P p -> no_local_set p -> (forall x, In x (binders p) -> global_id x = false) ->
  0 <= n -> (forall x, free_in x p -> - n <= ts x) -> lifted [] p -> no_private_rec p -> (forall x d, defines x d p -> closed d) -> careful P p ->
  analyze_globals nm fuel p n = Some (e', [], n') -> refines_on public P p (storage (same_symbol p n) e').
Proof.
  intros V H NL B N LO LI NR CD CA E. assert (F : fine P p) by now apply fine_honest.
  destruct (gls_found p p n) as (l & n1 & EL & G). unfold analyze_globals, same_symbol in *. rewrite EL, app_nil_r in *. cbn [fst].
  destruct (finalize_all nm fuel l [] []) as [(s & sf)|] eqn:FA; [|discriminate]. injection E as <- SF _.
  assert (sf = []) by (destruct sf; [reflexivity|]; cbn in SF; now destruct (rev sf)). subst sf. clear SF.
  apply finalize_all_made in FA.
  - destruct FA as (_ & M). specialize (M eq_refl [] made_nil). rewrite app_nil_r in M.
    assert (OL : ordered [] l). { apply (lifted_ordered P p [] p LI F n l n1). exact EL. }
    assert (NS : forall x d, In (x, d) (sets p) -> global_id x = true).
    { clear - NL. intros x d I. revert NL I. induction p as [e IH] using parts_ind. intros NL I. apply Proofs_FoldMore.no_local_set_eq in NL. apply sets_inv in I.
      destruct I as [->|(ys & e1 & J & I)]; [now apply (proj1 NL)|]. exact (IH ys e1 J (proj2 NL ys e1 J) I). }
    eapply tr_refines with (inl := inl l s) (gone := gone s) (def := def l); try eassumption.
    + intros x d I. eapply inl_fine; eauto.
    + intros x. eapply gone_inl; eauto.
    + intros x. eapply public_stays; eauto.
    + intros g i x d st I EA. apply (CA g i x st); [eapply inl_assigned; eauto | assumption].
    + eapply translated; eauto.
  - intros ((x & c) & d) I Pc y xs b R. cbn in *. destruct (gs_in _ _ _ _ _ _ G _ _ _ I) as (_ & _ & DF & K).
    assert (Px : private x = true). { destruct K as [(Px & _)|(_ & _ & m & -> & _)]; [assumption|]. unfold private, global_id_private_constant in Pc. cbn in Pc. now rewrite andb_false_r in Pc. }
    destruct d; try discriminate. cbn in R. destruct xs0 as [|z []]; try discriminate. destruct lams as [|lam lams]; try discriminate. destruct d; try discriminate. destruct (id_eqb z x0) eqn:Z; [|discriminate].
    apply id_eqb_eq in Z. subst x0. injection R as -> ->. apply (NR x y xs b lams Px DF).
Qed.
