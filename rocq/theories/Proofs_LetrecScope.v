(** Fixing letrecs: binding occurrences, free and assigned variables of the result. *)
From Coq Require Import ZArith String List Bool Lia Permutation.
From Verif Require Import Base Model_Lit Model_Core Model_Letrec Spec_Sem Spec_Free Spec_Scope Spec_Letrec Proofs_Sim Proofs_Core Proofs_Free.
From Verif Require Import Proofs_BetaFree Proofs_Assign Proofs_CpsMore Proofs_Letrec Proofs_LetrecFix Proofs_LetrecAll.
Import ListNotations.
Open Scope Z_scope.

Definition able (l : list exp) : Prop := forall a, In a l -> assignable a.
Definition frees (x : id) (l : list exp) : Prop := exists a, In a l /\ free_in x a.
Definition asgs (x : id) (l : list exp) : Prop := exists a, In a l /\ assigned_in x a.
(** [l'] is made of [l]; the numbers from [n] to [n'] are new *)
Record kept (n n' : Z) (l l' : list exp) : Prop := mkkept {
  k_le : n <= n';
  k_cnt : forall x, (cbs x l' <= cbs x l + nw n n' x)%nat;
  k_free : forall x, frees x l' -> frees x l;
  k_asg : forall x, asgs x l' -> asgs x l;
  k_able : NoDup (flat_map binders l) -> able l' }.
Lemma frees_app x a b : frees x (a ++ b) <-> frees x a \/ frees x b.
Proof. unfold frees. split; [intros (e & I & F); apply in_app_iff in I; destruct I; eauto | intros [(e & I & F)|(e & I & F)]; exists e; rewrite in_app_iff; auto]. Qed.
Lemma asgs_app x a b : asgs x (a ++ b) <-> asgs x a \/ asgs x b.
Proof. unfold asgs. split; [intros (e & I & F); apply in_app_iff in I; destruct I; eauto | intros [(e & I & F)|(e & I & F)]; exists e; rewrite in_app_iff; auto]. Qed.
Lemma able_app a b : able (a ++ b) <-> able a /\ able b.
Proof. unfold able. split; [intros H; split; intros e I; apply H, in_app_iff; auto | intros (A & B) e I; apply in_app_iff in I; destruct I; auto]. Qed.
Lemma frees_one x e : frees x [e] <-> free_in x e.
Proof. unfold frees. split; [intros (a & [<-|[]] & F); assumption | intros F; exists e; split; [now left | assumption]]. Qed.
Lemma asgs_one x e : asgs x [e] <-> assigned_in x e.
Proof. unfold asgs. split; [intros (a & [<-|[]] & F); assumption | intros F; exists e; split; [now left | assumption]]. Qed.
Lemma able_one e : able [e] <-> assignable e.
Proof. unfold able. split; [intros H; apply H; now left | intros H a [<-|[]]; assumption]. Qed.
Lemma cbs_one x e : cbs x [e] = cb x e.
Proof. rewrite cbs_cons. cbn. lia. Qed.
Lemma kept_refl n l : able l -> kept n n l l.
Proof. intros A. constructor; auto; [lia|]. intros x. lia. Qed.
Lemma kept_app n n1 n2 a b a' b' : kept n n1 a a' -> kept n1 n2 b b' -> kept n n2 (a ++ b) (a' ++ b').
Proof.
  intros [L1 C1 F1 A1 B1] [L2 C2 F2 A2 B2]. constructor.
  - lia.
  - intros x. rewrite !cbs_app. specialize (C1 x). specialize (C2 x). pose proof (nw_add n n1 n2 x L1 L2). lia.
  - intros x. rewrite !frees_app. intuition.
  - intros x. rewrite !asgs_app. intuition.
  - rewrite flat_map_app. intros N. apply able_app. split; [apply B1; now apply nodup_l in N | apply B2; now apply nodup_r in N].
Qed.
Lemma kept_cons n n1 n2 e l e' l' : kept n n1 [e] [e'] -> kept n1 n2 l l' -> kept n n2 (e :: l) (e' :: l').
Proof. exact (kept_app n n1 n2 [e] l [e'] l'). Qed.
Definition keeps (f : nat) : Prop := forall e n e' n', fixl f e n = Some (e', n') -> kept n n' [e] [e'].
Lemma each_kept f : keeps f -> forall l n l' n', each (fixl f) l n = Some (l', n') -> kept n n' l l' /\ length l' = length l.
Proof.
  intros K. induction l as [|e l IH]; intros n l' n' E; cbn [each] in E.
  - injection E as <- <-. split; [apply kept_refl; intros a [] | reflexivity].
  - destruct (fixl f e n) as [(e' & n1)|] eqn:X; [|discriminate]. destruct (each (fixl f) l n1) as [(r & n2)|] eqn:Y; [|discriminate]. injection E as <- <-.
    destruct (IH _ _ _ Y) as (B & L). split; [eapply kept_cons; eauto | cbn; congruence].
Qed.
(** pairwise *)
Lemma each_pairs f : keeps f -> forall l n l' n', each (fixl f) l n = Some (l', n') -> Forall2 (fun a a' => exists m m', fixl f a m = Some (a', m') /\ kept m m' [a] [a']) l l'.
Proof.
  intros K. induction l as [|e l IH]; intros n l' n' E; cbn [each] in E; [injection E as <- <-; constructor|].
  destruct (fixl f e n) as [(e' & n1)|] eqn:X; [|discriminate]. destruct (each (fixl f) l n1) as [(r & n2)|] eqn:Y; [|discriminate]. injection E as <- <-. constructor; eauto 6.
Qed.

(** ** Procedures *)
Lemma refix_step body fuel zs T : refix (S fuel) (map fst zs) (map tgt zs) body = Some T ->
  (zs = [] /\ T = body) \/ (exists ls, map tgt zs = lams_of ls /\ T = EFix (map fst zs) ls body) \/
  (exists sz lz T0, Permutation (sz ++ lz) zs /\ (forall z, In z sz -> forall y, In y (map fst zs) -> ~ free_in y (tgt z)) /\
     refix fuel (map fst lz) (map tgt lz) body = Some T0 /\ T = EApp (ELam (map fst sz) T0) (map tgt sz)).
Proof.
  intros E. cbn [refix] in E.
  set (kz := fun z : id * (exp * exp) => if free_of (map fst zs) (tgt z) then KS else KL) in *.
  assert (M : map2 (fun x e => mkbnd (if free_of (map fst zs) e then KS else KL) x e) (map fst zs) (map tgt zs) = map (fun z => mkbnd (kz z) (fst z) (tgt z)) zs).
  { unfold kz. generalize (map fst zs) at 1 3. intros l0. induction zs as [|z l IHl]; [reflexivity|]. clear - l. induction (z :: l); cbn; congruence. }
  rewrite M in E. clear M.
  assert (K : forall k, of_kind k (map (fun z => mkbnd (kz z) (fst z) (tgt z)) zs) = map (fun z => mkbnd (kz z) (fst z) (tgt z)) (filter (fun z => kind_eqb (kz z) k) zs)).
  { intros k. unfold of_kind. induction zs as [|z l IHl]; [reflexivity|]. clear - l. generalize (z :: l). intros l0. induction l0 as [|a l0 IHl]; [reflexivity|]. cbn. destruct (kind_eqb (kz a) k); cbn; now rewrite IHl. }
  rewrite !K in E. clear K. set (sz := filter (fun z => kind_eqb (kz z) KS) zs) in *. set (lz := filter (fun z => kind_eqb (kz z) KL) zs) in *.
  assert (Pm : Permutation (sz ++ lz) zs). { apply filter_split. intros z. unfold kz. destruct (free_of (map fst zs) (tgt z)); reflexivity. }
  destruct sz as [|s0 sz0] eqn:Es.
  - cbn [map] in E. cbn [app] in Pm. destruct lz as [|l0 lz0] eqn:El.
    + cbn [map] in E. injection E as <-. apply Permutation_nil in Pm. subst zs. now left.
    + cbn [map] in E. destruct (all_lams (map tgt zs)) as [ls|] eqn:Al; [|discriminate]. injection E as <-. apply all_lams_eq in Al. right. left. eauto.
  - right. right. rewrite <- Es in *. assert (E' : match refix fuel (map b_id (map (fun z => mkbnd (kz z) (fst z) (tgt z)) lz)) (map b_exp (map (fun z => mkbnd (kz z) (fst z) (tgt z)) lz)) body with
      | Some b => Some (let_exp (map b_id (map (fun z => mkbnd (kz z) (fst z) (tgt z)) sz)) (map b_exp (map (fun z => mkbnd (kz z) (fst z) (tgt z)) sz)) b) | None => None end = Some T).
    { rewrite Es. rewrite Es in E. cbn [map] in E |- *. exact E. }
    clear E. rewrite !map_map in E'. cbn [b_id b_exp] in E'. change (map (fun x => tgt x) lz) with (map tgt lz) in E'. change (map (fun x => tgt x) sz) with (map tgt sz) in E'.
    change (map (fun x => fst x) lz) with (map fst lz) in E'. change (map (fun x => fst x) sz) with (map fst sz) in E'.
    destruct (refix fuel (map fst lz) (map tgt lz) body) as [T0|] eqn:R; [|discriminate]. injection E' as <-. exists sz, lz, T0. split; [assumption|]. split; [|auto].
    intros z I y J. unfold sz in I. apply filter_In in I. destruct I as (I & Q). unfold kz in Q. destruct (free_of (map fst zs) (tgt z)) eqn:Fo; [|discriminate]. eapply free_of_spec; eauto.
Qed.

Lemma cbs_lams x ls : cbs x (lams_of ls) = cnt x (flat_map (fun l => fst l ++ binders (snd l)) ls).
Proof. unfold cbs, lams_of. induction ls as [|(xs & b) ls IH]; [reflexivity|]. cbn [map flat_map]. rewrite !cnt_app. cbn [binders fst snd] in *. rewrite IH. now rewrite cnt_app. Qed.
Lemma cb_app x f l : cb x (EApp f l) = (cb x f + cbs x l)%nat.
Proof. apply cnt_app. Qed.
Lemma cb_lam x xs b : cb x (ELam xs b) = (cnt x xs + cb x b)%nat.
Proof. apply cnt_app. Qed.
Lemma cb_fix x xs ls b : cb x (EFix xs ls b) = (cnt x xs + cbs x (lams_of ls) + cb x b)%nat.
Proof. unfold cb. cbn [binders]. rewrite !cnt_app, cbs_lams. lia. Qed.
Lemma cnt_perm x a b : Permutation a b -> cnt x a = cnt x b.
Proof. intros P. unfold cnt. now rewrite (proj1 (Permutation_count_occ id_dec a b) P x). Qed.
Lemma cbs_perm x a b : Permutation a b -> cbs x a = cbs x b.
Proof. intros P. unfold cbs. apply cnt_perm. now apply Permutation_flat_map. Qed.
Lemma fewer_nodup l l0 : (forall x, (cbs x l <= cbs x l0)%nat) -> NoDup (flat_map binders l0) -> NoDup (flat_map binders l).
Proof. intros L N. apply (NoDup_count_occ id_dec). intros x. pose proof (proj1 (NoDup_count_occ id_dec _) N x). specialize (L x). unfold cbs, cnt in L. lia. Qed.
Lemma lam_fix_free x ls : frees x (lams_of ls) -> exists l, In l ls /\ ~ In x (fst l) /\ free_in x (snd l).
Proof. intros (a & I & F). unfold lams_of in I. apply in_map_iff in I. destruct I as (l & <- & I). apply free_lam in F. exists l. intuition. Qed.
Lemma asg_fix x xs ls b : assigned_in x (EFix xs ls b) <-> ~ In x xs /\ (assigned_in x b \/ asgs x (lams_of ls)).
Proof.
  rewrite assigned_in_eq. cbn [assignment parts]. split.
  - intros [[=]|(ys & e' & [[= <- <-]|I] & N & A)]; [auto|]. apply in_map_iff in I. destruct I as (l & [= <- <-] & I). rewrite in_app_iff in N. split; [tauto|]. right.
    exists (ELam (fst l) (snd l)). split; [unfold lams_of; apply in_map_iff; eauto|]. apply asg_lam. tauto.
  - intros (N & [A|(a & I & A)]); right; [exists xs, b; split; [now left | auto]|]. unfold lams_of in I. apply in_map_iff in I. destruct I as (l & <- & I). apply asg_lam in A.
    exists (xs ++ fst l), (snd l). split; [right; apply in_map_iff; eauto|]. split; [rewrite in_app_iff; tauto | tauto].
Qed.
Lemma able_lams ls : able (lams_of ls) <-> forall l, In l ls -> assignable (snd l).
Proof. unfold able, lams_of. split; [intros H l I; apply (H (ELam (fst l) (snd l))); apply in_map_iff; eauto | intros H a I; apply in_map_iff in I; destruct I as (l & <- & I); apply (H l I)]. Qed.
Lemma fold_able l : fold_right (fun e p => assignable e /\ p) True l <-> able l.
Proof. induction l as [|a l IH]; cbn; [split; [intros _ a [] | auto]|]. rewrite IH. unfold able. split; [intros (A & B) z [<-|I]; auto | intros H; split; [apply H; now left | intros z I; apply H; now right]]. Qed.
Lemma fold_able_lams ls : fold_right (fun (l : list id * exp) p => assignable (snd l) /\ p) True ls <-> able (lams_of ls).
Proof.
  rewrite able_lams. induction ls as [|a l IH]; cbn; [split; [intros _ a [] | auto]|]. rewrite IH. split; [intros (A & B) z [<-|I]; auto | intros H; split; [apply H; now left | intros z I; apply H; now right]].
Qed.
Lemma able_app_exp f l : assignable (EApp f l) <-> assignable f /\ able l.
Proof. cbn [assignable]. now rewrite fold_able. Qed.
Lemma frees_perm x a b : Permutation a b -> frees x a -> frees x b.
Proof. intros P (e & I & F). exists e. split; [eapply Permutation_in; eauto | assumption]. Qed.
Lemma asgs_perm x a b : Permutation a b -> asgs x a -> asgs x b.
Proof. intros P (e & I & F). exists e. split; [eapply Permutation_in; eauto | assumption]. Qed.

Lemma refix_scope body : forall fuel zs T, refix fuel (map fst zs) (map tgt zs) body = Some T ->
  (forall x, cb x T = cnt x (map fst zs) + cbs x (map tgt zs) + cb x body)%nat /\
  (forall x, free_in x T -> ~ In x (map fst zs) /\ (frees x (map tgt zs) \/ free_in x body)) /\
  (forall x, assigned_in x T -> ~ In x (map fst zs) /\ (asgs x (map tgt zs) \/ assigned_in x body)) /\
  (able (map tgt zs) -> assignable body -> (forall x, In x (map fst zs) -> ~ asgs x (map tgt zs) /\ ~ assigned_in x body) -> assignable T).
Proof.
  induction fuel as [|fuel IH]; intros zs T E; [discriminate|]. apply refix_step in E. destruct E as [(-> & ->)|[(ls & El & ->)|(sz & lz & T0 & Pm & Fs & R & ->)]].
  - split; [intros x; reflexivity|]. split; [intros x F; split; [intros [] | auto]|]. split; [intros x F; split; [intros [] | auto]|]. auto.
  - rewrite El. split; [intros x; apply cb_fix|]. split; [|split].
    + intros x F. apply free_fix in F. destruct F as (N & [F|(l & I & N2 & F)]); (split; [assumption|]); [now right|]. left. exists (ELam (fst l) (snd l)). split; [unfold lams_of; apply in_map_iff; eauto | apply free_lam; auto].
    + intros x F. apply asg_fix in F. tauto.
    + intros A B H. cbn [assignable]. rewrite fold_able_lams. split; [assumption|]. split; [assumption|]. intros x I. destruct (H x I) as (H1 & H2). split; [assumption|]. intros l J N2 F. apply H1.
      exists (ELam (fst l) (snd l)). split; [unfold lams_of; apply in_map_iff; eauto | apply asg_lam; auto].
  - destruct (IH _ _ R) as (C0 & F0 & A0 & B0). assert (Mem : forall x, In x (map fst zs) <-> In x (map fst sz) \/ In x (map fst lz)).
    { intros x. rewrite <- in_app_iff, <- map_app. split; apply Permutation_in, Permutation_map; [now apply Permutation_sym | assumption]. }
    assert (Pt : Permutation (map tgt sz ++ map tgt lz) (map tgt zs)) by (rewrite <- map_app; now apply Permutation_map).
    assert (Pf : Permutation (map fst sz ++ map fst lz) (map fst zs)) by (rewrite <- map_app; now apply Permutation_map).
    assert (Out : forall x, frees x (map tgt sz) -> ~ In x (map fst zs)). { intros x (a & I & F) J. apply in_map_iff in I. destruct I as (z & <- & I). exact (Fs z I x J F). }
    assert (AF : forall x l, asgs x l -> frees x l) by (intros x l (a & I & F); exists a; split; [assumption | now apply assigned_free]).
    split; [|split; [|split]].
    + intros x. rewrite cb_app, cb_lam, C0. rewrite <- (cnt_perm x _ _ Pf), <- (cbs_perm x _ _ Pt), cnt_app, cbs_app. lia.
    + intros x F. apply free_app in F. destruct F as [F|F].
      * apply free_lam in F. destruct F as (N & F). destruct (F0 x F) as (N1 & D). split; [rewrite Mem; tauto|]. destruct D as [D|D]; [left | now right]. eapply frees_perm; [exact Pt|]. apply frees_app. now right.
      * split; [now apply Out|]. left. eapply frees_perm; [exact Pt|]. apply frees_app. now left.
    + intros x F. apply asg_app in F. destruct F as [F|F].
      * apply asg_lam in F. destruct F as (N & F). destruct (A0 x F) as (N1 & D). split; [rewrite Mem; tauto|]. destruct D as [D|D]; [left | now right]. eapply asgs_perm; [exact Pt|]. apply asgs_app. now right.
      * split; [apply Out; now apply AF|]. left. eapply asgs_perm; [exact Pt|]. apply asgs_app. now left.
    + intros A B H. apply able_app_exp. assert (A1 : able (map tgt sz) /\ able (map tgt lz)). { apply able_app. intros a I. apply A. eapply Permutation_in; eauto. } destruct A1 as (A1 & A2).
      split; [|assumption]. cbn [assignable]. apply B0; [assumption | assumption|]. intros x I. destruct (H x) as (H1 & H2); [apply Mem; now right|]. split; [|assumption]. intros Q. apply H1. eapply asgs_perm; [exact Pt|]. apply asgs_app. now right.
Qed.

(** ** What follows the bindings *)
Definition rest_ok (n n' : Z) (cs : list id) (l : list exp) (r : exp) : Prop :=
  n <= n' /\ (forall x, (cb x r <= cbs x l + nw n n' x)%nat) /\ (forall x, free_in x r -> In x cs \/ frees x l) /\
  (forall x, assigned_in x r -> In x cs \/ asgs x l) /\ (NoDup (flat_map binders l) -> assignable r).
Lemma kept_rest n n' cs e e' : kept n n' [e] [e'] -> rest_ok n n' cs [e] e'.
Proof.
  intros [L C F A B]. split; [assumption|]. split; [intros x; specialize (C x); now rewrite cbs_one in C at 1|]. split; [intros x I; right; apply F; now apply frees_one|].
  split; [intros x I; right; apply A; now apply asgs_one|]. intros N. apply able_one. auto.
Qed.
(** a new begin *)
Lemma begin_rest n n1 n2 cs l1 l2 a r : rest_ok n n1 cs l1 a -> rest_ok n1 n2 cs l2 r -> rest_ok n (n2 + 1) cs (l1 ++ l2) (EApp (ELam [mkid (n2 + 1) XNone] r) [a]).
Proof.
  intros (L1 & C1 & F1 & A1 & B1) (L2 & C2 & F2 & A2 & B2). split; [lia|]. split; [|split; [|split]].
  - intros x. rewrite cb_app, cb_lam, cbs_one, cbs_app. specialize (C1 x). specialize (C2 x). pose proof (nw_one n2 XNone x). pose proof (nw_add n n1 n2 x L1 L2). pose proof (nw_add n n2 (n2 + 1) x ltac:(lia) ltac:(lia)). lia.
  - intros x F. rewrite frees_app. apply free_app in F. destruct F as [F|(z & [<-|[]] & F)]; [apply free_lam in F; destruct F as (_ & F); destruct (F2 x F) | destruct (F1 x F)]; auto.
  - intros x F. rewrite asgs_app. apply asg_app in F. destruct F as [F|(z & [<-|[]] & F)]; [apply asg_lam in F; destruct F as (_ & F); destruct (A2 x F) | destruct (A1 x F)]; auto.
  - rewrite flat_map_app. intros N. apply able_app_exp. split; [cbn [assignable]; apply B2; now apply nodup_r in N|]. apply able_one. apply B1. now apply nodup_l in N.
Qed.
Lemma rest_more n n' cs cs' l l' r : rest_ok n n' cs l r -> incl cs cs' -> Permutation l l' -> rest_ok n n' cs' l' r.
Proof.
  intros (L & C & F & A & B) I Pm. split; [assumption|]. split; [intros x; rewrite <- (cbs_perm x _ _ Pm); apply C|]. split; [|split].
  - intros x H. destruct (F x H); [left; auto | right; eapply frees_perm; eauto].
  - intros x H. destruct (A x H); [left; auto | right; eapply asgs_perm; eauto].
  - intros N. apply B. eapply Permutation_NoDup; [|exact N]. apply Permutation_flat_map. now apply Permutation_sym.
Qed.
Lemma in_order_scope f : keeps f -> forall l b n r n', in_order (fixl f) l b n = Some (r, n') -> rest_ok n n' (map b_id (of_kind KC l)) (map b_exp l ++ [b]) r.
Proof.
  intros K. induction l as [|d l IH]; intros b n r n' E; cbn [in_order] in E.
  - apply K in E. exact (kept_rest _ _ _ _ _ E).
  - destruct (fixl f (b_exp d) n) as [(e' & n1)|] eqn:X; [|discriminate]. destruct (in_order (fixl f) l b n1) as [(r0 & n2)|] eqn:Y; [|discriminate]. unfold begin_exp in E. cbn [fresh] in E. injection E as <- <-.
    apply IH in Y. apply K in X. cbn [map app]. change (b_exp d :: map b_exp l ++ [b]) with ([b_exp d] ++ (map b_exp l ++ [b])). eapply begin_rest.
    + apply (kept_rest _ _ (map b_id (of_kind KC (d :: l)))) in X. destruct (kind_eqb (b_kind d) KC) eqn:Kd; [|exact X]. destruct X as (L & C & F & A & B).
      assert (I : In (b_id d) (map b_id (of_kind KC (d :: l)))) by (apply in_map, kind_In; split; [now left|]; destruct (b_kind d); (discriminate || reflexivity)).
      split; [assumption|]. split; [exact C|]. split; [|split; [|exact B]].
      * intros x H. apply free_set in H. destruct H as [->|H]; [left | destruct (F x H)]; auto.
      * intros x H. apply asg_set in H. destruct H as [->|H]; [left | destruct (A x H)]; auto.
    + eapply rest_more; [exact Y | | reflexivity]. unfold of_kind. cbn [filter]. destruct (kind_eqb (b_kind d) KC); [apply incl_tl, incl_refl | apply incl_refl].
Qed.
Lemma fresh_list_cnt {A} : forall (l : list A) n xs n', fresh_list l n = (xs, n') -> n <= n' /\ length xs = length l /\ forall x, (cnt x xs <= nw n n' x)%nat.
Proof.
  induction l as [|a l IH]; intros n xs n' E; cbn [fresh_list fresh] in E.
  - injection E as <- <-. split; [lia|]. split; [reflexivity|]. intros x. cbn. lia.
  - destruct (fresh_list l (n + 1)) as (ys & n2) eqn:Q. injection E as <- <-. destruct (IH _ _ _ Q) as (L & Ln & C). split; [lia|]. split; [cbn; congruence|]. intros x. rewrite cnt_cons.
    specialize (C x). pose proof (nw_one n XNone x). pose proof (nw_add n (n + 1) n2 x ltac:(lia) ltac:(lia)). lia.
Qed.
Lemma assign_each_scope : forall ids tmps n e n', assign_each ids tmps n = (e, n') -> n <= n' /\ (forall x, (cb x e <= nw n n' x)%nat) /\
  (forall x, free_in x e -> In x ids \/ In x tmps) /\ (forall x, assigned_in x e -> In x ids) /\ assignable e.
Proof.
  assert (V : forall n, n <= n /\ (forall x, (cb x void_exp <= nw n n x)%nat) /\ (forall ids tmps : list id, (forall x, free_in x void_exp -> In x ids \/ In x tmps) /\ forall x, assigned_in x void_exp -> In x ids) /\ assignable void_exp).
  { intros n. split; [lia|]. split; [intros x; cbn; lia|]. split; [|exact I]. intros ids tmps.
    assert (N : forall x, ~ free_in x void_exp) by (intros x F; apply free_prim in F; destruct F as (? & [] & _)). split; intros x F; [destruct (N x F) | apply assigned_free in F; destruct (N x F)]. }
  induction ids as [|y ids IH]; intros tmps n e n' E.
  - cbn in E. injection E as <- <-. destruct (V n) as (A & B & C & D). destruct (C [] tmps). auto.
  - destruct tmps as [|t tmps]; [cbn in E; injection E as <- <-; destruct (V n) as (A & B & C & D); destruct (C (y :: ids) []); auto|].
    cbn [assign_each] in E. destruct (assign_each ids tmps n) as (e0 & n1) eqn:Q. unfold begin_exp in E. cbn [fresh] in E. injection E as <- <-. destruct (IH _ _ _ _ Q) as (L & C & F & A & B). split; [lia|]. split; [|split; [|split]].
    + intros x. rewrite cb_app, cb_lam, cbs_one. change (cb x (ESet y (EVar t))) with 0%nat. specialize (C x). pose proof (nw_one n1 XNone x). pose proof (nw_add n n1 (n1 + 1) x ltac:(lia) ltac:(lia)). lia.
    + intros x H. apply free_app in H. destruct H as [H|(z & [<-|[]] & H)].
      * apply free_lam in H. destruct H as (_ & H). destruct (F x H); cbn; auto.
      * apply free_set in H. destruct H as [->|H]; [left; now left|]. apply free_var in H. subst. right. now left.
    + intros x H. apply asg_app in H. destruct H as [H|(z & [<-|[]] & H)].
      * apply asg_lam in H. destruct H as (_ & H). right. auto.
      * apply asg_set in H. destruct H as [->|H]; [now left|]. apply assigned_in_eq in H. cbn in H. destruct H as [[=]|(? & ? & [] & _)].
    + apply able_app_exp. split; [exact B|]. apply able_one. exact I.
Qed.
Lemma begins_scope : forall us s n r n', begins us s n = (r, n') -> n <= n' /\ (forall x, (cb x r <= cbs x us + cb x s + nw n n' x)%nat) /\
  (forall x, free_in x r -> frees x us \/ free_in x s) /\ (forall x, assigned_in x r -> asgs x us \/ assigned_in x s) /\ (able us -> assignable s -> assignable r).
Proof.
  induction us as [|u us IH]; intros s n r n' E; cbn [begins] in E.
  - injection E as <- <-. split; [lia|]. split; [intros x; cbn; lia|]. auto.
  - destruct (begins us s n) as (r0 & n1) eqn:Q. unfold begin_exp in E. cbn [fresh] in E. injection E as <- <-. destruct (IH _ _ _ _ Q) as (L & C & F & A & B). split; [lia|]. split; [|split; [|split]].
    + intros x. rewrite cb_app, cb_lam, cbs_one, cbs_cons. specialize (C x). pose proof (nw_one n1 XNone x). pose proof (nw_add n n1 (n1 + 1) x ltac:(lia) ltac:(lia)). lia.
    + intros x H. change (u :: us) with ([u] ++ us). rewrite frees_app, frees_one. apply free_app in H. destruct H as [H|(z & [<-|[]] & H)]; [|auto]. apply free_lam in H. destruct H as (_ & H). destruct (F x H); auto.
    + intros x H. change (u :: us) with ([u] ++ us). rewrite asgs_app, asgs_one. apply asg_app in H. destruct H as [H|(z & [<-|[]] & H)]; [|auto]. apply asg_lam in H. destruct H as (_ & H). destruct (A x H); auto.
    + change (u :: us) with ([u] ++ us). rewrite able_app, able_one. intros (A1 & A2) S. apply able_app_exp. split; [cbn [assignable]; auto | now apply able_one].
Qed.
Lemma seed_scope f cb b n s n1 : keeps f -> match cb with [] => fixl f b n | _ => match each (fixl f) (map b_exp cb) n with
    | Some (rands, n1) => let (e1, n2) := varassigns_exp (map b_id cb) rands n1 in match fixl f b n2 with Some (b, n3) => Some (begin_exp e1 b n3) | None => None end | None => None end end = Some (s, n1) ->
  rest_ok n n1 (map b_id cb) (map b_exp cb ++ [b]) s.
Proof.
  intros K E. destruct cb as [|c0 cb0]; [apply K in E; exact (kept_rest _ _ [] _ _ E)|]. set (cb := c0 :: cb0) in *.
  destruct (each (fixl f) (map b_exp cb) n) as [(rands & m1)|] eqn:X; [|discriminate]. destruct (varassigns_exp (map b_id cb) rands m1) as (e1 & m2) eqn:Y. destruct (fixl f b m2) as [(b' & m3)|] eqn:Z; [|discriminate].
  destruct (each_kept f K _ _ _ _ X) as ([L1 C1 F1 A1 B1] & Ln). apply K in Z. unfold begin_exp in E. cbn [fresh] in E. injection E as <- <-. eapply begin_rest; [|exact (kept_rest _ _ _ _ _ Z)].
  unfold varassigns_exp in Y. destruct (fresh_list (map b_id cb) m1) as (tmps & k1) eqn:T1. destruct (assign_each (map b_id cb) tmps k1) as (l & k2) eqn:T2. injection Y as <- <-.
  destruct (fresh_list_cnt _ _ _ _ T1) as (L2 & Lt & C2). destruct (assign_each_scope _ _ _ _ _ T2) as (L3 & C3 & F3 & A3 & B3). unfold let_exp. split; [lia|]. split; [|split; [|split]].
  - intros x. rewrite cb_app, cb_lam. specialize (C1 x). specialize (C2 x). specialize (C3 x). pose proof (nw_add n m1 k1 x ltac:(lia) ltac:(lia)). pose proof (nw_add n k1 k2 x ltac:(lia) ltac:(lia)). lia.
  - intros x H. apply free_app in H. destruct H as [H|H]; [|right; auto]. apply free_lam in H. destruct H as (N & H). destruct (F3 x H); [now left | contradiction].
  - intros x H. apply asg_app in H. destruct H as [H|H]; [|right; auto]. apply asg_lam in H. destruct H as (N & H). left. auto.
  - intros N. apply able_app_exp. auto.
Qed.
Lemma letrec_rest_scope f cb ub b n r n' : keeps f -> letrec_rest (fixl f) cb ub b n = Some (r, n') -> rest_ok n n' (map b_id cb) ((map b_exp cb ++ [b]) ++ map b_exp ub) r.
Proof.
  intros K E. unfold letrec_rest in E. match type of E with match ?q with _ => _ end = _ => destruct q as [(s & n1)|] eqn:X; [|discriminate] end. apply (seed_scope f cb b n s n1 K) in X.
  destruct (each (fixl f) (map b_exp ub) n1) as [(us & n2)|] eqn:Y; [|discriminate]. injection E as E. destruct (each_kept f K _ _ _ _ Y) as ([L1 C1 F1 A1 B1] & Ln). destruct (begins_scope _ _ _ _ _ E) as (L2 & C2 & F2 & A2 & B2).
  destruct X as (L & C & F & A & B). split; [lia|]. split; [|split; [|split]].
  - intros x. rewrite cbs_app. specialize (C x). specialize (C1 x). specialize (C2 x). pose proof (nw_add n n1 n2 x ltac:(lia) ltac:(lia)). pose proof (nw_add n n2 n' x ltac:(lia) ltac:(lia)). lia.
  - intros x H. rewrite frees_app. destruct (F2 x H) as [H2|H2]; [right; right; auto|]. destruct (F x H2); auto.
  - intros x H. rewrite asgs_app. destruct (A2 x H) as [H2|H2]; [right; right; auto|]. destruct (A x H2); auto.
  - rewrite flat_map_app. intros N. apply B2; [apply B1; now apply nodup_r in N | apply B; now apply nodup_l in N].
Qed.

(** ** letrec and letrec* *)
Lemma kinds_cnt x bs : (cbs x (map b_exp bs) = cbs x (map b_exp (of_kind KU bs)) + cbs x (map b_exp (of_kind KS bs)) + cbs x (map b_exp (of_kind KC bs)) + cbs x (map b_exp (of_kind KL bs)))%nat.
Proof. rewrite (cbs_perm x _ _ (Permutation_map b_exp (kinds_perm bs))). rewrite !map_app, !cbs_app. lia. Qed.
Lemma kinds_ids x bs : (cnt x (map b_id bs) = cnt x (map b_id (of_kind KU bs)) + cnt x (map b_id (of_kind KS bs)) + cnt x (map b_id (of_kind KC bs)) + cnt x (map b_id (of_kind KL bs)))%nat.
Proof. rewrite (cnt_perm x _ _ (Permutation_map b_id (kinds_perm bs))). rewrite !map_app, !cnt_app. lia. Qed.
Lemma kind_frees x k bs l : (forall d, In d bs -> In (b_exp d) l) -> frees x (map b_exp (of_kind k bs)) -> exists d, In d bs /\ b_kind d = k /\ free_in x (b_exp d).
Proof. intros H (a & I & F). apply in_map_iff in I. destruct I as (d & <- & I). apply kind_In in I. exists d. tauto. Qed.
Lemma group_scope f ids es b c rands rest n e' n' : keeps f -> length ids = length es ->
  (forall a x, In a (es ++ [b]) -> free_in x a -> free_in x c) -> (forall a x, In a (es ++ [b]) -> assigned_in x a -> assigned_in x c) ->
  (forall x, (cbs x (es ++ [b]) <= cb x c)%nat) ->
  let bs := classify_bindings ids es b in bind_first (fixl f) bs rest n = Some (e', n') ->
  (forall n2 r n3, rest n2 = Some (r, n3) -> rest_ok n2 n3 (map b_id (of_kind KC bs)) ((map b_exp (of_kind KC bs) ++ [b]) ++ map b_exp (of_kind KU bs)) r) ->
  kept n n' [EApp (ELam ids c) rands] [e'].
Proof.
  intros K Len Hf Ha Hc bs E Hr. destruct (classify_all ids es b Len) as (Ei & Ee & Cl). fold bs in Ei, Ee, Cl.
  unfold bind_first in E. set (sb := of_kind KS bs) in *. set (cbd := of_kind KC bs) in *. set (lb := of_kind KL bs) in *. set (ub := of_kind KU bs) in *.
  destruct (each (fixl f) (map b_exp sb) n) as [(ss & n1)|] eqn:Es; [|discriminate]. destruct (each (fixl f) (map b_exp lb) n1) as [(ls & n2)|] eqn:El; [|discriminate].
  destruct (rest n2) as [(r & n3)|] eqn:Er; [|discriminate]. destruct (refix (S (length lb)) (map b_id lb) ls r) as [T|] eqn:Et; [|discriminate]. injection E as <- <-.
  destruct (each_kept f K _ _ _ _ Es) as ([L1 C1 F1 A1 B1] & Ls). destruct (each_kept f K _ _ _ _ El) as ([L2 C2 F2 A2 B2] & Ll). rewrite map_length in Ls, Ll.
  destruct (Hr n2 r n3 Er) as (L3 & C3 & F3 & A3 & B3). clear Hr.
  destruct (zip_ok lb ls (eq_sym Ll)) as (Z1 & Z2 & _). assert (Et2 : refix (S (length lb)) (map fst (zip lb ls)) (map tgt (zip lb ls)) r = Some T) by (rewrite Z1, Z2; exact Et). destruct (refix_scope r _ _ _ Et2) as (C4 & F4 & A4 & B4). rewrite Z1 in C4, F4, A4, B4. rewrite Z2 in C4, F4, A4, B4.
  assert (Ia : forall d, In d bs -> In (b_exp d) (es ++ [b])) by (intros d I; apply in_app_iff; left; rewrite <- Ee; now apply in_map).
  assert (Fk : forall k x, frees x (map b_exp (of_kind k bs)) -> frees x (es ++ [b])). { intros k x (a & I & F). apply in_map_iff in I. destruct I as (d & <- & I). apply kind_In in I. exists (b_exp d). split; [apply Ia; tauto | assumption]. }
  assert (Ak : forall k x, asgs x (map b_exp (of_kind k bs)) -> asgs x (es ++ [b])). { intros k x (a & I & F). apply in_map_iff in I. destruct I as (d & <- & I). apply kind_In in I. exists (b_exp d). split; [apply Ia; tauto | assumption]. }
  assert (AF : forall x l, asgs x l -> frees x l) by (intros x l (a & I & F); exists a; split; [assumption | now apply assigned_free]).
  assert (Fr : forall x, free_in x r -> In x (map b_id cbd) \/ frees x (es ++ [b])). { intros x F. destruct (F3 x F) as [I|I]; [auto|]. right. rewrite !frees_app in I. destruct I as [[I|I]|I]; [eapply Fk; eauto | rewrite frees_app; auto | eapply Fk; eauto]. }
  assert (Ar : forall x, assigned_in x r -> In x (map b_id cbd) \/ asgs x (es ++ [b])). { intros x F. destruct (A3 x F) as [I|I]; [auto|]. right. rewrite !asgs_app in I. destruct I as [[I|I]|I]; [eapply Ak; eauto | rewrite asgs_app; auto | eapply Ak; eauto]. }
  assert (Out : forall x, frees x (map b_exp sb) -> ~ In x ids).
  { intros x (a & I & F) J. apply in_map_iff in I. destruct I as (d & <- & I). apply kind_In in I. destruct I as (I & Kd). destruct (Cl d I) as (Q & _). destruct Q as [Q|Q _ _ _ N|Q|Q|Q]; try congruence. exact (N x J F). }
  assert (In3 : forall x, In x ids -> frees x (es ++ [b]) -> In x (map b_id sb) \/ In x (map b_id cbd) \/ In x (map b_id lb)).
  { intros x I (a & J & F). rewrite <- Ei in I. apply in_map_iff in I. destruct I as (d & <- & I). destruct (b_kind d) eqn:Kd.
    - destruct (Cl d I) as (Q & _). destruct Q as [Q N|Q|Q|Q|Q]; try congruence. destruct (N a J F).
    - left. apply in_map, kind_In. auto.
    - right. right. apply in_map, kind_In. auto.
    - right. left. apply in_map, kind_In. auto. }
  assert (Esc : forall x, ~ In x ids -> frees x (es ++ [b]) -> free_in x (EApp (ELam ids c) rands)). { intros x N (a & I & F). apply free_app. left. apply free_lam. eauto. }
  assert (Asc : forall x, ~ In x ids -> asgs x (es ++ [b]) -> assigned_in x (EApp (ELam ids c) rands)). { intros x N (a & I & F). apply asg_app. left. apply asg_lam. eauto. }
  constructor.
  - lia.
  - intros x. rewrite !cbs_one. unfold let_exp. rewrite cb_app, cb_lam, cbs_app, C4, cb_app, cb_lam, cnt_app. specialize (C1 x). specialize (C2 x). specialize (C3 x). rewrite !cbs_app, cbs_one in C3. specialize (Hc x). rewrite cbs_app, cbs_one in Hc.
    pose proof (kinds_cnt x bs) as Q1. pose proof (kinds_ids x bs) as Q2. rewrite Ei in Q2. rewrite Ee in Q1. fold sb lb cbd ub in Q1, Q2.
    assert (Vo : cbs x (map (fun _ : bnd => void_exp) cbd) = 0%nat). { clear. induction cbd as [|? ? IH]; [reflexivity|]. cbn [map]. rewrite cbs_cons, IH. reflexivity. }
    pose proof (nw_add n n1 n2 x ltac:(lia) ltac:(lia)). pose proof (nw_add n n2 n3 x ltac:(lia) ltac:(lia)). lia.
  - intros x. rewrite !frees_one. unfold let_exp. intros F. apply free_app in F. destruct F as [F|F].
    + apply free_lam in F. destruct F as (N & F). rewrite in_app_iff in N. destruct (F4 x F) as (N4 & D4).
      assert (D : frees x (es ++ [b])). { destruct D4 as [D4|D4]; [eapply Fk; apply F2; exact D4|]. destruct (Fr x D4); [tauto | assumption]. }
      apply Esc; [|assumption]. intros I. destruct (In3 x I D); tauto.
    + change (frees x (ss ++ map (fun _ : bnd => void_exp) cbd)) in F. apply frees_app in F. destruct F as [F|(a & I & F)].
      * apply Esc; [apply Out; now apply F1 | eapply Fk; apply F1; exact F].
      * apply in_map_iff in I. destruct I as (? & <- & _). apply free_prim in F. destruct F as (? & [] & _).
  - intros x. rewrite !asgs_one. unfold let_exp. intros F. apply asg_app in F. destruct F as [F|F].
    + apply asg_lam in F. destruct F as (N & F). rewrite in_app_iff in N. destruct (A4 x F) as (N4 & D4).
      assert (D : asgs x (es ++ [b])). { destruct D4 as [D4|D4]; [eapply Ak; apply A2; exact D4|]. destruct (Ar x D4); [tauto | assumption]. }
      apply Asc; [|assumption]. intros I. destruct (In3 x I (AF _ _ D)); tauto.
    + change (asgs x (ss ++ map (fun _ : bnd => void_exp) cbd)) in F. apply asgs_app in F. destruct F as [F|(a & I & F)].
      * apply Asc; [apply Out; apply AF; now apply A1 | eapply Ak; apply A1; exact F].
      * apply in_map_iff in I. destruct I as (? & <- & _). apply assigned_free in F. apply free_prim in F. destruct F as (? & [] & _).
  - cbn [flat_map]. rewrite app_nil_r. cbn [binders]. intros N. apply able_one. apply nodup_l in N. pose proof (nodup_l _ _ N) as Ni. apply nodup_r in N.
    assert (Nall : NoDup (flat_map binders (es ++ [b]))). { apply (NoDup_count_occ id_dec). intros x. pose proof (proj1 (NoDup_count_occ id_dec _) N x). specialize (Hc x). unfold cbs, cb, cnt in Hc. lia. }
    assert (Nk : forall l, (forall x, (cbs x l <= cbs x (es ++ [b]))%nat) -> NoDup (flat_map binders l)) by (intros l H; eapply fewer_nodup; eauto).
    unfold let_exp. apply able_app_exp. split.
    + cbn [assignable]. apply B4.
      * apply B2, Nk. intros x. rewrite cbs_app. rewrite <- Ee at 1. rewrite (kinds_cnt x bs). fold lb. lia.
      * apply B3, Nk. intros x. rewrite !cbs_app. rewrite <- Ee at 1. rewrite (kinds_cnt x bs). fold cbd ub. lia.
      * intros x I. apply in_map_iff in I. destruct I as (d & <- & I). apply kind_In in I. destruct I as (I & Kd). destruct (Cl d I) as (Q & _). destruct Q as [Q|Q|Q NA _|Q|Q]; try congruence. split.
        -- intros As. apply A2, Ak in As. destruct As as (a & J & As). exact (NA a J As).
        -- intros As. destruct (Ar _ As) as [J|(a & J & As2)]; [|exact (NA a J As2)]. apply in_map_iff in J. destruct J as (d2 & E2 & J). apply kind_In in J. destruct J as (J & K2).
           rewrite <- Ei in Ni. rewrite (same_bnd _ Ni d2 d J I E2) in K2. congruence.
    + apply able_app. split; [apply B1, Nk; intros x; rewrite cbs_app; rewrite <- Ee at 1; rewrite (kinds_cnt x bs); fold sb; lia|]. intros a I. apply in_map_iff in I. destruct I as (? & <- & _). exact Logic.I.
Qed.

(** ** All expressions *)
Lemma kept_node n n' l l' e e' bs (own owna : id -> Prop) :
  kept n n' l l' -> (forall x, cb x e = cnt x bs + cbs x l)%nat -> (forall x, cb x e' = cnt x bs + cbs x l')%nat ->
  (forall x, free_in x e <-> own x \/ ~ In x bs /\ frees x l) -> (forall x, free_in x e' <-> own x \/ ~ In x bs /\ frees x l') ->
  (forall x, assigned_in x e <-> owna x \/ ~ In x bs /\ asgs x l) -> (forall x, assigned_in x e' <-> owna x \/ ~ In x bs /\ asgs x l') ->
  (able l' -> assignable e') -> kept n n' [e] [e'].
Proof.
  intros [L C F A B] C1 C2 F1 F2 A1 A2 B2. constructor.
  - assumption.
  - intros x. rewrite !cbs_one, C1, C2. specialize (C x). lia.
  - intros x. rewrite !frees_one, F1, F2. specialize (F x). tauto.
  - intros x. rewrite !asgs_one, A1, A2. specialize (A x). tauto.
  - cbn [flat_map]. rewrite app_nil_r. intros N. apply able_one, B2, B. apply (NoDup_count_occ id_dec). intros x. pose proof (proj1 (NoDup_count_occ id_dec _) N x). specialize (C1 x). unfold cbs, cb, cnt in C1. lia.
Qed.
Lemma frees_cons x e l : frees x (e :: l) <-> free_in x e \/ frees x l.
Proof. change (e :: l) with ([e] ++ l). now rewrite frees_app, frees_one. Qed.
Lemma asgs_cons x e l : asgs x (e :: l) <-> assigned_in x e \/ asgs x l.
Proof. change (e :: l) with ([e] ++ l). now rewrite asgs_app, asgs_one. Qed.
Lemma able_cons e l : able (e :: l) <-> assignable e /\ able l.
Proof. change (e :: l) with ([e] ++ l). now rewrite able_app, able_one. Qed.
Lemma frees_nil x : frees x [] <-> False.
Proof. split; [intros (? & [] & _) | intros []]. Qed.
Lemma asgs_nil x : asgs x [] <-> False.
Proof. split; [intros (? & [] & _) | intros []]. Qed.
Lemma asg_if x a b c : assigned_in x (EIf a b c) <-> assigned_in x a \/ assigned_in x b \/ assigned_in x c.
Proof.
  rewrite assigned_in_eq. cbn. split; [intros [[=]|(ys & e' & [[= <- <-]|[[= <- <-]|[[= <- <-]|[]]]] & _ & A)]; auto|].
  intros [A|[A|A]]; right; (eexists [], _; split; [|split; [intros [] | exact A]]); cbn; auto.
Qed.
Lemma asg_prim x ef p l : assigned_in x (EPrim ef p l) <-> asgs x l.
Proof.
  rewrite assigned_in_eq. cbn. split; [intros [[=]|(ys & e' & I & N & A)]; apply in_map_iff in I; destruct I as (a & [= <- <-] & I); exists a; auto|].
  intros (a & I & A). right. exists [], a. split; [now apply (in_map (fun e => ([], e)))|]. split; [intros [] | assumption].
Qed.
Lemma asg_letcc x y b : assigned_in x (ELetcc y b) <-> ~ In x [y] /\ assigned_in x b.
Proof. rewrite assigned_in_eq. cbn [parts assignment]. split; [intros [[=]|(ys & e' & [[= <- <-]|[]] & N & A)]; auto|]. intros (N & A). right. exists [y], b. split; [now left | auto]. Qed.
Lemma asg_with x k e : assigned_in x (EWithcc k e) <-> assigned_in x k \/ assigned_in x e.
Proof.
  rewrite assigned_in_eq. cbn. split; [intros [[=]|(ys & e' & [[= <- <-]|[[= <- <-]|[]]] & _ & A)]; auto|].
  intros [A|A]; right; (eexists [], _; split; [|split; [intros [] | exact A]]); cbn; auto.
Qed.
Lemma able_prim ef p l : assignable (EPrim ef p l) <-> able l.
Proof. cbn [assignable]. apply fold_able. Qed.
Ltac many := rewrite ?frees_cons, ?asgs_cons, ?frees_nil, ?asgs_nil; cbn [In].
Lemma kept_set n n' x e e' : kept n n' [e] [e'] -> kept n n' [ESet x e] [ESet x e'].
Proof.
  intros K. apply (kept_node n n' [e] [e'] _ _ [] (fun y => y = x) (fun y => y = x)); auto.
  1-2: intros y; rewrite cbs_one; reflexivity. 1-2: intros y; rewrite free_set; many; tauto. 1-2: intros y; rewrite asg_set; many; tauto. rewrite able_one. auto.
Qed.
Lemma kept_if n n' a b c a' b' c' : kept n n' [a; b; c] [a'; b'; c'] -> kept n n' [EIf a b c] [EIf a' b' c'].
Proof.
  intros K. apply (kept_node n n' _ _ _ _ [] (fun _ => False) (fun _ => False) K).
  1-2: intros y; unfold cb, cbs; cbn [binders flat_map]; now rewrite app_nil_r. 1-2: intros y; rewrite free_if; many; tauto. 1-2: intros y; rewrite asg_if; many; tauto.
  rewrite !able_cons. cbn [assignable]. tauto.
Qed.
Lemma kept_prim n n' ef p l l' : kept n n' l l' -> kept n n' [EPrim ef p l] [EPrim ef p l'].
Proof.
  intros K. apply (kept_node n n' _ _ _ _ [] (fun _ => False) (fun _ => False) K).
  1-2: intros y; reflexivity. 1-2: intros y; rewrite free_prim; unfold frees; cbn [In]; tauto. 1-2: intros y; rewrite asg_prim; cbn [In]; tauto. apply able_prim.
Qed.
Lemma kept_call n n' f l f' l' : kept n n' (f :: l) (f' :: l') -> kept n n' [EApp f l] [EApp f' l'].
Proof.
  intros K. apply (kept_node n n' _ _ _ _ [] (fun _ => False) (fun _ => False) K).
  1-2: intros y; rewrite cb_app, cbs_cons; reflexivity. 1-2: intros y; rewrite free_app; many; unfold frees; tauto. 1-2: intros y; rewrite asg_app; many; unfold asgs; tauto.
  rewrite able_cons, able_app_exp. auto.
Qed.
Lemma kept_lam n n' xs b b' : kept n n' [b] [b'] -> kept n n' [ELam xs b] [ELam xs b'].
Proof.
  intros K. apply (kept_node n n' _ _ _ _ xs (fun _ => False) (fun _ => False) K).
  1-2: intros y; rewrite cb_lam, cbs_one; reflexivity. 1-2: intros y; rewrite free_lam; many; tauto. 1-2: intros y; rewrite asg_lam; many; tauto. rewrite able_one. auto.
Qed.
Lemma kept_letcc n n' x b b' : kept n n' [b] [b'] -> kept n n' [ELetcc x b] [ELetcc x b'].
Proof.
  intros K. apply (kept_node n n' _ _ _ _ [x] (fun _ => False) (fun _ => False) K).
  1-2: intros y; rewrite cbs_one; apply (cnt_app y [x]). 1-2: intros y; rewrite free_letcc; many; split; [intros (N & H); right; split; [intros [Q|[]]; congruence | auto] | intros [[]|(N & [H|[]])]; split; [intros ->; apply N; auto | assumption]]. 1-2: intros y; rewrite asg_letcc; many; tauto. rewrite able_one. auto.
Qed.
Lemma kept_with n n' k e k' e' : kept n n' [k; e] [k'; e'] -> kept n n' [EWithcc k e] [EWithcc k' e'].
Proof.
  intros K. apply (kept_node n n' _ _ _ _ [] (fun _ => False) (fun _ => False) K).
  1-2: intros y; unfold cb, cbs; cbn [binders flat_map]; now rewrite app_nil_r. 1-2: intros y; rewrite free_with; many; tauto. 1-2: intros y; rewrite asg_with; many; tauto.
  rewrite !able_cons. cbn [assignable]. tauto.
Qed.
Lemma chain_cnt ids es b c : chain ids es b c -> forall x, (cbs x (es ++ [b]) <= cb x c)%nat.
Proof.
  induction 1 as [b|y xs e es b d c C IH Nd]; intros x; cbn [app].
  - now rewrite cbs_one.
  - rewrite cb_app, cb_lam, cbs_one, cbs_cons. specialize (IH x). change (cb x (ESet y e)) with (cb x e). lia.
Qed.
Lemma stored_cnt z ids es b c : stored z ids es b c -> forall x, (cbs x (es ++ [b]) <= cb x c)%nat.
Proof. intros [tmps l d S Nd] x. rewrite cbs_app, cb_app, cb_lam, !cbs_one, cb_app. lia. Qed.
Lemma letrec_view_len e ids es b : letrec_view e = Val (Some (ids, es, b)) -> length ids = length es.
Proof.
  intros E. pose proof E as V. apply letrec_view_sound in V. destruct V as (c & rands & z & -> & _ & _ & _ & _ & St). inversion St as [tmps l d S0 Nd]. subst c.
  unfold letrec_view in E. destruct (let_view (EApp (ELam ids (EApp (ELam [d] b) [EApp (ELam tmps l) es])) rands)) as [((ids0 & rands0) & c0)|] eqn:V; [|discriminate]. apply let_view_eq in V. destruct V as ([= <- <- <-] & L).
  destruct ids as [|x ids]; [discriminate|]. destruct (forallb void_expp rands); [|discriminate]. destruct (begin_view _) as [(e1 & e2)|] eqn:B; [|discriminate]. apply begin_view_iff in B. destruct B as (d2 & [= <- <- <-] & N).
  unfold varassigns_view in E. destruct (let_view (EApp (ELam tmps l) es)) as [((t0 & es0) & l0)|] eqn:V; [|discriminate]. apply let_view_eq in V. destruct V as ([= <- <- <-] & L2). apply stores_len in S0. congruence.
Qed.
Lemma kcu_perm bs : Permutation (filter (fun b => kind_eqb (b_kind b) KC || kind_eqb (b_kind b) KU) bs) (of_kind KC bs ++ of_kind KU bs).
Proof.
  unfold of_kind. induction bs as [|b bs IH]; [constructor|]. cbn [filter]. destruct (b_kind b); cbn [kind_eqb orb]; [|exact IH|exact IH|cbn [app]; now constructor]. apply Permutation_cons_app. exact IH.
Qed.
Lemma kcu_kc bs : of_kind KC (filter (fun b => kind_eqb (b_kind b) KC || kind_eqb (b_kind b) KU) bs) = of_kind KC bs.
Proof. unfold of_kind. induction bs as [|b bs IH]; [reflexivity|]. cbn [filter]. destruct (b_kind b) eqn:K; cbn [kind_eqb orb filter]; rewrite ?K; cbn [kind_eqb]; rewrite ?IH; reflexivity. Qed.
Lemma degenerate_inv e b : degenerate_let e = Some b -> e = EApp (ELam [] b) [] \/ exists x, e = EApp (ELam [x] (EVar x)) [b].
Proof.
  unfold degenerate_let. destruct e as [| | | |[| | | | |xs e| | |] l| | | |]; try discriminate. destruct xs as [|x [|]]; try discriminate.
  - destruct l; [|discriminate]. intros [= <-]. now left.
  - destruct e; try discriminate. destruct l as [|a [|]]; try discriminate. destruct (id_eqb x _) eqn:E; [|discriminate]. apply id_eqb_eq in E. subst. intros [= <-]. right. eauto.
Qed.
Theorem fixl_kept : forall f, keeps f.
Proof.
  induction f as [|f IH]; intros e n e' n' E; [discriminate|].
  assert (Rec : forall a m a' m', fixl f a m = Some (a', m') -> kept m m' [a] [a']) by exact IH.
  destruct e as [x|x e|a b c|ef p l|g l|xs b|xs ls b|x b|k e].
  - cbn [fixl] in E. injection E as <- <-. apply kept_refl. intros a [<-|[]]. exact I.
  - cbn [fixl] in E. destruct (fixl f e n) as [(a & m)|] eqn:X; [|discriminate]. injection E as <- <-. apply kept_set; eauto.
  - cbn [fixl] in E. destruct (each (fixl f) [a; b; c] n) as [(l & n1)|] eqn:X; [|discriminate]. destruct (each_kept f IH _ _ _ _ X) as (K & Ln). destruct l as [|a' [|b' [|c' [|]]]]; try discriminate. injection E as <- <-. now apply kept_if.
  - cbn [fixl degenerate_let letrec_view letrecs_view let_view] in E. destruct (each (fixl f) l n) as [(l' & n1)|] eqn:X; [|discriminate]. injection E as <- <-. destruct (each_kept f IH _ _ _ _ X) as (K & _). now apply kept_prim.
  - cbn [fixl] in E. destruct (degenerate_let (EApp g l)) as [b0|] eqn:Dg.
    + apply Rec in E. destruct E as [L C F A B]. destruct (degenerate_inv _ _ Dg) as [[= -> ->]|(x & [= -> ->])].
      * constructor; auto.
        -- intros x. specialize (C x). rewrite !cbs_one in *. rewrite cb_app, cb_lam. lia.
        -- intros x H. apply F in H. rewrite frees_one in *. apply free_app. left. apply free_lam. split; [intros [] | assumption].
        -- intros x H. apply A in H. rewrite asgs_one in *. apply asg_app. left. apply asg_lam. split; [intros [] | assumption].
        -- cbn [flat_map binders]. rewrite !app_nil_r. intros N. apply B. cbn [flat_map]. now rewrite app_nil_r.
      * constructor; auto.
        -- intros y. specialize (C y). rewrite !cbs_one in *. rewrite cb_app, cbs_one. lia.
        -- intros y H. apply F in H. rewrite frees_one in *. apply free_app. right. exists b0. split; [now left | assumption].
        -- intros y H. apply A in H. rewrite asgs_one in *. apply asg_app. right. exists b0. split; [now left | assumption].
        -- cbn [flat_map binders]. rewrite !app_nil_r. intros N. apply B. cbn [flat_map]. rewrite app_nil_r. cbn [app] in N. now inversion N.
    + destruct (letrec_view (EApp g l)) as [[((ids & es) & b)|]|] eqn:Lv; [| |discriminate].
      * pose proof (letrec_view_len _ _ _ _ Lv) as Len. destruct (letrec_view_sound _ _ _ _ Lv) as (c & rands & z & [= -> ->] & _ & _ & _ & _ & St).
        eapply (group_scope f ids es b c rands); [exact IH | exact Len | eapply stored_free; eauto | eapply stored_asg; eauto | eapply stored_cnt; eauto | exact E|].
        intros n2 r n3 Er. eapply letrec_rest_scope; eauto.
      * destruct (letrecs_view (EApp g l)) as [((ids & es) & b)|] eqn:Ls.
        -- destruct (letrecs_view_sound _ _ _ _ Ls) as (c & rands & [= -> ->] & _ & _ & _ & St).
           eapply (group_scope f ids es b c rands); [exact IH | eapply chain_len; eauto | eapply chain_free; eauto | eapply chain_asg; eauto | eapply chain_cnt; eauto | exact E|].
           intros n2 r n3 Er. apply in_order_scope in Er; [|exact IH]. rewrite kcu_kc in Er. eapply rest_more; [exact Er | apply incl_refl|].
           rewrite <- app_assoc. eapply perm_trans; [apply Permutation_app_tail, Permutation_map, kcu_perm|]. rewrite map_app, <- app_assoc. apply Permutation_app_head, Permutation_app_comm.
        -- destruct (each (fixl f) (g :: l) n) as [(l0 & n1)|] eqn:X; [|discriminate]. destruct (each_kept f IH _ _ _ _ X) as (K & _). destruct l0 as [|g' l']; [discriminate|]. injection E as <- <-. now apply kept_call.
  - cbn [fixl degenerate_let letrec_view letrecs_view let_view] in E. destruct (fixl f b n) as [(a & m)|] eqn:X; [|discriminate]. injection E as <- <-. apply kept_lam; eauto.
  - discriminate.
  - cbn [fixl degenerate_let letrec_view letrecs_view let_view] in E. destruct (fixl f b n) as [(a & m)|] eqn:X; [|discriminate]. injection E as <- <-. apply kept_letcc; eauto.
  - cbn [fixl degenerate_let letrec_view letrecs_view let_view] in E. destruct (each (fixl f) [k; e] n) as [(l & n1)|] eqn:X; [|discriminate]. destruct (each_kept f IH _ _ _ _ X) as (K & Ln). destruct l as [|a' [|b' [|]]]; try discriminate. injection E as <- <-. now apply kept_with.
Qed.
(** fewer binding occurrences *)
Lemma counted_distinct n n' e e' : n <= n' -> 0 <= n -> distinct n e -> (forall x, (cb x e' <= cb x e + nw n n' x)%nat) -> distinct n' e'.
Proof.
  intros L Ln (D1 & D2) Q.
  assert (B : forall x, nw n n' x = 1%nat -> cb x e = 0%nat).
  { intros x W. destruct (Nat.eq_dec (cb x e) 0) as [|Z]; [assumption|]. exfalso. assert (I : In x (binders e)) by (apply (count_occ_In id_dec); unfold cb, cnt in Z; lia).
    specialize (D2 x I). unfold nw in W. destruct (Z.ltb_spec n (ts x)); [lia | discriminate]. }
  assert (W01 : forall x, nw n n' x = 0%nat \/ nw n n' x = 1%nat) by (intros x; unfold nw; destruct (_ && _); auto).
  split.
  - apply (NoDup_count_occ id_dec). intros x. pose proof (proj1 (NoDup_count_occ id_dec (binders e)) D1 x) as C1. specialize (Q x). unfold cb, cnt in *. destruct (W01 x) as [W|W]; [lia|].
    specialize (B x W). lia.
  - intros x I. apply (count_occ_In id_dec) in I. specialize (Q x). unfold cb, cnt in *. destruct (W01 x) as [W|W].
    + assert (J : In x (binders e)) by (apply (count_occ_In id_dec); lia). specialize (D2 x J). lia.
    + unfold nw in W. destruct (Z.ltb_spec n (ts x)), (Z.leb_spec (ts x) n'); cbn in W; lia.
Qed.
Theorem fix_letrecs_scope e n e' n' : 0 <= n -> distinct n e -> fix_letrecs e n = Some (e', n') ->
  n <= n' /\ distinct n' e' /\ assignable e' /\ (forall x, free_in x e' -> free_in x e) /\ (forall x, assigned_in x e' -> assigned_in x e).
Proof.
  intros L D E. destruct (fixl_kept _ _ _ _ _ E) as [L1 C F A B]. split; [assumption|].
  split; [eapply counted_distinct; eauto; intros x; specialize (C x); now rewrite !cbs_one in C|]. split; [apply able_one, B; cbn; rewrite app_nil_r; apply D|].
  split; intros x H; [apply frees_one, F; now apply frees_one | apply asgs_one, A; now apply asgs_one].
Qed.
