(** Rerooting visits exactly the winds between two extents. *)
From Coq Require Import ZArith List Bool Lia.
From Verif Require Import Model_Wind Spec_Wind.
Import ListNotations.

Definition suffix (p q : extent) : Prop := exists l, q = l ++ p.

Lemma suffix_refl p : suffix p p. Proof. now exists []. Qed.
Lemma suffix_cons w p q : suffix p q -> suffix p (w :: q).
Proof. intros [l ->]. now exists (w :: l). Qed.
Lemma suffix_len p q : suffix p q -> length p <= length q.
Proof. intros [l ->]. rewrite app_length. lia. Qed.
Lemma suffix_inv p w q : suffix p (w :: q) -> p = w :: q \/ suffix p q.
Proof. intros [[|x l] E]; [now left|]. injection E as _ E. right. now exists l. Qed.
Lemma suffix_tail w p q : suffix (w :: p) q -> suffix p q.
Proof. intros [l ->]. exists (l ++ [w]). now rewrite <- app_assoc. Qed.
Lemma suffix_cons_same w w' p : suffix (w' :: p) (w :: p) -> w' = w.
Proof. intros H. apply suffix_inv in H as [E|H]; [now injection E|]. apply suffix_len in H. cbn in H. lia. Qed.

Definition wind_eq_dec (a b : wind) : {a = b} + {a <> b}.
Proof. decide equality; try apply Z.eq_dec; apply Nat.eq_dec. Defined.
Lemma suffix_dec p q : suffix p q \/ ~ suffix p q.
Proof.
  induction q as [|w q IH].
  - destruct p; [left; apply suffix_refl|right]. intros H. apply suffix_len in H. cbn in H. lia.
  - destruct (list_eq_dec wind_eq_dec p (w :: q)) as [->|N]; [left; apply suffix_refl|].
    destruct IH as [H|H]; [left; now apply suffix_cons|right]. intros E. apply suffix_inv in E as [E|E]; auto.
Qed.

(** which extent each cell stands for *)
Record names (ext : nat -> option extent) (nx : nat) : Prop := {
  nm_root : ext 0 = Some [];
  nm_tail : forall n w p, ext n = Some (w :: p) -> exists m, m < n /\ ext m = Some p;
  nm_inj : forall n m p, ext n = Some p -> ext m = Some p -> n = m;
  nm_low : forall n p, ext n = Some p -> n < nx }.

Lemma names_len ext nx : names ext nx -> forall n p, ext n = Some p -> length p <= n.
Proof.
  intros N n p. revert n. induction p as [|w p IH]; intros n E; [cbn; lia|].
  destruct (nm_tail _ _ N _ _ _ E) as (m & L & Em). specialize (IH _ Em). cbn. lia.
Qed.

(** the cell contents when the current extent is [pc] *)
Definition points (ext : nat -> option extent) (pc : extent) (n : nat) (p : extent) (c : cell) : Prop :=
  (~ suffix p pc /\ exists w q m, p = w :: q /\ ext m = Some q /\ c = (Some (w_before w, w_after w), m)) \/
  (exists w m, suffix (w :: p) pc /\ ext m = Some (w :: p) /\ c = (Some (w_after w, w_before w), m)).
Record inv (ext : nat -> option extent) (s : st) (pc : extent) : Prop := {
  iv_names : names ext (next s);
  iv_cur : ext (cur s) = Some pc;
  iv_points : forall n p, ext n = Some p -> n <> cur s -> points ext pc n p (cells s n) }.

Section P.
Variable run : thunk -> st -> st.
Hypothesis Hrun : balanced run.
Variable ext : nat -> option extent.

Lemma inv_run t s p : inv ext s p -> inv ext (run t s) p.
Proof.
  intros [N C P]. destruct (Hrun t s) as (E1 & E2 & E3). split.
  - destruct N as [N1 N2 N3 N4]. split; auto. intros n q Hn. specialize (N4 _ _ Hn). lia.
  - now rewrite E1.
  - intros n q Hn Hc. rewrite E1 in Hc. rewrite E3 by (eapply nm_low; eauto). now apply P.
Qed.

Lemma setcell_same h n c : setcell h n c n = c.
Proof. unfold setcell. now rewrite Nat.eqb_refl. Qed.
Lemma setcell_other h n c m : m <> n -> setcell h n c m = h m.
Proof. intros H. unfold setcell. destruct (Nat.eqb_spec m n); congruence. Qed.

Definition step (s : st) (t : nat) (a b : thunk) : st :=
  mkst (setcell (setcell (cells s) (cur s) (Some (a, b), t)) t (None, 0)) (next s) t.

Lemma inv_enter s w q t : inv ext s q -> ext t = Some (w :: q) -> inv ext (step s t (w_after w) (w_before w)) (w :: q).
Proof.
  intros [N C P] Et. split; cbn; auto. intros n r En Hn. cbn in Hn.
  rewrite setcell_other by auto. destruct (Nat.eq_dec n (cur s)) as [->|Hc].
  - rewrite setcell_same. rewrite C in En. injection En as <-. right. exists w, t. split; [apply suffix_refl|auto].
  - rewrite setcell_other by auto. destruct (P n r En Hc) as [(NS & H)|(w' & m & S' & H)].
    + left. split; [|exact H]. intros S'. apply suffix_inv in S' as [->|S']; [|contradiction].
      apply Hn. eapply nm_inj; eauto.
    + right. exists w', m. split; [now apply suffix_cons|exact H].
Qed.

Lemma inv_leave s w p t : inv ext s (w :: p) -> ext t = Some p -> inv ext (step s t (w_before w) (w_after w)) p.
Proof.
  intros [N C P] Et. split; cbn; auto. intros n r En Hn. cbn in Hn.
  rewrite setcell_other by auto. destruct (Nat.eq_dec n (cur s)) as [->|Hc].
  - rewrite setcell_same. rewrite C in En. injection En as <-. left. split.
    + intros S'. apply suffix_len in S'. cbn in S'. lia.
    + exists w, p, t. auto.
  - rewrite setcell_other by auto. destruct (P n r En Hc) as [(NS & H)|(w' & m & S' & H)].
    + left. split; [|exact H]. intros S'. apply NS. now apply suffix_cons.
    + right. exists w', m. split; [|exact H]. apply suffix_inv in S' as [E|S']; [|exact S'].
      injection E as <- <-. exfalso. apply Hn. eapply nm_inj; eauto.
Qed.

Lemma moves_enter pc w q log : ~ suffix (w :: q) pc -> moves pc q log -> moves pc (w :: q) (log ++ [w_before w]).
Proof.
  intros NS (l & e & c & -> & -> & D & ->). exists l, (w :: e), c. split; [auto|split; [auto|split]].
  - intros x l' e' -> E. destruct e' as [|y e'].
    + injection E as <- ->. apply NS. exists l'. now rewrite <- app_assoc.
    + injection E as -> ->. now apply (D x l' e').
  - cbn [rev]. rewrite map_app, app_assoc. reflexivity.
Qed.

Lemma moves_leave pc w p log : suffix (w :: p) pc -> moves pc (w :: p) log -> moves pc p (log ++ [w_after w]).
Proof.
  intros [d Hd] (l & e & c & E1 & E2 & D & ->).
  rewrite E2, app_assoc in Hd. rewrite Hd in E1. apply app_inv_tail in E1.
  destruct e as [|x e _] using rev_ind.
  - cbn in E2. subst c. exists (l ++ [w]), [], p. rewrite app_nil_r in E1. subst d.
    split; [rewrite <- app_assoc; cbn; rewrite Hd, app_nil_r; auto|]. split; [auto|split].
    + intros x l' e' _ E. now destruct e'.
    + cbn. rewrite !app_nil_r, map_app. reflexivity.
  - exfalso. rewrite app_assoc in E1. now apply (D x (d ++ e) e).
Qed.

Lemma moves_refl p : moves p p [].
Proof. exists [], [], p. split; [auto|split; [auto|split]]; [|auto]. intros w l' e' H. now destruct l'. Qed.

Lemma reroot_ok : forall f s pc there p, inv ext s pc -> ext there = Some p ->
  (suffix p pc -> length pc - length p < f) -> (~ suffix p pc -> length p + length pc < f) ->
  exists log s', reroot run f s there = Some (log, s') /\ moves pc p log /\ inv ext s' p /\ cur s' = there.
Proof.
  induction f as [|f IH]; intros s pc there p I Et F1 F2.
  { exfalso. destruct (suffix_dec p pc) as [H|H]; [specialize (F1 H)|specialize (F2 H)]; lia. }
  cbn [reroot]. destruct (Nat.eqb_spec (cur s) there) as [E|NE].
  { subst there. rewrite (iv_cur _ _ _ I) in Et. injection Et as <-. exists [], s. split; [auto|].
    split; [apply moves_refl|auto]. }
  assert (Ht : there <> cur s) by auto.
  destruct (iv_points _ _ _ I there p Et Ht) as [(NS & w & q & m & -> & Em & Ec)|(w & m & S' & Em & Ec)]; rewrite Ec; cbn [snd].
  - specialize (F2 NS). cbn in F2.
    destruct (IH s pc m q I Em) as (log & s1 & -> & M & I1 & C1); [lia|lia|].
    assert (Hn : there <> cur s1).
    { intros ->. rewrite C1, Em in Et. injection Et as Et. apply (f_equal (@length _)) in Et. cbn in Et. lia. }
    destruct (iv_points _ _ _ I1 there _ Et Hn) as [(_ & w' & q' & m' & E & Em' & Ec')|(w' & m' & S'' & _)].
    2:{ apply suffix_len in S''. cbn in S''. lia. }
    injection E as <- <-. rewrite Ec'. cbn [fst]. eexists _, _. split; [reflexivity|]. split; [|split].
    + now apply moves_enter.
    + apply inv_run. now apply (inv_enter s1 w q there I1 Et).
    + now rewrite (proj1 (Hrun _ _)).
  - specialize (F1 (suffix_tail _ _ _ S')). pose proof (suffix_len _ _ S') as L. cbn in L.
    destruct (IH s pc m (w :: p) I Em) as (log & s1 & -> & M & I1 & C1); [cbn; lia|contradiction|].
    assert (Hn : there <> cur s1).
    { intros ->. rewrite C1, Em in Et. injection Et as Et. apply (f_equal (@length _)) in Et. cbn in Et. lia. }
    destruct (iv_points _ _ _ I1 there _ Et Hn) as [(N' & _)|(w' & m' & S'' & _ & Ec')].
    { exfalso. apply N', suffix_cons, suffix_refl. }
    apply suffix_cons_same in S'' as ->. rewrite Ec'. cbn [fst]. eexists _, _. split; [reflexivity|]. split; [|split].
    + now apply moves_leave.
    + apply inv_run. now apply (inv_leave s1 w p there I1 Et).
    + now rewrite (proj1 (Hrun _ _)).
Qed.

Lemma reroot'_ok s pc there p : inv ext s pc -> ext there = Some p ->
  exists log s', reroot' run s there = Some (log, s') /\ moves pc p log /\ inv ext s' p /\ cur s' = there.
Proof.
  intros I Et. pose proof (iv_names _ _ _ I) as N.
  pose proof (names_len _ _ N _ _ Et). pose proof (nm_low _ _ N _ _ Et).
  pose proof (names_len _ _ N _ _ (iv_cur _ _ _ I)). pose proof (nm_low _ _ N _ _ (iv_cur _ _ _ I)).
  apply reroot_ok with (pc := pc); auto; lia.
Qed.
End P.

Lemma moves_functional p q l1 l2 : moves p q l1 -> moves p q l2 -> l1 = l2.
Proof.
  assert (K : forall (l1 l2 c1 c2 e1 e2 : extent), l1 ++ c1 = l2 ++ c2 -> e1 ++ c1 = e2 ++ c2 -> length c1 <= length c2 ->
     (forall w l' e', l1 = l' ++ [w] -> e1 <> e' ++ [w]) -> l1 = l2 /\ e1 = e2).
  { clear. intros l1 l2 c1 c2 e1 e2 E1 E2 L D.
    assert (exists d, c2 = d ++ c1) as [d ->].
    { exists (firstn (length c2 - length c1) c2). rewrite <- (firstn_skipn (length c2 - length c1) c2) at 1. f_equal.
      apply (f_equal (skipn (length l2 + (length c2 - length c1)))) in E1.
      pose proof (f_equal (@length _) E1) as EL. rewrite !skipn_length, !app_length in EL.
      assert (skipn (length l2 + (length c2 - length c1)) (l2 ++ c2) = skipn (length c2 - length c1) c2) as EE.
      { rewrite skipn_app, skipn_all2 by lia. cbn. f_equal. lia. }
      rewrite EE in E1. rewrite <- E1. clear EE.
      destruct (Nat.le_gt_cases (length l1) (length l2 + (length c2 - length c1))) as [H|H].
      - rewrite skipn_app, skipn_all2 by lia. cbn.
        assert (length l2 + (length c2 - length c1) - length l1 = 0 \/ length c1 = 0) as [->|Z] by lia; [reflexivity|].
        destruct c1; [now rewrite skipn_nil|discriminate].
      - lia. }
    rewrite app_assoc in E1, E2. apply app_inv_tail in E1, E2. subst l1 e1.
    destruct d as [|x d _] using rev_ind; [now rewrite !app_nil_r|].
    exfalso. apply (D x (l2 ++ d) (e2 ++ d)); now rewrite app_assoc. }
  intros (l & e & c & P1 & Q1 & D & ->) (l' & e' & c' & P2 & Q2 & D' & ->).
  rewrite P1 in P2. rewrite Q1 in Q2.
  destruct (Nat.le_ge_cases (length c) (length c')) as [L|L].
  - destruct (K _ _ _ _ _ _ P2 Q2 L D) as [-> ->]. reflexivity.
  - destruct (K _ _ _ _ _ _ (eq_sym P2) (eq_sym Q2) L D') as [-> ->]. reflexivity.
Qed.

Lemma Forall2_impl A B (R R' : A -> B -> Prop) : (forall a b, R a b -> R' a b) ->
  forall l l', Forall2 R l l' -> Forall2 R' l l'.
Proof. intros H l l' F. induction F; constructor; auto. Qed.

(** ** Whole programs *)
Section Q.
Variable run : thunk -> st -> st.
Hypothesis Hrun : balanced run.

Definition named (ext : nat -> option extent) (n : nat) (p : extent) : Prop := ext n = Some p.
Record rel (ext : nat -> option extent) (p : prog) (a : aprog) : Prop := {
  rl_inv : inv ext (ds p) (a_cur a);
  rl_heres : Forall2 (named ext) (heres p) (a_heres a);
  rl_conts : Forall2 (fun k k' => named ext (fst k) (fst k') /\ Forall2 (named ext) (snd k) (snd k')) (conts p) (a_conts a);
  rl_ids : forall n e, ext n = Some e -> Forall (fun w => w_id w < a_n a) e }.

Lemma nth_error_Forall2 A B (R : A -> B -> Prop) l l' n y : Forall2 R l l' -> nth_error l' n = Some y ->
  exists x, nth_error l n = Some x /\ R x y.
Proof.
  intros F. revert n. induction F as [|a b l l' H F IH]; intros [|n] E; cbn in *; try discriminate; [|now apply IH].
  injection E as <-. eauto.
Qed.

Definition possible (a : aprog) (o : op) : Prop :=
  match o with
  | OReturn => a_heres a <> []
  | OThrow k => nth_error (a_conts a) k <> None
  | _ => True
  end.

Lemma do_op_ok ext p a o : rel ext p a -> possible a o ->
  exists ext' log p' a', do_op run p o = Some (log, p') /\ a_op a o log a' /\ rel ext' p' a'.
Proof.
  intros [I H C D] Po. destruct o as [b af| | |k|]; cbn [do_op].
  - (* a new extent *)
    set (nx := next (ds p)). set (w := mkwind (a_n a) b af).
    set (ext' := fun n => if Nat.eqb n nx then Some (w :: a_cur a) else ext n).
    pose proof (iv_names _ _ _ I) as N. pose proof (iv_cur _ _ _ I) as Ec.
    assert (Lc : cur (ds p) < nx) by (eapply nm_low; eauto).
    assert (X : forall n e, ext n = Some e -> ext' n = Some e).
    { intros n e E. unfold ext'. destruct (Nat.eqb_spec n nx) as [->|_]; [|auto].
      apply (nm_low _ _ N) in E. unfold nx in E. lia. }
    assert (Fr : forall n e, ext n = Some e -> ~ suffix (w :: a_cur a) e).
    { intros n e E [l ->]. apply D in E. apply Forall_app in E as [_ E]. apply Forall_inv in E. cbn in E. lia. }
    set (s0 := mkst (setcell (cells (ds p)) nx (Some (b, af), cur (ds p))) (S nx) (cur (ds p))).
    assert (I0 : inv ext' s0 (a_cur a)).
    { split.
      - destruct N as [N1 N2 N3 N4]. split; cbn.
        + now apply X.
        + intros n v q E. unfold ext' in E. destruct (Nat.eqb_spec n nx) as [->|Hn].
          * injection E as <- <-. exists (cur (ds p)). split; [auto|now apply X].
          * destruct (N2 _ _ _ E) as (m & L & Em). exists m. split; [auto|now apply X].
        + intros n m q En Em. unfold ext' in En, Em.
          destruct (Nat.eqb_spec n nx) as [->|Hn], (Nat.eqb_spec m nx) as [->|Hm]; auto.
          * exfalso. injection En as <-. apply (Fr _ _ Em), suffix_refl.
          * exfalso. injection Em as <-. apply (Fr _ _ En), suffix_refl.
          * eauto.
        + intros n q E. unfold ext' in E. destruct (Nat.eqb_spec n nx) as [->|Hn]; [lia|].
          apply N4 in E. fold nx in E. lia.
      - cbn. now apply X.
      - cbn. intros n q E Hn. unfold ext' in E. destruct (Nat.eqb_spec n nx) as [->|Hx].
        + injection E as <-. rewrite setcell_same. left. split.
          * intros S'. apply suffix_len in S'. cbn in S'. lia.
          * exists w, (a_cur a), (cur (ds p)). split; [auto|split; [now apply X|reflexivity]].
        + rewrite setcell_other by auto.
          destruct (iv_points _ _ _ I n q E Hn) as [(NS & v & r & m & -> & Em & Ec')|(v & m & S' & Em & Ec')].
          * left. split; [auto|]. exists v, r, m. split; [auto|split; [now apply X|auto]].
          * right. exists v, m. split; [auto|split; [now apply X|auto]]. }
    assert (Et : ext' nx = Some (w :: a_cur a)) by (unfold ext'; now rewrite Nat.eqb_refl).
    destruct (reroot'_ok run Hrun ext' s0 _ nx _ I0 Et) as (log & s' & Er & M & I1 & C1).
    cbv zeta. rewrite Er.
    assert (log = [b]) as ->.
    { apply (moves_functional _ _ _ _ M). exists [], [w], (a_cur a). split; [auto|split; [auto|split; [|auto]]].
      intros v l' e' E. now destruct l'. }
    eexists ext', _, _, _. split; [reflexivity|]. split; [apply ao_wind|]. split; cbn; auto.
    + constructor; [now apply X|]. eapply Forall2_impl; [|exact H]. intros n e. apply X.
    + eapply Forall2_impl; [|exact C]. intros n e [E F]. split; [now apply X|].
      eapply Forall2_impl; [|exact F]. intros ? ?. apply X.
    + intros n e E. unfold ext' in E. destruct (Nat.eqb_spec n nx) as [->|Hn].
      * injection E as <-. constructor; [cbn; lia|]. apply D in Ec. eapply Forall_impl; [|exact Ec]. cbn. lia.
      * apply D in E. eapply Forall_impl; [|exact E]. cbn. lia.
  - cbn in Po. destruct (a_heres a) as [|q qs] eqn:Eh; [contradiction|].
    inversion H as [|n x hs y Hn Hs E1 E2]; subst.
    destruct (reroot'_ok run Hrun ext (ds p) _ n q I Hn) as (log & s' & -> & M & I1 & C1).
    exists ext, log. eexists _, _. split; [reflexivity|]. split; [eapply ao_return; eauto|]. split; cbn; auto.
  - exists ext. eexists _, _, _. split; [reflexivity|]. split; [apply ao_capture|]. split; cbn; auto.
    apply Forall2_app; [auto|]. constructor; [|constructor]. cbn. split; [|auto]. apply (iv_cur _ _ _ I).
  - cbn in Po. destruct (nth_error (a_conts a) k) as [[q qs]|] eqn:En; [|contradiction].
    destruct (nth_error_Forall2 _ _ _ _ _ _ _ C En) as ([n hs] & -> & Hn & Hs). cbn in Hn, Hs.
    destruct (reroot'_ok run Hrun ext (ds p) _ n q I Hn) as (log & s' & -> & M & I1 & C1).
    exists ext, log. eexists _, _. split; [reflexivity|]. split; [eapply ao_throw; eauto|]. split; cbn; auto.
  - destruct (reroot'_ok run Hrun ext (ds p) _ 0 [] I (nm_root _ _ (iv_names _ _ _ I))) as (log & s' & -> & M & I1 & C1).
    exists ext, log. eexists _, _. split; [reflexivity|]. split; [now apply ao_exit|]. split; cbn; auto.
Qed.

Lemma do_ops_ok os : forall ext p a ks, rel ext p a -> sensible (length (a_heres a)) (map (fun k => length (snd k)) (a_conts a)) os ->
  ks = map (fun k => length (snd k)) (a_conts a) ->
  exists ls p' a', do_ops run p os = Some (ls, p') /\ a_ops a os ls a' /\ exists ext', rel ext' p' a'.
Proof.
  induction os as [|o os IH]; intros ext p a ks R S Ek; cbn [do_ops].
  { eexists _, _, a. split; [reflexivity|]. split; [constructor|eauto]. }
  assert (Po : possible a o).
  { destruct o; cbn; auto; cbn in S.
    - now destruct (a_heres a).
    - intros E. rewrite nth_error_map, E in S. exact S. }
  destruct (do_op_ok ext p a o R Po) as (ext' & log & p' & a' & -> & A & R').
  assert (S' : sensible (length (a_heres a')) (map (fun k => length (snd k)) (a_conts a')) os).
  { inversion A; subst; cbn in S |- *; auto.
    - rewrite H in S. exact S.
    - now rewrite map_app.
    - rewrite nth_error_map, H in S. exact S. }
  destruct (IH ext' p' a' _ R' S' eq_refl) as (ls & p'' & a'' & -> & As & R'').
  eexists _, _, _. split; [reflexivity|]. split; [econstructor; eauto|exact R''].
Qed.

Lemma start_rel : rel (fun n => if Nat.eqb n 0 then Some [] else None) start_prog a_start.
Proof.
  split; cbn; try constructor; cbn; auto.
  - split; auto.
    + intros n w p E. destruct (Nat.eqb n 0); discriminate.
    + intros n m p En Em. destruct (Nat.eqb_spec n 0), (Nat.eqb_spec m 0); try discriminate. congruence.
    + intros n p E. destruct (Nat.eqb_spec n 0); [subst; cbn; lia|discriminate].
  - intros n p E Hn. destruct (Nat.eqb_spec n 0); [contradiction|discriminate].
  - intros n e E. destruct (Nat.eqb n 0); [|discriminate]. injection E as <-. constructor.
Qed.

Lemma run_ops os : sensible 0 [] os ->
  exists ls p' a', do_ops run start_prog os = Some (ls, p') /\ a_ops a_start os ls a'.
Proof.
  intros S. destruct (do_ops_ok os _ _ _ [] start_rel S eq_refl) as (ls & p' & a' & E & A & _). eauto.
Qed.
End Q.

Lemma a_op_functional p o l q : a_op p o l q -> forall l' q', a_op p o l' q' -> l = l' /\ q = q'.
Proof.
  intros A l' q' B. destruct A; inversion B; subst; auto; try (split; [eapply moves_functional; eauto|]); try congruence.
Qed.
Lemma a_ops_functional p os ls q : a_ops p os ls q -> forall ls' q', a_ops p os ls' q' -> ls = ls' /\ q = q'.
Proof.
  induction 1 as [p|p o l p' os ls p'' A As IH]; intros ls' q' B; inversion B; subst; auto.
  destruct (a_op_functional _ _ _ _ A _ _ H2) as [-> ->]. destruct (IH _ _ H5) as [-> ->]. auto.
Qed.
