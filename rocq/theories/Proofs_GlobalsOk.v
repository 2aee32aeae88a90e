(** The analysis of globals: replacements, and the whole pass. *)
From Coq Require Import ZArith List Bool Lia.
From Verif Require Import Model_Lit Model_Core Model_Globals Spec_Sem Spec_Free Spec_Scope Spec_Lift Spec_Fold Spec_Letrec Spec_Globals Proofs_Sim Proofs_Core Proofs_Free Proofs_Agree Proofs_GlobalsSem Proofs_GlobalsRun Proofs_Globals Proofs_GlobalsDefs.
From Verif Require Proofs_FoldMore.
Import ListNotations.
Open Scope Z_scope.

(** ** Private constants come first *)
Definition ordered (qs : list id) (L : defs) : Prop :=
  forall l1 y c d l2, L = l1 ++ (y, c, d) :: l2 -> forall x, private x = true -> In x (refs d) -> In x qs \/ In x (ids l1).
Lemma ordered_all qs L : (forall y c d x, In (y, c, d) L -> private x = true -> In x (refs d) -> In x qs) -> ordered qs L.
Proof. intros H l1 y c d l2 -> x Px R. left. eapply H; eauto. apply in_elt. Qed.
Lemma ordered_app qs a b : ordered qs a -> ordered (ids a ++ qs) b -> ordered qs (a ++ b).
Proof.
  revert qs. induction a as [|e a IH]; intros qs A B; [exact B|].
  assert (X : ordered (d_id e :: qs) (a ++ b)).
  { apply IH.
    - intros l1 y c d l2 E x Px R. destruct (A (e :: l1) y c d l2 ltac:(cbn; congruence) x Px R) as [I|[I|I]]; cbn; auto.
    - intros l1 y c d l2 E x Px R. destruct (B l1 y c d l2 E x Px R) as [I|I]; [left | now right]. cbn in I. rewrite in_app_iff in *. cbn. tauto. }
  intros l1 y c d l2 E x Px R. destruct l1 as [|f l1].
  - apply (A [] y c d a); [|assumption|assumption]. cbn in *. congruence.
  - injection E as <- E. destruct (X _ _ _ _ _ E x Px R) as [[I|I]|I]; [right; now left | auto | right; now right].
Qed.
Lemma private_global x : private x = true -> global_id x = true.
Proof. unfold private, global_id_private_constant. intros H. apply andb_true_iff in H. apply H. Qed.
Lemma sets_refs x y d e : In (y, d) (sets e) -> In x (refs d) -> In x (refs e).
Proof.
  induction e as [e IH] using parts_ind. intros I R. apply sets_inv in I. destruct I as [->|(ys & e' & J & I)]; [exact R|].
  apply (refs_part _ _ _ J). eauto.
Qed.
Section Lifted.
Variable P : prim -> script.
Variable top : exp.
Lemma defs_ordered qs e n L n' : (forall x, private x = true -> In x (refs e) -> In x qs) -> (forall s, gls top e n s = (L ++ s, n')) -> ordered qs L.
Proof.
  intros H E. apply ordered_all. intros y c d x I Px R. apply H; [assumption|]. destruct (gls_found top e n) as (L1 & n1 & E1 & G).
  assert (X : (L ++ [], n') = (L1 ++ [], n1)) by now rewrite <- E, <- E1. rewrite !app_nil_r in X. injection X as -> ->.
  destruct (gs_in _ _ _ _ _ _ G _ _ _ I) as (_ & S & _). eapply sets_refs; eauto.
Qed.
Lemma lifted_ordered qs e : lifted qs e -> fine P e -> forall n L n', (forall s, gls top e n s = (L ++ s, n')) -> ordered qs L.
Proof.
  induction 1 as [qs e FR AS|qs q c y e Pq Nq FR AS LI IH]; intros F n L n' E.
  - eapply defs_ordered; [|exact E]. intros x Px R. apply FR; [|assumption]. eapply refs_free; eauto using private_global.
  - destruct (gls_found top e n) as (Le & n1 & Ee & _). destruct (gls_found top c n1) as (Lc & n2 & Ec & _).
    assert (F1 : fine P (ELam [y] e)) by (eapply fine_part; [exact F | now left]). assert (F2 : fine P (ESet q c)) by (eapply fine_part; [exact F | right; now left]).
    assert (F3 : fine P c) by (eapply fine_part; [exact F2 | now left]). assert (F4 : fine P e) by (eapply fine_part; [exact F1 | now left]).
    assert (X : L = (q, q, c) :: Lc ++ Le).
    { specialize (E []). rewrite gls_let in E. cbn [length Nat.eqb gls_list] in E. rewrite Ee in E. cbn [gls] in E. rewrite (private_global _ Pq) in E. unfold private in Pq. rewrite Pq, Ec in E. rewrite app_nil_r in E. rewrite app_nil_r in E. congruence. }
    subst L. assert (HC : forall x, private x = true -> In x (refs c) -> In x qs) by (intros x Px R; apply FR; [eapply refs_free; eauto using private_global | assumption]).
    change ((q, q, c) :: Lc ++ Le) with ([(q, q, c)] ++ Lc ++ Le). apply ordered_app; [|apply ordered_app].
    + apply ordered_all. intros y0 c0 d x [[= <- <- <-]|[]] Px R. auto.
    + cbn. eapply defs_ordered; [|exact Ec]. intros x Px R. right. auto.
    + pose proof (IH F4 n Le n1 Ee) as O. intros l1 y0 c0 d l2 E0 x Px R. destruct (O _ _ _ _ _ E0 x Px R) as [I|I]; [left | now right]. rewrite in_app_iff. cbn in *. tauto.
Qed.
Lemma times_not x l : (forall d, ~ In (x, d) l) -> times x l = O.
Proof.
  intros H. unfold times. destruct (filter (fun p => id_eqb x (fst p)) l) as [|(y & d) f] eqn:E; [reflexivity|]. exfalso.
  assert (I : In (y, d) (filter (fun p => id_eqb x (fst p)) l)) by (rewrite E; now left). apply filter_In in I. destruct I as (I & X). apply id_eqb_eq in X. cbn in X. subst. eapply H; eauto.
Qed.
Lemma lifted_times qs e : lifted qs e -> fine P e -> forall x, private x = true -> (times x (sets e) <= 1)%nat /\ (In x qs -> times x (sets e) = O).
Proof.
  induction 1 as [qs e FR AS|qs q c y e Pq Nq FR AS LI IH]; intros F x Px.
  - assert (Z : times x (sets e) = O). { apply times_not. intros d I. apply (sets_assigned P) in I; [|assumption|now apply private_global]. apply AS in I. congruence. }
    rewrite Z. split; [lia | reflexivity].
  - assert (F1 : fine P (ELam [y] e)) by (eapply fine_part; [exact F | now left]). assert (F2 : fine P (ESet q c)) by (eapply fine_part; [exact F | right; now left]).
    assert (F3 : fine P c) by (eapply fine_part; [exact F2 | now left]). assert (F4 : fine P e) by (eapply fine_part; [exact F1 | now left]).
    assert (Z : times x (sets c) = O). { apply times_not. intros d I. apply (sets_assigned P) in I; [|assumption|now apply private_global]. apply AS in I. congruence. }
    destruct (IH F4 x Px) as (A & B). cbn [sets flat_map]. rewrite app_nil_r, times_app. change ((q, c) :: sets c) with ([(q, c)] ++ sets c). rewrite times_app, Z.
    assert (ONE : times x [(q, c)] = if id_eqb x q then 1%nat else O) by (unfold times; cbn [filter fst]; now destruct (id_eqb x q)). rewrite ONE. destruct (id_eqb x q) eqn:E.
    + apply id_eqb_eq in E. subst q. rewrite (B (or_introl eq_refl)). split; [lia | easy].
    + split; [lia|]. intros I. rewrite (B (or_intror I)). reflexivity.
Qed.
End Lifted.

(** ** Entries *)
Definition entry_ok (x c : id) (d : exp) (s : list entry) (t : entry) : Prop :=
  e_id t = x /\ e_cid t = c /\
  (e_exp t = EVar c /\ e_set t = None \/
   ag_simple d = true /\ ag_inlineable (ag_subst s d) = true /\ e_exp t = ag_subst s d /\ e_set t = if private c then Some void_exp else None).
Inductive made : defs -> list entry -> Prop :=
| made_nil : made [] []
| made_cons L s x c d t : made L s -> entry_ok x c d s t -> made ((x, c, d) :: L) (t :: s).
Lemma simple_straight e : ag_simple e = true -> straight e.
Proof.
  induction e as [y|y e IH|a b c IHa IHb IHc|ef p l IH|f l IHf IHl|xs b IH|xs ls b IHl IHb|y b IH|k e IHk IHe] using exp_ind2; cbn; intros H; try discriminate.
  - constructor.
  - constructor. rewrite Forall_forall in *. rewrite forallb_forall in H. auto.
  - apply andb_true_iff in H. destruct H as (A & B). constructor; [auto|]. rewrite Forall_forall in *. rewrite forallb_forall in B. auto.
  - constructor. auto.
Qed.
Lemma app_subst s f l : ag_subst s (EApp f l) = match degenerate_let (EApp f l) with Some b => ag_subst s b | None => EApp (ag_subst s f) (map (ag_subst s) l) end.
Proof.
  cbn [ag_subst degenerate_let]. destruct f; try reflexivity. destruct xs as [|x [|]]; try reflexivity.
  - destruct l; reflexivity.
  - destruct f; try reflexivity. destruct l as [|r []]; try reflexivity. destruct (id_eqb x x0); reflexivity.
Qed.
Lemma degenerate_inv f l b : degenerate_let (EApp f l) = Some b -> f = ELam [] b /\ l = [] \/ exists x, f = ELam [x] (EVar x) /\ l = [b].
Proof.
  cbn. destruct f; try discriminate. destruct xs as [|x [|]]; try discriminate.
  - destruct l; [|discriminate]. intros [= ->]. now left.
  - destruct f; try discriminate. destruct l as [|r []]; try discriminate. destruct (id_eqb x x0) eqn:E; [|discriminate]. apply id_eqb_eq in E. subst x0. intros [= ->]. right. eauto.
Qed.
Lemma size_ind (Q : exp -> Prop) : (forall e, (forall e', (esize e' < esize e)%nat -> Q e') -> Q e) -> forall e, Q e.
Proof. intros H e. assert (A : forall n e, (esize e < n)%nat -> Q e) by (induction n as [|n IH]; intros e0 L; [lia|]; apply H; intros e' L'; apply IH; lia). apply (A (S (esize e)) e). lia. Qed.
Lemma sum_le {A} (f : A -> nat) l a : In a l -> (f a <= list_sum (map f l))%nat.
Proof. induction l as [|b l IH]; [easy|]. intros [->|I]; cbn; [lia | apply IH in I; unfold list_sum in *; lia]. Qed.
Lemma part_size ys e' e : In (ys, e') (parts e) -> (esize e' < esize e)%nat.
Proof.
  intros I. destruct e; cbn [parts esize] in *.
  - easy.
  - destruct I as [[= <- <-]|[]]. lia.
  - destruct I as [[= <- <-]|[[= <- <-]|[[= <- <-]|[]]]]; lia.
  - apply in_map_iff in I. destruct I as (e1 & [= <- <-] & I). pose proof (sum_le esize _ _ I). lia.
  - destruct I as [[= <- <-]|I]; [lia|]. apply in_map_iff in I. destruct I as (e1 & [= <- <-] & I). pose proof (sum_le esize _ _ I). lia.
  - destruct I as [[= <- <-]|[]]. lia.
  - destruct I as [[= <- <-]|I]; [lia|]. apply in_map_iff in I. destruct I as (e1 & [= <- <-] & I). pose proof (sum_le (fun l => esize (snd l)) _ _ I). cbn beta in *. lia.
  - destruct I as [[= <- <-]|[]]. lia.
  - destruct I as [[= <- <-]|[[= <- <-]|[]]]; lia.
Qed.
Lemma degenerate_sub e b : degenerate_let e = Some b -> (esize b < esize e)%nat /\ incl (refs b) (refs e) /\ incl (sets b) (sets e) /\ (forall P, fine P e -> fine P b) /\ (ag_simple e = ag_simple b).
Proof.
  destruct e as [| | | |f l| | | |]; try discriminate. intros D. destruct (degenerate_inv _ _ _ D) as [(-> & ->)|(x & -> & ->)].
  - split; [cbn; lia|]. split; [intros z Z; cbn; now rewrite app_nil_r|]. split; [intros z Z; cbn; now rewrite app_nil_r|]. split; [|cbn; now rewrite andb_true_r].
    intros P F. eapply fine_part; [eapply fine_part; [exact F | now left] | now left].
  - split; [cbn; lia|]. split; [intros z Z; cbn; rewrite app_nil_r; now right|]. split; [intros z Z; cbn; now rewrite app_nil_r|]. split; [|cbn; now rewrite andb_true_r].
    intros P F. eapply fine_part; [exact F | right; now left].
Qed.
Definition compound (e : exp) : Prop := match e with EVar _ | ESet _ _ => False | EApp _ _ => degenerate_let e = None | _ => True end.
Lemma subst_parts s e : compound e -> parts (ag_subst s e) = map (fun p => (fst p, ag_subst s (snd p))) (parts e).
Proof.
  intros C. destruct e as [y|y e|a b c|ef p l|f l|xs b|xs ls b|y b|k e]; try easy; try reflexivity.
  - cbn [ag_subst parts]. rewrite !map_map. reflexivity.
  - rewrite app_subst. cbn [compound] in C. rewrite C. cbn [parts map]. rewrite !map_map. reflexivity.
  - cbn [ag_subst parts map]. rewrite !map_map. reflexivity.
Qed.
Lemma exp_cases e : (exists x, e = EVar x) \/ (exists x d, e = ESet x d) \/ (exists b, degenerate_let e = Some b) \/ compound e.
Proof.
  destruct e as [y|y e|a b c|ef p l|f l|xs b|xs ls b|y b|k e]; eauto; try (right; right; right; exact I).
  destruct (degenerate_let (EApp f l)) eqn:D; eauto.
Qed.
Lemma degenerate_subst s e b : degenerate_let e = Some b -> ag_subst s e = ag_subst s b.
Proof. destruct e as [| | | |f l| | | |]; try discriminate. intros D. now rewrite app_subst, D. Qed.
Lemma find_in x s t : find_entry x s = Some t -> In t s /\ e_id t = x.
Proof. intros E. apply find_some in E. destruct E as (I & E). apply id_eqb_eq in E. auto. Qed.
Lemma simple_subst s : (forall t, In t s -> (exists z, e_exp t = EVar z) /\ e_set t = None) -> forall e, ag_simple (ag_subst s e) = true -> ag_simple e = true.
Proof.
  intros PE. induction e as [e IH] using size_ind. intros H. destruct (exp_cases e) as [(x & ->)|[(x & d & ->)|[(b & D)|C]]].
  - reflexivity.
  - cbn [ag_subst] in H. destruct (global_id x); [|exact H]. destruct (find_entry x s) as [t|] eqn:E; [|discriminate].
    apply find_in in E. destruct (PE t (proj1 E)) as (_ & X). rewrite X in H. discriminate.
  - rewrite (degenerate_subst s _ _ D) in H. destruct (degenerate_sub _ _ D) as (L & _ & _ & _ & ->). now apply IH.
  - assert (IP : forall ys e', In (ys, e') (parts e) -> ag_simple (ag_subst s e') = true -> ag_simple e' = true) by (intros ys e' I; apply IH; eapply part_size; eauto).
    destruct e as [y|y e|a b c|ef p l|f l|xs b|xs ls b|y b|k e]; try discriminate; try easy.
    + cbn [ag_subst ag_simple] in *. rewrite forallb_forall in *. intros e I. apply (IP [] e); [now apply in_map|]. apply H. now apply in_map.
    + rewrite app_subst in H. cbn [compound] in C. rewrite C in H. cbn [ag_simple] in *. apply andb_true_iff in H. destruct H as (A & B). rewrite (IP [] f (or_introl eq_refl) A). cbn [andb]. rewrite forallb_forall in *.
      intros e I. apply (IP [] e); [right; now apply in_map|]. apply B. now apply in_map.
    + cbn [ag_subst ag_simple] in *. apply (IP xs b); [now left | assumption].
Qed.
Definition fine_entries P (s : list entry) : Prop := forall t, In t s -> fine P (e_exp t).
Lemma simple_part ys e' e : ag_simple e = true -> In (ys, e') (parts e) -> ag_simple e' = true.
Proof.
  destruct e as [y|y e|a b c|ef p l|f l|xs b|xs ls b|y b|k e]; cbn; try discriminate; intros H I.
  - easy.
  - apply in_map_iff in I. destruct I as (e1 & [= <- <-] & I). rewrite forallb_forall in H. auto.
  - apply andb_true_iff in H. destruct H as (A & B). destruct I as [[= <- <-]|I]; [assumption|]. apply in_map_iff in I. destruct I as (e1 & [= <- <-] & I). rewrite forallb_forall in B. auto.
  - destruct I as [[= <- <-]|[]]. assumption.
Qed.
Lemma fine_subst P s : fine_entries P s -> forall e, ag_simple e = true -> fine P e -> fine P (ag_subst s e).
Proof.
  intros FE. induction e as [e IH] using size_ind. intros SI F. destruct (exp_cases e) as [(x & ->)|[(x & d & ->)|[(b & D)|C]]].
  - cbn [ag_subst]. destruct (find_entry x s) as [t|] eqn:E; [|assumption]. apply find_in in E. now apply FE.
  - discriminate.
  - rewrite (degenerate_subst s _ _ D). destruct (degenerate_sub _ _ D) as (L & _ & _ & FD & SE). apply IH; auto. congruence.
  - constructor.
    + intros ef p l E. destruct e as [y|y e|a b c|ef0 p0 l0|f l0|xs b|xs ls b|y b|k e]; try discriminate; try easy.
      * cbn [ag_subst] in E. injection E as <- <- _. inversion F as [? A _]; subst. exact (A _ _ _ eq_refl).
      * rewrite app_subst in E. cbn [compound] in C. rewrite C in E. discriminate.
    + rewrite (subst_parts s e C). intros ys e' I. apply in_map_iff in I. destruct I as ((ys0 & e0) & [= <- <-] & I). split; [eapply fine_bound; eauto|]. apply IH; [eapply part_size; eauto | eapply simple_part; eauto | eapply fine_part; eauto].
Qed.

Section Static.
Variable P : prim -> script.
Variable cs : list (id * id).
Hypothesis cs_local : forall x, global_id x = false -> name cs x = x.
Notation st := (storage cs).
Notation inlv := (inlv P).

Lemma inlineable_inlv e : ag_inlineable e = true -> fine P e -> inlv (st e).
Proof.
  induction e as [e IH] using size_ind. intros H F. destruct e as [y|y e|a b c|ef p l|f l|xs b|xs ls b|y b|k e]; try discriminate.
  - cbn in H. destruct ef; try discriminate. destruct l; [|discriminate]. inversion F as [? A _]; subst. specialize (A _ _ _ eq_refl). cbn. destruct (zlist_dec p the_halt_prim) as [X|X]; [destruct A|]. now constructor.
  - assert (D : exists b, degenerate_let (EApp f l) = Some b /\ ag_inlineable b = true).
    { clear - H. cbn in *. destruct f; try discriminate. destruct xs as [|x [|]]; try discriminate.
      - destruct l; [|discriminate]. eauto.
      - destruct f; try discriminate. destruct l as [|r []]; try discriminate. destruct (id_eqb x x0); [eauto | discriminate]. }
    destruct D as (b & D & Hb). destruct (degenerate_sub _ _ D) as (L & _ & _ & FD & _). assert (V := IH b L Hb (FD P F)).
    destruct (degenerate_inv _ _ _ D) as [(-> & ->)|(x & -> & ->)].
    + cbn [storage map]. now constructor.
    + cbn [storage map]. assert (G : global_id x = false). { apply (fine_bound P [x] (EVar x) (ELam [x] (EVar x))); [eapply fine_part; [exact F | now left] | now left | now left]. }
      rewrite (cs_local x G). now constructor.
  - cbn. constructor.
Qed.
(** more replacements do not change that a definition is inlined *)
Section More.
Variables s1 s2 : list entry.
Hypothesis more : forall x t, find_entry x s1 = Some t -> find_entry x s2 = Some t.
Hypothesis fine1 : fine_entries P s1.
Hypothesis glob2 : forall t, In t s2 -> global_id (e_id t) = true.
Hypothesis evar1 : forall t y, In t s1 -> e_exp t = EVar y -> global_id y = true.
Lemma same_shape : forall d, ag_simple d = true -> fine P d ->
  (ag_inlineable (ag_subst s1 d) = true -> inlv (st (ag_subst s2 d))) /\
  (forall xs b, ag_subst s1 d = ELam xs b -> exists b2, ag_subst s2 d = ELam xs b2 /\ (ag_inlineable b = true -> inlv (st b2)) /\
     forall x, b = EVar x -> global_id x = false -> b2 = EVar x) /\
  (forall x, ag_subst s1 d = EVar x -> global_id x = false -> ag_subst s2 d = EVar x).
Proof.
  induction d as [d IH] using size_ind. intros S F. destruct (exp_cases d) as [(y & ->)|[(y & d1 & ->)|[(b & D)|C]]].
  - cbn [ag_subst]. destruct (find_entry y s1) as [t|] eqn:E.
    + rewrite (more _ _ E). apply find_in in E. pose proof (fine1 t (proj1 E)) as Ft. split; [intros H; now apply inlineable_inlv|]. split.
      * intros xs b X. exists b. split; [assumption|]. split; [|intros x ->; reflexivity]. intros H. apply inlineable_inlv; [assumption|]. eapply fine_part; [exact Ft|]. rewrite X. now left.
      * intros x X G. exfalso. rewrite (evar1 t x (proj1 E) X) in G. discriminate.
    + split; [discriminate|]. split; [discriminate|]. intros x [= ->] G. destruct (find_entry x s2) as [t|] eqn:E2; [|reflexivity]. apply find_in in E2. destruct E2 as (I & X). apply glob2 in I. congruence.
  - discriminate.
  - rewrite !(degenerate_subst _ _ _ D). destruct (degenerate_sub _ _ D) as (L & _ & _ & FD & SE). apply IH; [assumption | congruence | auto].
  - destruct d as [y|y e|a b c|ef p l|f l|xs b|xs ls b|y b|k e]; try discriminate; try easy.
    + cbn [ag_subst]. split; [|split; discriminate]. intros H. cbn in H. destruct ef; try discriminate. destruct l; [|discriminate].
      apply (inlineable_inlv (EPrim ENo p [])); [reflexivity | assumption].
    + rewrite !app_subst. cbn [compound] in C. rewrite C. split; [|split; discriminate]. intros H.
      cbn [ag_simple] in S. apply andb_true_iff in S. destruct S as (Sf & Sl). rewrite forallb_forall in Sl.
      destruct (IH f ltac:(apply (part_size []); now left) Sf (fine_part _ _ _ _ F (or_introl eq_refl))) as (_ & HF & _).
      cbn [ag_inlineable] in H. destruct (ag_subst s1 f) as [| | | | |xs b| | |] eqn:Ef; try discriminate. destruct (HF _ _ eq_refl) as (b2 & -> & H1 & H2). destruct xs as [|x [|]]; try discriminate.
      * destruct l; [|discriminate]. cbn [map storage]. constructor. auto.
      * destruct b; try discriminate. destruct l as [|r [|]]; try discriminate. cbn [map] in H. destruct (id_eqb x x0) eqn:X; [|discriminate]. apply id_eqb_eq in X. subst x0.
        assert (Ff : fine P (ELam [x] (EVar x))). { rewrite <- Ef. apply fine_subst; [assumption | assumption|]. eapply fine_part; [exact F | now left]. }
        assert (G : global_id x = false) by (apply (fine_bound P [x] (EVar x) _ Ff); now left).
        rewrite (H2 x eq_refl G). cbn [map storage]. rewrite (cs_local x G). constructor; [assumption|].
        apply (IH r); [apply (part_size []); right; now left | apply Sl; now left | eapply fine_part; [exact F | right; now left] | assumption].
    + cbn [ag_subst]. split; [intros _; constructor|]. split; [|discriminate]. intros xs0 b0 [= <- <-]. exists (ag_subst s2 b). split; [reflexivity|].
      cbn [ag_simple] in S. destruct (IH b ltac:(apply (part_size xs); now left) S (fine_part _ _ _ _ F (or_introl eq_refl))) as (H1 & _ & H3). split; [assumption | exact H3].
Qed.
End More.
End Static.
