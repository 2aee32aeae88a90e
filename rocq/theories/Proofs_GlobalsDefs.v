(** The analysis of globals: the definitions that are found. *)
From Coq Require Import ZArith List Bool Lia.
From Verif Require Import Model_Lit Model_Core Model_Globals Spec_Sem Spec_Free Spec_Scope Spec_Lift Spec_Fold Spec_Letrec Spec_Globals Proofs_Sim Proofs_Core Proofs_Free Proofs_Agree Proofs_GlobalsSem Proofs_GlobalsRun Proofs_Globals.
Import ListNotations.
Open Scope Z_scope.

Definition d_id (d : id * id * exp) : id := fst (fst d).
Definition d_cid (d : id * id * exp) : id := snd (fst d).
Definition ids (L : defs) : list id := map d_id L.
Definition dtimes (x : id) (L : defs) : nat := length (filter (fun d => id_eqb x (d_id d)) L).
Definition others (L : defs) : list id := map d_cid (filter (fun d => negb (private (d_id d))) L).
Lemma others_app a b : others (a ++ b) = others a ++ others b.
Proof. unfold others. now rewrite filter_app, map_app. Qed.
Lemma dtimes_app x a b : dtimes x (a ++ b) = (dtimes x a + dtimes x b)%nat.
Proof. unfold dtimes. now rewrite filter_app, app_length. Qed.

Section Defs.
Variable top : exp.
Fixpoint gls_list (l : list exp) (n : Z) (s : defs) : defs * Z :=
  match l with [] => (s, n) | e :: l' => let (s', n') := gls top e n s in gls_list l' n' s' end.
Record gspec (S : list (id * exp)) (D : id -> exp -> Prop) (n : Z) (L : defs) (n' : Z) : Prop := {
  gs_le : n <= n';
  gs_in : forall x c d, In (x, c, d) L -> global_id x = true /\ In (x, d) S /\ D x d /\
    (private x = true /\ c = x \/ private x = false /\ var_assignment_count x top = 1%nat /\ exists m, c = mkid (- m) XTrue /\ n < m <= n');
  gs_nodup : NoDup (others L);
  gs_times : forall x, (dtimes x L <= times x S)%nat
}.
Lemma others_range S D n L n' c : gspec S D n L n' -> In c (others L) -> exists m, c = mkid (- m) XTrue /\ n < m <= n'.
Proof.
  intros G I. unfold others in I. apply in_map_iff in I. destruct I as (((x & c0) & d) & <- & I). apply filter_In in I. destruct I as (I & N). cbn in N. 
  destruct (gs_in _ _ _ _ _ G _ _ _ I) as (_ & _ & _ & [(A & _)|(_ & _ & H)]); [now rewrite A in N | exact H].
Qed.
Lemma gspec_nil D n : gspec [] D n [] n.
Proof. split; [lia | easy | constructor | intros; cbn; lia]. Qed.
Lemma gspec_app S1 S2 (D : id -> exp -> Prop) n L1 n1 L2 n2 : gspec S1 D n L1 n1 -> gspec S2 D n1 L2 n2 -> gspec (S1 ++ S2) D n (L2 ++ L1) n2.
Proof.
  intros A B. assert (LA := gs_le _ _ _ _ _ A). assert (LB := gs_le _ _ _ _ _ B). split.
  - lia.
  - intros x c d I. apply in_app_iff in I. destruct I as [I|I].
    + destruct (gs_in _ _ _ _ _ B _ _ _ I) as (G & J & E & H). split; [assumption|]. split; [apply in_or_app; auto|]. split; [assumption|].
      destruct H as [H|(H1 & H2 & m & H3 & H4)]; [now left|]. right. split; [assumption|]. split; [assumption|]. exists m. split; [assumption | lia].
    + destruct (gs_in _ _ _ _ _ A _ _ _ I) as (G & J & E & H). split; [assumption|]. split; [apply in_or_app; auto|]. split; [assumption|].
      destruct H as [H|(H1 & H2 & m & H3 & H4)]; [now left|]. right. split; [assumption|]. split; [assumption|]. exists m. split; [assumption | lia].
  - rewrite others_app. assert (DJ : forall c, In c (others L2) -> ~ In c (others L1)).
    { intros c I J. destruct (others_range _ _ _ _ _ _ B I) as (m & -> & M). destruct (others_range _ _ _ _ _ _ A J) as (m' & E & M'). injection E as E. lia. }
    pose proof (gs_nodup _ _ _ _ _ B) as NB. pose proof (gs_nodup _ _ _ _ _ A) as NA. clear - DJ NA NB. induction (others L2) as [|c l IH]; [assumption|].
    inversion NB; subst. cbn. constructor; [rewrite in_app_iff; intros [X|X]; [easy | apply (DJ c); cbn; auto] | apply IH; [intros z Z; apply DJ; now right | assumption]].
  - intros x. rewrite dtimes_app, times_app. pose proof (gs_times _ _ _ _ _ A x). pose proof (gs_times _ _ _ _ _ B x). lia.
Qed.
Lemma gspec_weak S S' (D D' : id -> exp -> Prop) n L n' : gspec S D n L n' -> incl S S' -> (forall x, (times x S <= times x S')%nat) -> (forall x d, D x d -> D' x d) -> gspec S' D' n L n'.
Proof.
  intros A I T H. split.
  - apply A.
  - intros x c d J. destruct (gs_in _ _ _ _ _ A _ _ _ J) as (G & K & E & R). auto.
  - apply A.
  - intros x. etransitivity; [apply A | apply T].
Qed.
Definition found (e : exp) : Prop := forall n, exists L n', (forall s, gls top e n s = (L ++ s, n')) /\ gspec (sets e) (fun x d => defines x d e) n L n'.
Lemma found_list (D : id -> exp -> Prop) l : (forall e, In e l -> found e /\ forall x d, defines x d e -> D x d) ->
  forall n, exists L n', (forall s, gls_list l n s = (L ++ s, n')) /\ gspec (flat_map sets l) D n L n'.
Proof.
  induction l as [|e l IH]; intros H n.
  - exists [], n. split; [reflexivity | apply gspec_nil].
  - destruct (H e (or_introl eq_refl)) as (F & HD). destruct (F n) as (L & n1 & E & G). destruct (IH (fun e I => H e (or_intror I)) n1) as (L2 & n2 & E2 & G2).
    exists (L2 ++ L), n2. split.
    + intros s. cbn [gls_list]. rewrite E, E2. now rewrite app_assoc.
    + cbn [flat_map]. apply gspec_app with n1; [|assumption]. eapply gspec_weak; [exact G | apply incl_refl | lia | exact HD].
Qed.
Lemma gls_prim ef p l n s : gls top (EPrim ef p l) n s = gls_list l n s.
Proof. reflexivity. Qed.
Definition is_lam (f : exp) : bool := match f with ELam _ _ => true | _ => false end.
Lemma gls_app f l n s : is_lam f = false -> gls top (EApp f l) n s = gls_list (f :: l) n s.
Proof. intros H. destruct f; try discriminate; reflexivity. Qed.
Lemma gls_let xs b l n s : gls top (EApp (ELam xs b) l) n s = if Nat.eqb (length xs) (length l) then gls_list (b :: l) n s else gls_list l n s.
Proof. reflexivity. Qed.
Lemma gls_found_lam e : found e /\ forall xs b, e = ELam xs b -> found b.
Proof.
  induction e as [y|y e IH|a b c IHa IHb IHc|ef p l IH|f l IHf IHl|xs b IH|xs ls b IHl IHb|y b IH|k e IHk IHe] using exp_ind2;
    (split; [intros n | try discriminate]).
  - exists [], n. split; [reflexivity | apply gspec_nil].
  - assert (EX : exists L n', (forall s, gls top e n s = (L ++ s, n')) /\ gspec (sets (ESet y e)) (fun x d => defines x d (ESet y e)) n L n').
    { destruct (proj1 IH n) as (L & n' & E & G). exists L, n'. split; [assumption|]. eapply gspec_weak; [exact G | intros z Z; now right | | intros; now apply df_set].
      intros x. cbn [sets]. unfold times. cbn [filter]. destruct (id_eqb x (fst (y, e))); cbn; lia. }
    cbn [gls]. destruct (global_id y) eqn:Gy; [|exact EX]. destruct (global_id_private_constant y) eqn:Py.
    + destruct (proj1 IH n) as (L & n' & E & G). exists ((y, y, e) :: L), n'. split; [intros s; now rewrite E|]. split.
      * apply G.
      * intros x c d [[= <- <- <-]|I]; [split; [assumption|]; split; [now left|]; split; [constructor|]; now left|].
        destruct (gs_in _ _ _ _ _ G _ _ _ I) as (A & B & C & D). split; [assumption|]. split; [now right|]. split; [now constructor | assumption].
      * unfold others. cbn [filter]. unfold d_id at 1. cbn [fst]. unfold private. rewrite Py. apply G.
      * intros x. pose proof (gs_times _ _ _ _ _ G x) as T. unfold dtimes, times in *. cbn [sets filter]. unfold d_id at 1. cbn [fst]. destruct (id_eqb x y); cbn [length]; lia.
    + destruct (Nat.eqb (var_assignment_count y top) 1) eqn:C1; [|exact EX]. apply Nat.eqb_eq in C1.
      destruct (proj1 IH (n + 1)) as (L & n' & E & G). exists ((y, mkid (- (n + 1)) XTrue, e) :: L), n'. split; [intros s; now rewrite E|]. assert (LE := gs_le _ _ _ _ _ G). split.
      * lia.
      * intros x c d [[= <- <- <-]|I].
        -- split; [assumption|]. split; [now left|]. split; [constructor|]. right. split; [exact Py|]. split; [assumption|]. exists (n + 1). split; [reflexivity | lia].
        -- destruct (gs_in _ _ _ _ _ G _ _ _ I) as (A & B & C & D). split; [assumption|]. split; [now right|]. split; [now constructor|].
           destruct D as [D|(D1 & D2 & m & D3 & D4)]; [now left | right]. split; [assumption|]. split; [assumption|]. exists m. split; [assumption | lia].
      * unfold others. cbn [filter]. unfold d_id at 1. cbn [fst]. unfold private. rewrite Py. cbn [negb map]. constructor; [|apply G]. intros I.
        destruct (others_range _ _ _ _ _ _ G I) as (m & X & M). unfold d_cid in X. cbn in X. injection X as X. lia.
      * intros x. pose proof (gs_times _ _ _ _ _ G x) as T. unfold dtimes, times in *. cbn [sets filter]. unfold d_id at 1. cbn [fst]. destruct (id_eqb x y); cbn [length]; lia.
  - destruct (proj1 IHa n) as (L & n' & E & G). exists L, n'. split; [exact E|]. eapply gspec_weak; [exact G | intros z Z; cbn; apply in_or_app; auto | | intros; now constructor].
    intros x. cbn [sets]. rewrite !times_app. lia.
  - rewrite Forall_forall in IH. destruct (found_list (fun x d => defines x d (EPrim ef p l)) l) with (n := n) as (L & n' & E & G).
    { intros e I. split; [now apply IH|]. intros. econstructor; eauto. }
    exists L, n'. split; [exact E | exact G].
  - rewrite Forall_forall in IHl. assert (HL : forall e, In e l -> found e /\ forall x d, defines x d e -> defines x d (EApp f l)).
    { intros e I. split; [now apply IHl|]. intros. eapply df_rand; eauto. }
    destruct (is_lam f) eqn:IL.
    + destruct f; try discriminate. destruct (Nat.eqb (length xs) (length l)) eqn:LN.
      * apply Nat.eqb_eq in LN. 
        pose proof (proj2 IHf _ _ eq_refl) as FB.
        destruct (found_list (fun x d => defines x d (EApp (ELam xs f) l)) (f :: l)) with (n := n) as (L & n' & E & G).
        { intros e [<-|I]; [|auto]. split; [assumption|]. intros. now apply df_let. }
        exists L, n'. split; [intros s; rewrite gls_let, (proj2 (Nat.eqb_eq _ _) LN); apply E | exact G].
      * destruct (found_list (fun x d => defines x d (EApp (ELam xs f) l)) l HL n) as (L & n' & E & G).
        exists L, n'. split; [intros s; rewrite gls_let, LN; apply E|]. eapply gspec_weak; [exact G | intros z Z; cbn; apply in_or_app; auto | | auto].
        intros x. cbn [sets]. rewrite times_app. lia.
    + destruct (found_list (fun x d => defines x d (EApp f l)) (f :: l)) with (n := n) as (L & n' & E & G).
      { intros e [<-|I]; [|auto]. split; [apply IHf|]. intros. now apply df_rator. }
      exists L, n'. split; [intros s; rewrite gls_app by assumption; apply E | exact G].
  - exists [], n. split; [reflexivity|]. eapply gspec_weak; [apply (gspec_nil (fun x d => defines x d (ELam xs b))) | easy | intros; cbn; lia | auto].
  - intros xs0 b0 [= <- <-]. apply IH.
  - destruct (proj1 IHb n) as (L & n' & E & G). exists L, n'. split; [exact E|]. eapply gspec_weak; [exact G | intros z Z; cbn; apply in_or_app; auto | | intros; now constructor].
    intros x. cbn [sets]. rewrite !times_app. lia.
  - destruct (proj1 IH n) as (L & n' & E & G). exists L, n'. split; [exact E|]. eapply gspec_weak; [exact G | apply incl_refl | auto | intros; now constructor].
  - destruct (found_list (fun x d => defines x d (EWithcc k e)) [k; e]) with (n := n) as (L & n' & E & G).
    { intros e1 [<-|[<-|[]]]; (split; [apply IHk || apply IHe|]); intros; now constructor. }
    exists L, n'. split.
    + intros s. specialize (E s). cbn [gls_list] in E. cbn [gls]. destruct (gls top k n s) as (s1 & n1). destruct (gls top e n1 s1) as (s2 & n2). exact E.
    + cbn [flat_map] in G. rewrite app_nil_r in G. exact G.
Qed.
Lemma gls_found e : found e.
Proof. apply gls_found_lam. Qed.
End Defs.
