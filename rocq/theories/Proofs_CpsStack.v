(** Programs in which all calls are tail calls run in bounded stack space. *)
From Coq Require Import ZArith List Bool Lia.
From Verif Require Import Model_Lit Model_Core Spec_Sem Spec_Free Spec_Scope Spec_Cps Proofs_Sim Proofs_Core Proofs_Agree.
Import ListNotations.
Open Scope nat_scope.

Section Stack.
Variable P : prim -> script.
Variable H : nat.
Inductive gv : val -> Prop :=
| gv_c c : gv (VC c)
| gv_loc l : gv (VLoc l)
| gv_clo xs b r : tails true b -> height b <= H -> (forall x v, lookup r x = Some v -> gv v) -> gv (VClo xs b r)
| gv_fix ids lams i r : (forall l, In l lams -> tails true (snd l) /\ height (snd l) <= H) -> (forall x v, lookup r x = Some v -> gv v) -> gv (VFix ids lams i r).
Definition genv (r : env) : Prop := forall x v, lookup r x = Some v -> gv v.
Definition gst (w : st) : Prop := Forall (Forall gv) (hp w) /\ forall x, gv (gl w x).
Definition cap (t : bool) (k : kont) : Prop := t = true -> k = [].
Definition sok (k : kont) (s : slot) : Prop := match s with SDone v => gv v | STodo e => tails false e /\ height e + S (length k) <= H end.
Definition body (k : kont) (b : exp) : Prop := exists t, tails t b /\ cap t k /\ height b + length k <= H.
Definition letslot (k : kont) (s : slot) : Prop :=
  match s with SDone (VClo _ b r) => body k b /\ genv r | STodo (ELam _ b) => body k b | _ => False end.
Definition aok (o : oper) (l : list slot) (k : kont) : Prop :=
  S (length k) <= H /\
  match o with
  | OIf b c => (exists t, tails t b /\ tails t c /\ cap t k) /\ height b + length k <= H /\ height c + length k <= H /\ Forall (sok k) l
  | OSet _ | OPrim _ _ => Forall (sok k) l
  | OApp => match l with s :: l' => (sok k s /\ k = [] \/ letslot k s) /\ Forall (sok k) l' | [] => False end
  | OWith _ => False
  end.
Inductive kok : kont -> Prop :=
| kok_nil : kok []
| kok_cons o a b r k : kok k -> genv r -> S (length k) <= H -> (forall v, gv v -> aok o (a ++ SDone v :: b) k) -> kok (Fr o a b r :: k).
Inductive good : state -> Prop :=
| g_ev t e r k w : gst w -> genv r -> kok k -> tails t e -> cap t k -> height e + length k <= H -> good (Ev e r k w)
| g_op xs b r o a b' r1 k w : gst w -> genv r -> genv r1 -> kok k -> aok o (a ++ SDone (VClo xs b r) :: b') k -> good (Ev (ELam xs b) r (Fr o a b' r1 :: k) w)
| g_args o l r k w : gst w -> genv r -> kok k -> aok o l k -> good (Args o l r k w)
| g_ret v k w : gst w -> gv v -> kok k -> good (Ret v k w)
| g_back v o a b r k w : gst w -> genv r -> kok k -> aok o (a ++ SDone v :: b) k -> good (Ret v (Fr o a b r :: k) w)
| g_halt v w : good (Halted v w).
Lemma kok_len k : kok k -> length k <= H.
Proof. destruct 1; cbn; lia. Qed.
Lemma good_len s : good s -> length (pending s) <= H.
Proof.
  destruct 1; cbn; try lia.
  - destruct H4. lia.
  - destruct H3. lia.
  - now apply kok_len.
  - destruct H3. lia.
Qed.
Lemma run_gv p : forall rs w v w', Forall gv rs -> gst w -> run p rs w = Some (v, w') -> gv v /\ gst w'.
Proof.
  assert (AV : forall a rs v, Forall gv rs -> atom_val a rs = Some v -> gv v).
  { intros [i|c] rs v F E; cbn in E; [|injection E as <-; constructor]. apply (proj1 (Forall_forall _ _) F). eapply nth_error_In; eauto. }
  assert (AVS : forall l rs vs, Forall gv rs -> atom_vals l rs = Some vs -> Forall gv vs).
  { induction l as [|a l IH]; intros rs vs F E; cbn in E; [injection E as <-; constructor|]. destruct (atom_val a rs) eqn:A; [|discriminate]. destruct (atom_vals l rs) eqn:B; [|discriminate].
    injection E as <-. constructor; eauto. }
  assert (LS : forall A (Q : A -> Prop) l i x l', Forall Q l -> Q x -> list_set l i x = Some l' -> Forall Q l').
  { intros A Q. induction l as [|y l IH]; intros i x l' F X E; [destruct i; discriminate|]. inversion F; subst. destruct i; cbn in E; [injection E as <-; now constructor|].
    destruct (list_set l i x) eqn:D; [|discriminate]. injection E as <-. constructor; eauto. }
  induction p as [a| |a f IH|a b f IH|l k IH|a i k IH|a i b k IH|a k IH|k IH]; intros rs w v w' F G E; cbn in E.
  - destruct (atom_val a rs) eqn:A; [|discriminate]. injection E as <- <-. eauto.
  - discriminate.
  - destruct (atom_val a rs) eqn:A; [|discriminate]. eauto.
  - destruct (atom_val a rs) eqn:A; [|discriminate]. destruct (atom_val b rs) eqn:B; [|discriminate]. destruct (same _ _); [|discriminate]. eauto.
  - destruct (atom_vals l rs) eqn:A; [|discriminate]. eapply IH; [| |exact E].
    + apply Forall_app. split; [assumption | repeat constructor].
    + destruct G as (G1 & G2). split; [|assumption]. apply Forall_app. split; [assumption|]. constructor; [eauto | constructor].
  - destruct (atom_val a rs) as [[]|] eqn:A; try discriminate. destruct (nth_error (hp w) l) eqn:B; [|discriminate]. destruct (nth_error l0 i) eqn:C; [|discriminate].
    eapply IH; [|exact G|exact E]. apply Forall_app. split; [assumption|]. constructor; [|constructor]. destruct G as (G1 & _). apply nth_error_In in B, C.
    apply (proj1 (Forall_forall _ _) G1) in B. now apply (proj1 (Forall_forall _ _) B).
  - destruct (atom_val a rs) as [[]|] eqn:A; try discriminate. destruct (atom_val b rs) eqn:B; [|discriminate]. destruct (nth_error (hp w) l) eqn:C; [|discriminate].
    destruct (list_set l0 i v0) eqn:D; [|discriminate]. destruct (list_set (hp w) l l1) eqn:D2; [|discriminate]. eapply IH; [exact F| |exact E]. destruct G as (G1 & G2). split; [|assumption].
    eapply LS; [exact G1| |exact D2]. eapply LS; [|eapply AV; [exact F | exact B]|exact D]. apply nth_error_In in C. now apply (proj1 (Forall_forall _ _) G1).
  - destruct (atom_val a rs) eqn:A; [|discriminate]. eapply IH; [exact F| |exact E]. exact G.
  - destruct (inp w); [discriminate|]. eapply IH; [| |exact E]; [|exact G]. apply Forall_app. split; [assumption | repeat constructor].
Qed.
Lemma genv_cons x v r : gv v -> genv r -> genv ((x, v) :: r).
Proof. intros V G y u E. rewrite lookup_cons in E. destruct (id_eqb y x); [injection E as <-; assumption | eauto]. Qed.
Lemma bind_gv xs : forall vs r h r' h', Forall gv vs -> genv r -> bind MDirect xs vs r h = Some (r', h') -> genv r' /\ h' = h.
Proof.
  induction xs as [|x xs IH]; intros [|v vs] r h r' h' F G E; cbn in E; try discriminate.
  - injection E as <- <-. auto.
  - inversion F; subst. eapply IH; [| |exact E]; [assumption | now apply genv_cons].
Qed.
Lemma bind_fix_gv ids lams r : (forall l, In l lams -> tails true (snd l) /\ height (snd l) <= H) -> genv r -> genv (bind_fix ids lams r).
Proof.
  intros L G. unfold bind_fix. generalize O. generalize ids at 1. induction ids0 as [|y ys IH]; intros i; cbn; [assumption|].
  apply genv_cons; [constructor; auto | apply IH].
Qed.
Lemma max_In {A} (f : A -> nat) l n0 x : In x l -> f x <= fold_right (fun e n => Nat.max (f e) n) n0 l.
Proof. induction l as [|y l IH]; [easy|]. intros [->|I]; cbn; [lia | specialize (IH I); lia]. Qed.
Lemma max_base {A} (f : A -> nat) l n0 : n0 <= fold_right (fun e n => Nat.max (f e) n) n0 l.
Proof. induction l as [|y l IH]; cbn; lia. Qed.
Lemma fold_F {A} (Q : A -> Prop) l : fold_right (fun e p => Q e /\ p) True l -> Forall Q l.
Proof. induction l as [|x l IH]; cbn; constructor; tauto. Qed.
Lemma todo_ok k l n0 : fold_right (fun e q => tails false e /\ q) True l -> S (fold_right (fun e n => Nat.max (height e) n) n0 l) + length k <= H -> Forall (sok k) (map STodo l).
Proof.
  intros F L. apply fold_F in F. apply Forall_map. apply Forall_forall. intros e I. split; [now apply (proj1 (Forall_forall _ _) F)|]. pose proof (max_In height l n0 e I). lia.
Qed.
(** the operation of an expression, before its operands are evaluated *)
Lemma decomp_ok t e o l k : tails t e -> cap t k -> height e + length k <= H -> decomp e = Some (o, l) -> aok o (map STodo l) k.
Proof.
  intros T C L D. destruct e as [x|x e|a b c|ef p l0|f l0|xs b|xs lams b|x b|k0 e]; try discriminate; cbn in D; injection D as <- <-.
  - cbn in *. split; [lia|]. constructor; [|constructor]. split; [tauto | lia].
  - cbn in *. destruct T as (T1 & T2 & T3). split; [lia|]. split; [exists t; auto|]. split; [lia|]. split; [lia|]. constructor; [|constructor]. split; [tauto | lia].
  - cbn [height] in L. split; [lia|]. cbn in T. apply todo_ok with O; [tauto | exact L].
  - cbn [height] in L. split; [lia|]. cbn [map].
    assert (Q : fold_right (fun e q => tails false e /\ q) True l0 -> Forall (sok k) (map STodo l0)) by (intros F; eapply todo_ok; eauto).
    assert (B := max_base height l0 (height f)).
    destruct f as [x|x e|a b c|ef p l1|f l1|xs b|xs lams b|x b|k0 e]; cbn [tails] in T; try solve [destruct T as (-> & T1 & T2); split; [left; split; [split; [exact T1 | lia] | now apply C] | now apply Q]].
    destruct T as (T1 & T2). split; [|now apply Q]. right. cbn [letslot]. exists (if Nat.eqb (length xs) (length l0) then t else true).
    cbn [height] in B, L. destruct (Nat.eqb _ _); [split; [assumption|split; [assumption | lia]]|]. destruct T1 as (-> & T1). split; [assumption|split; [assumption | lia]].
  - cbn in T. destruct T.
Qed.
Lemma sok_done k vs : Forall (sok k) (map SDone vs) -> Forall gv vs.
Proof. induction vs as [|v vs IH]; intros F; inversion F; subst; constructor; auto. Qed.
Lemma sok_swap k a e b v : Forall (sok k) (a ++ STodo e :: b) -> gv v -> Forall (sok k) (a ++ SDone v :: b).
Proof. intros F G. apply Forall_app in F. destruct F as (A & B). inversion B; subst. apply Forall_app. split; [assumption | now constructor]. Qed.
Lemma sok_at k a e b : Forall (sok k) (a ++ STodo e :: b) -> tails false e /\ height e + S (length k) <= H.
Proof. intros F. apply Forall_app in F. destruct F as (_ & B). now inversion B. Qed.
Lemma pick_ok o a e b r k w : gst w -> genv r -> kok k -> aok o (a ++ STodo e :: b) k -> good (Ev e r (Fr o a b r :: k) w).
Proof.
  intros Gw Gr Kk (L & A).
  assert (ST : forall (X : forall v, gv v -> aok o (a ++ SDone v :: b) k), tails false e -> height e + S (length k) <= H -> good (Ev e r (Fr o a b r :: k) w)).
  { intros X T Le. apply g_ev with false; [assumption | assumption | now constructor | assumption | intros Q; discriminate Q | cbn; lia]. }
  destruct o as [b1 c1|x|ef p| |e0]; cbn in A.
  - destruct A as (A1 & A2 & A3 & A4). destruct (sok_at _ _ _ _ A4). apply ST; auto. intros v G. split; [assumption|]. cbn. repeat split; auto. eapply sok_swap; eauto.
  - destruct (sok_at _ _ _ _ A). apply ST; auto. intros v G. split; [assumption|]. cbn. eapply sok_swap; eauto.
  - destruct (sok_at _ _ _ _ A). apply ST; auto. intros v G. split; [assumption|]. cbn. eapply sok_swap; eauto.
  - destruct a as [|s a]; cbn in A.
    + destruct A as ([((T & Le) & K0)|Ls] & F).
      * apply ST; auto. intros v G. split; [assumption|]. cbn. split; [left; auto | assumption].
      * destruct e; try solve [destruct Ls]. apply g_op; auto. split; [assumption|]. cbn. split; [|assumption]. right. split; [exact Ls | assumption].
    + destruct A as (S1 & F). destruct (sok_at _ _ _ _ F). apply ST; auto. intros v G. split; [assumption|]. cbn. split; [assumption|]. eapply sok_swap; eauto.
  - destruct A.
Qed.
Lemma body_ev k b r w : gst w -> genv r -> kok k -> body k b -> good (Ev b r k w).
Proof. intros Gw Gr K (t & T & C & L). apply g_ev with t; auto. Qed.
Lemma fire_ok o vs r k w s : gst w -> genv r -> kok k -> aok o (map SDone vs) k -> fire P MDirect o vs r k w s -> good s.
Proof.
  intros Gw Gr Kk (L & A) F. destruct F.
  - destruct A as ((t & T1 & T2 & C) & L1 & L2 & _). destruct (is_true v); apply g_ev with t; auto.
  - inversion A as [|? ? V _]; subst. apply g_ret; auto; [|constructor]. destruct Gw as (G1 & G2). split; [assumption|]. intros y. cbn. destruct (id_eqb y x); [exact V | auto].
  - exfalso. apply Gr in H1. inversion H1.
  - apply sok_done in A. destruct (run_gv _ _ _ _ _ A Gw H1) as (V & G). now apply g_ret.
  - constructor.
  - destruct A as (S1 & F). apply sok_done in F.
    assert (Q : genv r0 /\ body k b).
    { destruct S1 as [(V & ->)|(B & G)]; [|auto]. cbn in V. inversion V; subst. split; [assumption|]. exists true. repeat split; auto. cbn. lia. }
    destruct Q as (G0 & B). destruct (bind_gv _ _ _ _ _ _ F G0 H0) as (G & ->). apply body_ev; auto.
  - destruct A as (S1 & F). apply sok_done in F. destruct S1 as [(V & ->)|[]]. cbn in V. inversion V as [| | |? ? ? ? VL VE]; subst.
    destruct (bind_gv _ _ _ _ _ _ F (bind_fix_gv ys lams r0 VL VE) H1) as (G & ->). apply nth_error_In in H0. destruct (VL _ H0) as (T & Le).
    apply g_ev with true; [exact Gw | assumption | assumption | exact T | now intros _ | cbn in *; lia].
  - exfalso. destruct A as ([(V & _)|[]] & _). cbn in V. inversion V.
  - exfalso. destruct A as ([(V & _)|[]] & _). cbn in V. inversion V.
  - destruct A.
  - destruct A.
Qed.
Lemma good_step s s' : good s -> step P MDirect s s' -> good s'.
Proof.
  intros G S. destruct G.
  - apply step_evf in S. destruct e as [x|x e|a b c|ef p l|f l|xs b|xs lams b|x b|k0 e]; cbn [evf decomp] in S;
      try (injection S as <-; apply g_args; [assumption|assumption|assumption|exact (decomp_ok _ _ _ _ _ H3 H4 H5 eq_refl)]).
    + destruct (read_var MDirect r x w) as [v|] eqn:E; [|discriminate]. injection S as <-. apply g_ret; auto. unfold read_var in E.
      destruct (global_id x); [injection E as <-; apply H0|]. destruct (lookup r x) as [v0|] eqn:Lk; [|discriminate]. specialize (H1 _ _ Lk). inversion H1; subst; injection E as <-; assumption.
    + injection S as <-. destruct H3 as (-> & T). apply g_ret; auto. constructor; auto. cbn in H5. lia.
    + injection S as <-. cbn [tails height] in *. destruct H3 as (T1 & T2). apply fold_F in T1. pose proof (max_base (fun l : list id * exp => height (snd l)) lams (height b)).
      apply g_ev with t; auto; [|lia]. apply bind_fix_gv; auto. intros l I. split; [now apply (proj1 (Forall_forall _ _) T1)|]. pose proof (max_In (fun l : list id * exp => height (snd l)) lams (height b) l I). cbn in H6. lia.
    + cbn in H3. destruct H3.
  - apply step_evf in S. cbn in S. injection S as <-. now apply g_back.
  - apply step_args in S. destruct S as [(a & e & b & -> & ->)|(vs & -> & F)]; [now apply pick_ok | eapply fire_ok; eauto].
  - destruct H2; [inversion S|]. apply step_ret in S. subst. apply g_args; auto.
  - apply step_ret in S. subst. now apply g_args.
  - inversion S.
Qed.
End Stack.
Theorem bounded_stack P e g i t : tails true e -> star P MDirect (start e g i) t -> length (pending t) <= height e.
Proof.
  intros T S. apply good_len. assert (G : good (height e) (start e g i)).
  { apply g_ev with true; auto; [| |constructor|now intros _|cbn; lia].
    - split; [constructor|]. intros x. constructor.
    - intros x v E. discriminate. }
  revert G. generalize (start e g i), S. clear. induction 1; auto. intros G. apply IHS. eapply good_step; eauto.
Qed.
