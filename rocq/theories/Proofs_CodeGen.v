(** The code generator keeps the meaning: expressions without statements, operands. *)
From Coq Require Import ZArith String List Bool Lia Permutation.
From Verif Require Import Base Model_Lit Model_Core Model_Beta Spec_Sem Spec_Free Spec_Scope Spec_Fold Spec_Cps Spec_Lift Spec_Unbox
  Proofs_Sim Proofs_Core Proofs_Free Proofs_Assign Proofs_BetaFree Proofs_GlobalsSem Proofs_UnboxSem Proofs_UnboxUse Proofs_Unbox Proofs_Lift Model_CodeGen Spec_CodeGen.
Import ListNotations.
Open Scope Z_scope.

Lemma rposq_lt x r p : rposq x r = Some p -> (p < length r)%nat.
Proof.
  revert p. induction r as [|[y|] r IH]; cbn; intros p E; [discriminate| |].
  - destruct (id_eqb y x); [injection E as <-; lia|]. destruct (rposq x r); [|discriminate]. injection E as <-. specialize (IH _ eq_refl). lia.
  - destruct (rposq x r); [|discriminate]. injection E as <-. specialize (IH _ eq_refl). lia.
Qed.

Section CodeGen.
Variable P : prim -> script.
Variable order : list cexp -> list nat.
Variable junk : id -> val.
Hypothesis any : any_order order.
Hypothesis conv_id : conversions P.
Hypothesis void_ok : makes_void P.
Variable ls : list id.
Variable lams : list (list id * exp).
Variable gcl : list (id * id).
Variable tab : id -> option (list id * nat).
Definition lamsE := map (fun l : list id * exp => (fst l, explicit (snd l))) lams.
Definition rT : env := bind_fix ls lamsE [].

Notation step := (step P MDirect).
Notation star := (star P MDirect).
Notation wrong := (wrong P MDirect).
Notation fire := (fire P MDirect).
Notation xeval := (xeval P order).
Notation in_order := in_order.
Notation xseq := (xseq P order).
Notation assign := (assign P order).
Notation exec := (exec P order junk).
Notation store := (store P).

(** ** Values *)
Inductive vrel : val -> val -> Prop :=
| vr_c c : vrel (VC c) (VC c)
| vr_loc l : vrel (VLoc l) (VLoc l)
| vr_clo ys t cs r us ids : In t ls -> lookup r t = lookup rT t -> Forall local ys -> ~ In t ys -> NoDup ys ->
    (forall c, In c cs -> local c /\ ~ In c ys) -> tab t = Some (ids, length cs) -> length ids = length ys ->
    Forall2 (fun c u => exists v, lookup r c = Some v /\ vrel v u) cs us ->
    vrel (VClo ys (EApp (EVar t) (map EVar (ys ++ cs))) r) (clo t us).
Definition sr (s t : st) : Prop :=
  Forall2 (Forall2 vrel) (hp s) (hp t) /\ (forall x, vrel (gl s x) (gl t x)) /\ out s = out t /\ inp s = inp t.
Definition consts (s : st) : Prop := forall lb x, In (lb, x) gcl -> (exists c, gl s x = VC c) \/ vrel (gl s x) (clo lb []).
Definition R (s t : st) : Prop := sr s t /\ consts s.
Inductive calls : val -> id -> Prop :=
| cl_fix i lab : nth_error ls i = Some lab -> calls (VFix ls lamsE i []) lab
| cl_clo f lab : vrel f (clo lab []) -> calls f lab.

Lemma vrel_shape v v' : vrel v v' -> shape_of v = shape_of v'.
Proof. destruct 1; reflexivity. Qed.
Lemma vrel_not_ref v v' : vrel v v' -> forall l, v <> VRef l.
Proof. destruct 1; discriminate. Qed.
Lemma vrel_true v v' : vrel v v' -> is_true v = is_true v'.
Proof. destruct 1; reflexivity. Qed.
Lemma run_sr p rs rs' s t v s1 : sr s t -> Forall2 vrel rs rs' -> run p rs s = Some (v, s1) ->
  exists v' t1, run p rs' t = Some (v', t1) /\ sr s1 t1 /\ vrel v v'.
Proof.
  intros S F E.
  destruct (run_rel unit (fun _ _ => True) (fun _ => vrel) (fun _ => sr)) with (p := p) (w := tt) (rs := rs) (rs' := rs') (s := s) (t := t) (v := v) (s1 := s1)
    as (_ & v' & t1 & A & _ & B & C); eauto.
  - intros. constructor.
  - intros. now apply vrel_shape.
  - intros _ _ _ v0 v0' u u' b _ V U. destruct V, U; cbn; intros X; auto.
  - intros _ s0 t0 vs vs' (H & G & O & I) Fv. exists tt. split; [exact Logic.I|]. split.
    + split; [|split; [|split]]; cbn; auto. apply Forall2_app; auto.
    + rewrite (Forall2_len _ _ _ H). constructor.
  - intros _ s0 t0 l v0 b i u (H & G & O & I) V N1 N2. inversion V; subst.
    destruct (Forall2_nth _ _ _ _ _ H N1) as (b' & N1' & Fb). destruct (Forall2_nth _ _ _ _ _ Fb N2) as (u' & N2' & U).
    exists l, b', u'. auto.
  - intros _ s0 t0 l v0 b i u u' b1 h (H & G & O & I) V U N1 S1 S2. inversion V; subst.
    destruct (Forall2_nth _ _ _ _ _ H N1) as (b' & N1' & Fb). destruct (Forall2_set _ _ _ _ _ _ _ Fb U S1) as (b1' & S1' & Fb1).
    destruct (Forall2_set _ _ _ _ _ _ _ H Fb1 S2) as (h' & S2' & Fh). exists l, b', b1', h'.
    split; [reflexivity|split; [assumption|split; [assumption|split; [assumption|]]]]. split; cbn; auto.
  - intros _ s0 t0 (H & G & O & I). auto.
  - intros _ s0 t0 o i (H & G & O & I). split; cbn; auto.
Qed.
Lemma run_R p rs rs' s t v s1 : R s t -> Forall2 vrel rs rs' -> run p rs s = Some (v, s1) ->
  exists v' t1, run p rs' t = Some (v', t1) /\ R s1 t1 /\ vrel v v'.
Proof.
  intros (S & C) F E. destruct (run_sr _ _ _ _ _ _ _ S F E) as (v' & t1 & E' & S1 & V). exists v', t1. split; [assumption|]. split; [|assumption].
  split; [assumption|]. intros lb x I. rewrite (run_gl _ _ _ _ _ E). now apply C.
Qed.

(** ** Steps of the source *)
Lemma to_args e o l r k w s : decomp e = Some (o, l) -> star (Args o (map STodo l) r k w) s -> star (Ev e r k w) s.
Proof. intros D S. econstructor; [apply st_args; eassumption | assumption]. Qed.
Lemma pick_ret o a e b r k w v w' s : star (Ev e r (Fr o a b r :: k) w) (Ret v (Fr o a b r :: k) w') -> star (Args o (a ++ SDone v :: b) r k w') s ->
  star (Args o (a ++ STodo e :: b) r k w) s.
Proof. intros A B. econstructor; [apply st_pick|]. eapply star_trans; [exact A|]. econstructor; [apply st_ret | exact B]. Qed.
Lemma pick_wrong o a e b r k w : wrong (Ev e r (Fr o a b r :: k) w) -> wrong (Args o (a ++ STodo e :: b) r k w).
Proof. intros W. eapply wrong_star; [apply star_one, st_pick | exact W]. Qed.
Lemma args_wrong e o l r k w : decomp e = Some (o, l) -> wrong (Args o (map STodo l) r k w) -> wrong (Ev e r k w).
Proof. intros D W. eapply wrong_star; [apply star_one, st_args, D | exact W]. Qed.

(** ** Operands.  [cx o s k]: what is computed on the C side is computed by the source from [s] too *)
Definition cx (o : option (val * st)) (s : state) (k : kont) : Prop :=
  match o with
  | None => wrong s
  | Some (u, w') => wrong s \/ exists v ws', star s (Ret v k ws') /\ vrel v u /\ R ws' w'
  end.
Definition goodf (rs : env) (f : st -> option (val * st)) (s : slot) : Prop :=
  (exists v u, s = SDone v /\ vrel v u /\ forall w, f w = Some (u, w)) \/
  (exists e, s = STodo e /\ forall k ws w, R ws w -> cx (f w) (Ev e rs k ws) k).
Inductive Tri (rs : env) : list (st -> option (val * st)) -> list (option val) -> list slot -> Prop :=
| tri_nil : Tri rs [] [] []
| tri_done f fs u acc v sl : vrel v u -> Tri rs fs acc sl -> Tri rs (f :: fs) (Some u :: acc) (SDone v :: sl)
| tri_todo f fs acc s sl : goodf rs f s -> Tri rs fs acc sl -> Tri rs (f :: fs) (None :: acc) (s :: sl).
Definition cxs (o : option (list val * st)) (op : oper) (sl : list slot) (rs : env) (k : kont) (ws : st) : Prop :=
  match o with
  | None => wrong (Args op sl rs k ws)
  | Some (us, w') => wrong (Args op sl rs k ws) \/ exists vs ws', star (Args op sl rs k ws) (Args op (map SDone vs) rs k ws') /\ Forall2 vrel vs us /\ R ws' w'
  end.
Lemma cxs_star o op sl sl' rs k ws ws' : star (Args op sl rs k ws) (Args op sl' rs k ws') -> cxs o op sl' rs k ws' -> cxs o op sl rs k ws.
Proof.
  intros S. destruct o as [(us & w')|]; cbn; [|now apply wrong_star]. intros [W|(vs & w1 & A & B)]; [left; eapply wrong_star; eauto|].
  right. exists vs, w1. split; [eapply star_trans; eauto | assumption].
Qed.
Lemma cxs_wrong o op sl rs k ws : wrong (Args op sl rs k ws) -> cxs o op sl rs k ws.
Proof. destruct o as [(us & w')|]; cbn; auto. Qed.
Lemma tri_at rs fs acc sl i : Tri rs fs acc sl -> nth_error acc i = Some None ->
  exists f s a b, nth_error fs i = Some f /\ sl = a ++ s :: b /\ goodf rs f s /\
    forall v u, vrel v u -> exists acc', list_set acc i (Some u) = Some acc' /\ Tri rs fs acc' (a ++ SDone v :: b) /\
      (forall j, nth_error acc' j = Some None <-> j <> i /\ nth_error acc j = Some None).
Proof.
  intros T. revert i. induction T as [|f fs u acc v sl V T IH|f fs acc s sl G T IH]; intros [|i] N; try discriminate.
  - destruct (IH i N) as (f1 & s & a & b & A & -> & B & C). exists f1, s, (SDone v :: a), b. split; [exact A|]. split; [reflexivity|]. split; [assumption|].
    intros v1 u1 V1. destruct (C v1 u1 V1) as (acc' & E & T' & H). exists (Some u :: acc'). cbn [list_set]. rewrite E. split; [reflexivity|]. split; [now constructor|].
    intros [|j]; cbn; [split; [discriminate | intros [_ X]; discriminate]|]. rewrite H. split; intros [X Y]; split; auto.
  - exists f, s, [], sl. split; [reflexivity|]. split; [reflexivity|]. split; [assumption|]. intros v1 u1 V1. exists (Some u1 :: acc). split; [reflexivity|]. split; [now constructor|].
    intros [|j]; cbn; [split; [discriminate | intros [X _]; congruence]|]. split; [intros X; split; auto | now intros [_ X]].
  - destruct (IH i N) as (f1 & s1 & a & b & A & -> & B & C). exists f1, s1, (s :: a), b. split; [exact A|]. split; [reflexivity|]. split; [assumption|].
    intros v1 u1 V1. destruct (C v1 u1 V1) as (acc' & E & T' & H). exists (None :: acc'). cbn [list_set]. rewrite E. split; [reflexivity|]. split; [now constructor|].
    intros [|j]; cbn; [split; auto; intros; split; auto|]. rewrite H. split; intros [X Y]; split; auto.
Qed.
Lemma tri_all rs fs acc sl : Tri rs fs acc sl -> (forall j, nth_error acc j <> Some None) -> exists us vs, all_some acc = Some us /\ sl = map SDone vs /\ Forall2 vrel vs us.
Proof.
  induction 1 as [|f fs u acc v sl V T IH|f fs acc s sl G T IH]; intros N.
  - exists [], []. repeat split; constructor.
  - destruct IH as (us & vs & A & -> & B); [intros j; exact (N (S j))|]. exists (u :: us), (v :: vs). cbn [all_some]. rewrite A. repeat split. now constructor.
  - destruct (N O). reflexivity.
Qed.
Lemma in_order_ok rs op k : forall o fs acc sl ws w, Tri rs fs acc sl -> NoDup o -> (forall i, In i o <-> nth_error acc i = Some None) -> R ws w ->
  cxs (in_order o fs acc w) op sl rs k ws.
Proof.
  induction o as [|i o IH]; intros fs acc sl ws w T ND C W; cbn [in_order].
  - destruct (tri_all _ _ _ _ T) as (us & vs & -> & -> & F); [intros j X; now apply C in X|]. cbn. right. exists vs, ws. split; [constructor | auto].
  - assert (N : nth_error acc i = Some None) by (apply C; now left). destruct (tri_at _ _ _ _ _ T N) as (f & s & a & b & -> & -> & G & H).
    inversion ND as [|? ? NI ND']; subst.
    destruct G as [(v & u & -> & V & E)|(e & -> & E)].
    + rewrite E. destruct (H v u V) as (acc' & -> & T' & J). apply IH; auto. intros j. rewrite J, <- C. cbn. split; [intros I; split; [congruence | auto] | intros [? [?|?]]; congruence].
    + specialize (E (Fr op a b rs :: k) ws w W). destruct (f w) as [(u & w')|]; cbn [cx] in E; [|now apply pick_wrong].
      destruct E as [E|(v & ws' & S & V & W')]; [now apply cxs_wrong, pick_wrong|]. destruct (H v u V) as (acc' & -> & T' & J).
      eapply cxs_star; [eapply pick_ret; [exact S | constructor]|]. apply IH; auto. intros j. rewrite J, <- C. cbn. split; [intros I; split; [congruence | auto] | intros [? [?|?]]; congruence].
Qed.
Lemma goods_tri rs fs sl : Forall2 (goodf rs) fs sl -> Tri rs fs (map (fun _ => None) fs) sl.
Proof. induction 1; cbn; constructor; auto. Qed.
Lemma nones {A} (l : list A) i : nth_error (map (fun _ => @None val) l) i = Some None <-> In i (seq 0 (length l)).
Proof.
  rewrite in_seq. destruct (nth_error (map (fun _ => @None val) l) i) as [o|] eqn:E.
  - assert (i < length (map (fun _ => @None val) l))%nat by (apply nth_error_Some; congruence). rewrite map_length in *.
    apply nth_error_In, in_map_iff in E. destruct E as (_ & <- & _). split; [lia | reflexivity].
  - apply nth_error_None in E. rewrite map_length in E. split; [discriminate | lia].
Qed.
Lemma xevals_ok rs op k l r cv sl ws w : Forall2 (goodf rs) (map (xeval r cv) l) sl -> R ws w -> cxs (xevals P order r cv l w) op sl rs k ws.
Proof.
  intros F W. unfold xevals. apply in_order_ok; auto.
  - apply goods_tri in F. rewrite map_map in F. exact F.
  - eapply Permutation_NoDup; [apply Permutation_sym, any | apply seq_NoDup].
  - intros i. rewrite nones. split; apply Permutation_in; [apply any | apply Permutation_sym, any].
Qed.
(** one after the other *)
Lemma xseq_ok rs op k r cv : forall l sl pre ws w, Forall2 (goodf rs) (map (xeval r cv) l) sl -> R ws w ->
  match xseq r cv l w with
  | None => wrong (Args op (map SDone pre ++ sl) rs k ws)
  | Some (us, w') => wrong (Args op (map SDone pre ++ sl) rs k ws) \/
      exists vs ws', star (Args op (map SDone pre ++ sl) rs k ws) (Args op (map SDone (pre ++ vs)) rs k ws') /\ Forall2 vrel vs us /\ R ws' w'
  end.
Proof.
  induction l as [|c l IH]; intros sl pre ws w F W; cbn [map] in F.
  - inversion F; subst. cbn. right. exists [], ws. rewrite !app_nil_r. split; [constructor | auto].
  - inversion F as [|? s ? sl' G F']; subst. cbn [Spec_CodeGen.xseq]. destruct G as [(v & u & -> & V & E)|(e & -> & E)].
    + rewrite E. specialize (IH sl' (pre ++ [v]) ws w F' W). rewrite map_app in IH. cbn [map] in IH. rewrite <- app_assoc in IH. cbn [app] in IH.
      destruct (xseq r cv l w) as [(us & w')|]; [|exact IH]. destruct IH as [X|(vs & ws' & S & FV & W')]; [now left|]. right. exists (v :: vs), ws'.
      rewrite <- app_assoc in S. cbn [app] in S. split; [assumption|]. split; [now constructor | assumption].
    + specialize (E (Fr op (map SDone pre) sl' rs :: k) ws w W). destruct (xeval r cv c w) as [(u & w1)|]; cbn [cx] in E; [|now apply pick_wrong].
      destruct E as [E|(v & ws1 & S1 & V & W1)].
      { destruct (xseq r cv l w1) as [(us & w')|]; [left|]; now apply pick_wrong. }
      specialize (IH sl' (pre ++ [v]) ws1 w1 F' W1). rewrite map_app in IH. cbn [map] in IH. rewrite <- app_assoc in IH. cbn [app] in IH.
      assert (SS : star (Args op (map SDone pre ++ STodo e :: sl') rs k ws) (Args op (map SDone pre ++ SDone v :: sl') rs k ws1)) by (eapply pick_ret; [exact S1 | constructor]).
      destruct (xseq r cv l w1) as [(us & w')|]; [|eapply wrong_star; [exact SS | exact IH]]. destruct IH as [X|(vs & ws' & S & FV & W')]; [left; eapply wrong_star; [exact SS | exact X]|].
      right. exists (v :: vs), ws'. rewrite <- app_assoc in S. cbn [app] in S. split; [eapply star_trans; [exact SS | exact S]|]. split; [now constructor | assumption].
Qed.

(** ** Environments *)
Definition var_rel (rs : env) (r : renv) (m : mach) (x : id) : Prop :=
  if in_dec id_dec x ls then lookup rs x = lookup rT x
  else exists v, lookup rs x = Some v /\
    match cvar_type x with
    | Some _ => exists u, assq x (cvs m) = Some u /\ vrel v u
    | None => exists p, rposq x r = Some p /\ vrel v (regs m (length r - p - 1)%nat)
    end.
Definition envrel (e : exp) (rs : env) (r : renv) (m : mach) : Prop := forall x, free_in x e -> global_id x = false -> var_rel rs r m x.
Lemma envrel_part e ys e' rs r m : envrel e rs r m -> In (ys, e') (parts e) -> ys = [] -> envrel e' rs r m.
Proof. intros H I -> x F G. apply H; [|assumption]. eapply free_part; [exact I | easy | exact F]. Qed.
Definition keeps (n : nat) (m m1 : mach) : Prop := (forall i, (i < n)%nat -> regs m1 i = regs m i) /\ cvs m1 = cvs m.
Lemma keeps_refl n m : keeps n m m.
Proof. split; auto. Qed.
Lemma keeps_trans n n' m m1 m2 : keeps n m m1 -> keeps n' m1 m2 -> (n <= n')%nat -> keeps n m m2.
Proof. intros (A & B) (C & D) L. split; [intros i I; rewrite C by lia; auto | congruence]. Qed.
Lemma keeps_world n m w : keeps n m (set_world m w).
Proof. split; auto. Qed.
Lemma envrel_keeps e rs r m m1 : envrel e rs r m -> keeps (length r) m m1 -> envrel e rs r m1.
Proof.
  intros H (A & B) x F G. specialize (H x F G). unfold var_rel in *. destruct (in_dec id_dec x ls); [assumption|]. destruct H as (v & L & H). exists v. split; [assumption|].
  destruct (cvar_type x); [now rewrite B|]. destruct H as (p & E & V). exists p. split; [assumption|]. rewrite A; [assumption|]. apply rposq_lt in E. lia.
Qed.
Lemma envrel_none e rs r m : envrel e rs (None :: r) m <-> envrel e rs r m.
Proof.
  unfold envrel, var_rel. split; intros H x F G; specialize (H x F G); destruct (in_dec id_dec x ls); auto; destruct H as (v & L & H); exists v; (split; [assumption|]);
    destruct (cvar_type x); auto; destruct H as (p & E & V).
  - cbn in E. destruct (rposq x r) as [q|]; [|discriminate]. injection E as <-. exists q. split; [reflexivity|]. cbn [length] in V. now replace (S (length r) - S q - 1)%nat with (length r - q - 1)%nat in V by lia.
  - exists (S p). cbn. rewrite E. split; [reflexivity|]. now replace (S (length r) - S p - 1)%nat with (length r - p - 1)%nat by lia.
Qed.
Lemma cg_var_none x r : cg_var x (None :: r) = cg_var x r.
Proof.
  unfold cg_var. destruct (label_id x); [reflexivity|]. destruct (global_id x); [reflexivity|]. destruct (cvar_type x); [reflexivity|]. cbn [rposq length].
  destruct (rposq x r) as [p|]; [|reflexivity]. cbn [option_map]. do 2 f_equal; lia.
Qed.
Lemma cg_cexp_none e r : cg_cexp e (None :: r) = cg_cexp e r.
Proof.
  induction e as [y|y e IH|a b c IHa IHb IHc|ef p l IH|f l IHf IHl|xs b IH|xs lm b IHl IHb|y b IH|k e IHk IHe] using exp_ind2; cbn [cg_cexp]; auto using cg_var_none.
  - now rewrite IHa, IHb, IHc.
  - do 2 f_equal. apply map_ext_in. now apply Forall_forall.
Qed.

Lemma gcsafe_cexp e : cg_gcsafe_cexpp e = true -> cg_cexpp e = true.
Proof.
  induction e as [y|y e IH|a b c IHa IHb IHc|ef p l IH|f l IHf IHl|xs b IH|xs lm b IHl IHb|y b IH|k e IHk IHe] using exp_ind2; cbn; try discriminate; auto.
  - rewrite !andb_true_iff. intros [[A B] C]. auto.
  - rewrite !andb_true_iff. intros [[A B] C]. split; [assumption|]. rewrite forallb_forall in *. rewrite Forall_forall in IH. auto.
Qed.
Lemma halt_not_cexp : prim_cexp the_halt_prim = false.
Proof. vm_compute. reflexivity. Qed.
Lemma cexp_not_halt p : prim_cexp p = true -> p <> the_halt_prim.
Proof. intros E ->. now rewrite halt_not_cexp in E. Qed.
Lemma all_some_in {A B} (f : A -> option B) l r : all_some (map f l) = Some r -> Forall2 (fun a b => f a = Some b) l r.
Proof.
  revert r. induction l as [|a l IH]; cbn; intros r E; [injection E as <-; constructor|]. destruct (f a) eqn:Fa; [|discriminate]. destruct (all_some (map f l)); [|discriminate].
  injection E as <-. constructor; auto.
Qed.
Lemma label_local x : label_id x = true -> global_id x = false.
Proof. unfold label_id. destruct (global_id x); [discriminate | reflexivity]. Qed.
Hypothesis labels_ok : Forall (fun x => label_id x = true) ls.
Lemma not_label x : label_id x = false -> ~ In x ls.
Proof. rewrite Forall_forall in labels_ok. intros E I. apply labels_ok in I. congruence. Qed.
Lemma read_local rs x v w : global_id x = false -> lookup rs x = Some v -> (forall l, v <> VRef l) -> read_var MDirect rs x w = Some v.
Proof. intros G L N. unfold read_var. rewrite G, L. destruct v; try reflexivity. now destruct (N l). Qed.
Lemma cg_var_ok x r c rs m ws k w : cg_var x r = Some c -> envrel (EVar x) rs r m -> R ws w ->
  exists v u, xeval (regs m) (cvs m) c w = Some (u, w) /\ vrel v u /\ step (Ev (EVar x) rs k ws) (Ret v k ws).
Proof.
  unfold cg_var. intros C H W. destruct (label_id x) eqn:L; [discriminate|]. destruct (global_id x) eqn:G.
  - injection C as <-. exists (gl ws x), (gl w x). split; [reflexivity|]. split; [apply W|]. apply st_var. unfold read_var. now rewrite G.
  - specialize (H x (free_here _ _ (nm_ref x)) G). unfold var_rel in H. destruct (in_dec id_dec x ls) as [I|_]; [now apply not_label in L|].
    destruct H as (v & E & H). destruct (cvar_type x).
    + injection C as <-. destruct H as (u & Eu & V). exists v, u. cbn. rewrite Eu. split; [reflexivity|]. split; [assumption|]. apply st_var. apply read_local; auto. eapply vrel_not_ref; eauto.
    + destruct H as (p & Ep & V). rewrite Ep in C. injection C as <-. eexists v, _. split; [reflexivity|]. split; [exact V|]. apply st_var. apply read_local; auto. eapply vrel_not_ref; eauto.
Qed.
Lemma in_map_pair {A B} (a : A) (l : list B) x : In x l -> In (a, x) (map (pair a) l).
Proof. intros. now apply in_map. Qed.
Lemma cexp_ok e : forall r c rs m ws k w, cg_cexpp e = true -> cg_cexp e r = Some c -> envrel e rs r m -> R ws w ->
  cx (xeval (regs m) (cvs m) c w) (Ev (explicit e) rs k ws) k.
Proof.
  induction e as [x|x e IH|a b c IHa IHb IHc|ef p l IH|f l IHf IHl|xs b IH|xs lm b IHl IHb|x b IH|kk e IHk IHe] using exp_ind2; intros r d rs m ws k w X C H W; try discriminate.
  - destruct (cg_var_ok x r d rs m ws k w C H W) as (v & u & -> & V & S). cbn. right. exists v, ws. split; [now apply star_one | auto].
  - cbn in X. rewrite !andb_true_iff in X. destruct X as [[Xa Xb] Xc]. cbn in C.
    destruct (cg_cexp a r) as [a'|] eqn:Ca; [|discriminate]. destruct (cg_cexp b r) as [b'|] eqn:Cb; [|discriminate]. destruct (cg_cexp c r) as [c'|] eqn:Cc; [|discriminate]. injection C as <-.
    cbn [explicit Spec_CodeGen.xeval]. set (o := OIf (explicit b) (explicit c)).
    assert (Ha := IHa r a' rs m ws (Fr o [] [] rs :: k) w Xa Ca (envrel_part _ _ _ _ _ _ H (or_introl eq_refl) eq_refl) W).
    destruct (xeval (regs m) (cvs m) a' w) as [(u & w1)|]; cbn [cx] in Ha.
    2:{ eapply args_wrong; [reflexivity|]. apply (pick_wrong o [] (explicit a) [] rs k ws). exact Ha. }
    destruct Ha as [Ha|(v & ws1 & S & V & W1)].
    { assert (wrong (Ev (EIf (explicit a) (explicit b) (explicit c)) rs k ws)) by (eapply args_wrong; [reflexivity|]; apply (pick_wrong o [] (explicit a) [] rs k ws); exact Ha).
      unfold cx. destruct (is_true u); [destruct (xeval (regs m) (cvs m) b' w1) as [[]|] | destruct (xeval (regs m) (cvs m) c' w1) as [[]|]]; auto. }
    assert (SS : star (Ev (EIf (explicit a) (explicit b) (explicit c)) rs k ws) (Ev (explicit (if is_true u then b else c)) rs k ws1)).
    { eapply to_args; [reflexivity|]. eapply (pick_ret o [] (explicit a) [] rs k ws); [exact S|]. cbn [app]. apply star_one. change [SDone v] with (map SDone [v]). apply st_fire.
      rewrite <- (vrel_true _ _ V). replace (explicit (if is_true v then b else c)) with (if is_true v then explicit b else explicit c) by (now destruct (is_true v)). constructor. }
    assert (HB : cx (if is_true u then xeval (regs m) (cvs m) b' w1 else xeval (regs m) (cvs m) c' w1) (Ev (explicit (if is_true u then b else c)) rs k ws1) k).
    { destruct (is_true u); [eapply IHb | eapply IHc]; eauto; eapply envrel_part; try exact H; try reflexivity; cbn; auto. }
    destruct (if is_true u then xeval (regs m) (cvs m) b' w1 else xeval (regs m) (cvs m) c' w1) as [(u2 & w2)|]; cbn [cx] in *; [|eapply wrong_star; eauto]. destruct HB as [HB|(v2 & ws2 & S2 & HB)]; [left; eapply wrong_star; eauto|].
    right. exists v2, ws2. split; [eapply star_trans; eauto | assumption].
  - cbn in X. rewrite andb_true_iff in X. destruct X as [Xp Xl]. rewrite forallb_forall in Xl. rewrite Forall_forall in IH. cbn [cg_cexp] in C.
    destruct (all_some (map (fun e => cg_cexp e r) l)) as [cs|] eqn:Cs; [|discriminate]. injection C as <-. apply all_some_in in Cs. cbn [explicit Spec_CodeGen.xeval].
    assert (G : Forall2 (goodf rs) (map (xeval (regs m) (cvs m)) cs) (map STodo (map explicit l))).
    { assert (HI : forall e, In e l -> envrel e rs r m) by (intros e I; eapply envrel_part; [exact H | apply in_map_pair; exact I | reflexivity]).
      clear H. induction Cs as [|e c l cs E Cs IHc]; cbn [map]; constructor.
      - right. exists (explicit e). split; [reflexivity|]. intros k' ws' w' W'. apply IH with (r := r); auto; try apply HI; try apply Xl; now left.
      - apply IHc; intros e0 I0; [apply IH | apply Xl | apply HI]; now right. }
    assert (K := xevals_ok rs (OPrim ef p) k cs (regs m) (cvs m) _ ws w G W). unfold xevals in K. set (o := in_order (order cs) _ _ w) in *.
    destruct o as [(us & w1)|]; cbn [cxs] in K; [|eapply args_wrong; [reflexivity | exact K]]. destruct K as [K|(vs & ws1 & S & F & W1)].
    { destruct (run (P p) us w1) as [[]|]; cbn; [left|]; (eapply args_wrong; [reflexivity | exact K]). }
    assert (S0 : star (Ev (EPrim ef p (map explicit l)) rs k ws) (Args (OPrim ef p) (map SDone vs) rs k ws1)) by (eapply to_args; [reflexivity | exact S]).
    destruct (run (P p) vs ws1) as [(v & ws2)|] eqn:Er.
    + destruct (run_R _ _ _ _ _ _ _ W1 F Er) as (u & w2 & -> & W2 & V). cbn. right. exists v, ws2. split; [|auto]. eapply star_trans; [exact S0|]. apply star_one, st_fire. constructor; [now apply cexp_not_halt | assumption].
    + assert (wrong (Ev (EPrim ef p (map explicit l)) rs k ws)).
      { eapply wrong_star; [exact S0|]. apply stuck_fire. intros s Fi. inversion Fi; subst; [congruence|]. now rewrite halt_not_cexp in Xp. }
      destruct (run (P p) us w1) as [[]|]; cbn; auto.
Qed.

(** ** Results of code *)
Inductive cres (b : bool) (t : tgt) (n : nat) (m : mach) (k : kont) (s0 : state) : result -> Prop :=
| c_wrong res : wrong s0 -> cres b t n m k s0 res
| c_go v u ws m1 : b = false -> star s0 (Ret v k ws) -> vrel v u -> R ws (world m1) -> keeps n m m1 -> cres b t n m k s0 (go (store t u m1))
| c_halt v u ws w : star s0 (Halted v ws) -> vrel v u -> R ws w -> cres b t n m k s0 (RHalt u w)
| c_goto lab f vs r ws w rs : b = true -> star s0 (Args OApp (map SDone (f :: vs)) rs k ws) -> calls f lab ->
    (forall i v, nth_error vs i = Some v -> vrel v (r i)) -> R ws w -> cres b t n m k s0 (RGoto lab (length vs) r w)
| c_jump f vs r ws w rs : b = true -> star s0 (Args OApp (map SDone (f :: vs)) rs k ws) ->
    (forall i v, nth_error (f :: vs) i = Some v -> vrel v (r i)) -> R ws w -> cres b t n m k s0 (RJump (S (length vs)) r w).
Lemma cres_star b t n m k s s' res : star s s' -> cres b t n m k s' res -> cres b t n m k s res.
Proof.
  intros S C. destruct C as [res W|v u ws m1 B S1 V W K|v u ws w S1 V W|lab f vs r ws w rs B S1 C V W|f vs r ws w rs B S1 V W].
  - apply c_wrong. eapply wrong_star; eauto.
  - eapply c_go; eauto. eapply star_trans; eauto.
  - eapply c_halt; eauto. eapply star_trans; eauto.
  - eapply c_goto; eauto. eapply star_trans; eauto.
  - eapply c_jump; eauto. eapply star_trans; eauto.
Qed.
Lemma cres_keeps b t n n' m m' k s res : (n <= n')%nat -> keeps n m m' -> cres b t n' m' k s res -> cres b t n m k s res.
Proof.
  intros L K C. destruct C as [res W|v u ws m1 B S1 V W K1|v u ws w S1 V W|lab f vs r ws w rs B S1 C V W|f vs r ws w rs B S1 V W].
  - now apply c_wrong.
  - eapply c_go; eauto. eapply keeps_trans; eauto.
  - eapply c_halt; eauto.
  - eapply c_goto; eauto.
  - eapply c_jump; eauto.
Qed.

(** ** What C expressions read *)
Fixpoint reads (i : nat) (c : cexp) : Prop :=
  match c with
  | XReg j => j = i
  | XGlob _ | XCvar _ => False
  | XIf a b c => reads i a \/ reads i b \/ reads i c
  | XPrim _ l => fold_right (fun c q => reads i c \/ q) False l
  end.
Section CInd.
Variable Q : cexp -> Prop.
Hypothesis HR : forall i, Q (XReg i).
Hypothesis HG : forall x, Q (XGlob x).
Hypothesis HC : forall x, Q (XCvar x).
Hypothesis HI : forall a b c, Q a -> Q b -> Q c -> Q (XIf a b c).
Hypothesis HP : forall p l, Forall Q l -> Q (XPrim p l).
Fixpoint cexp_ind2 (c : cexp) : Q c :=
  match c with
  | XReg i => HR i
  | XGlob x => HG x
  | XCvar x => HC x
  | XIf a b c => HI a b c (cexp_ind2 a) (cexp_ind2 b) (cexp_ind2 c)
  | XPrim p l => HP p l ((fix go l := match l return Forall Q l with [] => Forall_nil Q | c :: l' => Forall_cons c (cexp_ind2 c) (go l') end) l)
  end.
End CInd.
Lemma reads_in i l : fold_right (fun c q => reads i c \/ q) False l <-> exists c, In c l /\ reads i c.
Proof.
  induction l as [|c l IH]; cbn; [split; [easy | now intros (? & [] & _)]|]. rewrite IH. split.
  - intros [H|(d & I & H)]; [exists c | exists d]; auto.
  - intros (d & [<-|I] & H); [now left | right; eauto].
Qed.
Lemma in_order_ext : forall o fs gs acc w, Forall2 (fun f g : st -> option (val * st) => forall w, f w = g w) fs gs -> in_order o fs acc w = in_order o gs acc w.
Proof.
  induction o as [|i o IH]; intros fs gs acc w F; cbn [in_order]; [reflexivity|].
  assert (N : match nth_error fs i, nth_error gs i with Some f, Some g => forall w, f w = g w | None, None => True | _, _ => False end).
  { revert i. clear IH. induction F as [|f g fs gs E F IH]; intros [|i]; cbn [nth_error]; [exact Logic.I | exact Logic.I | exact E | apply IH]. }
  destruct (nth_error fs i) as [f|], (nth_error gs i) as [g|]; try easy. rewrite N. destruct (g w) as [(v & w')|]; [|reflexivity]. destruct (list_set acc i (Some v)); auto.
Qed.
Lemma xeval_ext cv r r' c : (forall i, reads i c -> r i = r' i) -> forall w, xeval r cv c w = xeval r' cv c w.
Proof.
  induction c as [i|x|x|a b c IHa IHb IHc|p l IH] using cexp_ind2; intros H w; cbn [Spec_CodeGen.xeval].
  - rewrite (H i); [reflexivity | cbn; reflexivity].
  - reflexivity.
  - reflexivity.
  - rewrite (IHa (fun i X => H i (or_introl X))). destruct (xeval r' cv a w) as [(v & w')|]; [|reflexivity].
    rewrite (IHb (fun i X => H i (or_intror (or_introl X)))), (IHc (fun i X => H i (or_intror (or_intror X)))). reflexivity.
  - assert (E : forall acc, in_order (order l) (map (xeval r cv) l) acc w = in_order (order l) (map (xeval r' cv) l) acc w); [|now rewrite E].
    intros acc. apply in_order_ext. cbn [reads] in H. assert (H' : forall c, In c l -> forall i, reads i c -> r i = r' i) by (intros c I i X; apply H, reads_in; eauto). clear H.
    induction IH as [|c l Hc IH IH']; cbn [map]; constructor; [apply Hc, H'; now left | apply IH'; intros d I; apply H'; now right].
Qed.
Lemma assign_ok cv r0 : forall l base j r w, (base <= j)%nat -> (forall q c x, nth_error l q = Some c -> reads x c -> ~ (base <= x < j + q)%nat) ->
  (forall x, ~ (base <= x < j)%nat -> r x = r0 x) ->
  match xseq r0 cv l w with
  | None => assign j l r cv w = None
  | Some (us, w') => exists r', assign j l r cv w = Some (r', w') /\ (forall q u, nth_error us q = Some u -> r' (j + q)%nat = u) /\ (forall x, (x < j)%nat -> r' x = r x)
  end.
Proof.
  induction l as [|c l IH]; intros base j r w B N A; cbn [Spec_CodeGen.xseq Spec_CodeGen.assign].
  - exists r. split; [reflexivity|]. split; [intros [|q] u; discriminate | auto].
  - assert (E : xeval r cv c w = xeval r0 cv c w).
    { apply xeval_ext. intros x X. apply A. specialize (N O c x eq_refl X). lia. }
    rewrite E. destruct (xeval r0 cv c w) as [(u & w1)|]; [|reflexivity].
    assert (K : forall x, ~ (base <= x < S j)%nat -> upd r j u x = r0 x). { intros x X. unfold upd. destruct (Nat.eqb_spec x j); [lia|]. apply A. lia. }
    specialize (IH base (S j) (upd r j u) w1 ltac:(lia)). destruct (xseq r0 cv l w1) as [(us & w')|].
    + destruct IH as (r' & E' & U & L); [|exact K|].
      { intros q d x Nq X. specialize (N (S q) d x Nq X). lia. }
      exists r'. split; [assumption|]. split.
      * intros [|q] v Q; cbn in Q; [injection Q as <-|].
        -- rewrite Nat.add_0_r, L by lia. unfold upd. now rewrite Nat.eqb_refl.
        -- replace (j + S q)%nat with (S j + q)%nat by lia. auto.
      * intros x X. rewrite L by lia. unfold upd. destruct (Nat.eqb_spec x j); [lia | reflexivity].
    + apply IH; [|exact K]. intros q d x Nq X. specialize (N (S q) d x Nq X). lia.
Qed.
(** the registers of the operands *)
Lemma cexp_reads e : forall r c x, cg_cexpp e = true -> cg_cexp e r = Some c -> reads x c ->
  exists y p, rposq y r = Some p /\ x = (length r - p - 1)%nat /\ forall sp, In y sp -> depends sp e = true.
Proof.
  induction e as [y|y e IH|a b c IHa IHb IHc|ef p l IH|f l IHf IHl|xs b IH|xs lm b IHl IHb|y b IH|kk e IHk IHe] using exp_ind2; intros r d x X C Rd; try discriminate.
  - cbn in C. unfold cg_var in C. destruct (label_id y); [discriminate|]. destruct (global_id y); [injection C as <-; easy|]. destruct (cvar_type y); [injection C as <-; easy|].
    destruct (rposq y r) as [p|] eqn:E; [|discriminate]. injection C as <-. cbn in Rd. exists y, p. split; [assumption|]. split; [congruence|]. intros sp I. cbn. now apply memq_In.
  - cbn in X. rewrite !andb_true_iff in X. destruct X as [[Xa Xb] Xc]. cbn in C.
    destruct (cg_cexp a r) as [a'|] eqn:Ca; [|discriminate]. destruct (cg_cexp b r) as [b'|] eqn:Cb; [|discriminate]. destruct (cg_cexp c r) as [c'|] eqn:Cc; [|discriminate]. injection C as <-.
    destruct Rd as [Rd|[Rd|Rd]]; [destruct (IHa _ _ _ Xa Ca Rd) as (y & p & A & B & D) | destruct (IHb _ _ _ Xb Cb Rd) as (y & p & A & B & D) | destruct (IHc _ _ _ Xc Cc Rd) as (y & p & A & B & D)];
      exists y, p; (split; [assumption|]); (split; [assumption|]); intros sp I; cbn; rewrite (D sp I), ?orb_true_r; reflexivity.
  - cbn in X. rewrite andb_true_iff in X. destruct X as [Xp Xl]. rewrite forallb_forall in Xl. rewrite Forall_forall in IH. cbn [cg_cexp] in C.
    destruct (all_some (map (fun e => cg_cexp e r) l)) as [cs|] eqn:Cs; [|discriminate]. injection C as <-. apply all_some_in in Cs. cbn [reads] in Rd. apply reads_in in Rd. destruct Rd as (c & I & Rd).
    destruct (Forall2_in_r _ _ _ Cs c I) as (e & Ie & E). destruct (IH e Ie r c x (Xl e Ie) E Rd) as (y & p' & A & B & D). exists y, p'. split; [assumption|]. split; [assumption|].
    intros sp J. cbn [depends]. apply existsb_exists. eauto.
Qed.
Lemma cg_args_spec : forall l r cs r' r0, cg_args l r = Some (cs, r') -> (forall e, cg_cexp e r = cg_cexp e r0) -> (length r0 <= length r)%nat ->
  (length r <= length r')%nat /\ length cs = length l /\
  forall q c, nth_error cs q = Some c -> exists e, nth_error l q = Some e /\
    (cg_gcsafe_cexpp e = true /\ cg_cexp e r0 = Some c \/ exists i, c = XReg i /\ (length r0 <= i < length r')%nat).
Proof.
  induction l as [|e l IH]; intros r cs r' r0 E H L; cbn [cg_args] in E.
  - injection E as <- <-. split; [lia|]. split; [reflexivity|]. intros [|q]; discriminate.
  - destruct (cg_gcsafe_cexpp e) eqn:G.
    + destruct (cg_cexp e r) as [c|] eqn:C; [|discriminate]. destruct (cg_args l r) as [(cs1 & r1)|] eqn:A; [|discriminate]. injection E as <- <-.
      destruct (IH r cs1 r1 r0 A H L) as (L1 & Le & Q). split; [assumption|]. split; [cbn; congruence|]. intros [|q] d N; cbn in N; [injection N as <-; exists e; split; [reflexivity | left; split; [assumption | congruence]] | exact (Q q d N)].
    + destruct (cg_args l (None :: r)) as [(cs1 & r1)|] eqn:A; [|discriminate]. injection E as <- <-.
      destruct (IH (None :: r) cs1 r1 r0 A) as (L1 & Le & Q); [intros d; rewrite cg_cexp_none; apply H | cbn; lia|]. cbn [length] in L1. split; [lia|]. split; [cbn; congruence|].
      intros [|q] d N; cbn in N; [injection N as <-; exists e; split; [reflexivity | right; exists (length r); split; [reflexivity | lia]] | exact (Q q d N)].
Qed.
Lemma rposq_nth y r p : rposq y r = Some p -> nth_error r p = Some (Some y).
Proof.
  revert p. induction r as [|[z|] r IH]; cbn; intros p E; [discriminate| |].
  - destruct (id_eqb z y) eqn:Z; [injection E as <-; apply id_eqb_eq in Z; now subst|]. destruct (rposq y r); [|discriminate]. injection E as <-. cbn. auto.
  - destruct (rposq y r); [|discriminate]. injection E as <-. cbn. auto.
Qed.
Lemma nth_rev {A} (l : list A) : forall p a, nth_error l p = Some a -> nth_error (rev l) (length l - p - 1) = Some a.
Proof.
  induction l as [|b l IH]; intros p a E; [destruct p; discriminate|]. cbn [rev length]. destruct p as [|p]; cbn in E.
  - injection E as ->. rewrite nth_error_app2; rewrite rev_length; [|lia]. now replace (S (length l) - 0 - 1 - length l)%nat with 0%nat by lia.
  - assert (p < length l)%nat by (apply nth_error_Some; congruence). rewrite nth_error_app1; [|rewrite rev_length; lia]. replace (S (length l) - S p - 1)%nat with (length l - p - 1)%nat by lia. auto.
Qed.
Lemma fast_spec : forall rands regs dn sp, fast_loop rands regs sp = true -> (forall j y, nth_error dn j = Some (Some y) -> In y sp) ->
  (length rands <= length regs)%nat /\
  forall q e j y, nth_error rands q = Some e -> nth_error (dn ++ regs) j = Some (Some y) -> (j < length dn + q)%nat -> exists sp', In y sp' /\ depends sp' e = false.
Proof.
  induction rands as [|e rands IH]; intros regs dn sp E D; cbn [fast_loop] in E.
  - split; [cbn; lia|]. intros [|q]; discriminate.
  - destruct regs as [|[x|] regs]; try discriminate. destruct (match sp with [] => true | _ => negb (depends sp e) end) eqn:C; [|discriminate].
    assert (D' : forall j y, nth_error (dn ++ [Some x]) j = Some (Some y) -> In y (x :: sp)).
    { intros j y N. destruct (Nat.lt_ge_cases j (length dn)) as [Lj|Lj]; [rewrite nth_error_app1 in N by assumption; right; eauto|]. rewrite nth_error_app2 in N by assumption.
      destruct (j - length dn)%nat as [|[|z]]; cbn in N; try discriminate. injection N as <-. now left. }
    destruct (IH regs (dn ++ [Some x]) (x :: sp) E D') as (L & H). split; [cbn; lia|]. intros [|q] d j y Q N Lj; cbn in Q.
    + injection Q as <-. exists sp. assert (In y sp). { rewrite nth_error_app1 in N by lia. eauto. } split; [assumption|]. destruct sp; [easy|]. now apply negb_true_iff in C.
    + apply (H q d j y Q); [rewrite <- app_assoc; exact N | rewrite app_length; cbn; lia].
Qed.

Lemma moves_ok l r cs r' m : cg_args l r = Some (cs, r') ->
  match xseq (regs m) (cvs m) cs (world m) with
  | None => moves P order (cg_shift r l (length r')) cs m = None
  | Some (us, w') => exists r1, moves P order (cg_shift r l (length r')) cs m = Some (r1, w') /\ forall q u, nth_error us q = Some u -> r1 q = u
  end.
Proof.
  intros A. destruct (cg_args_spec l r cs r' r A (fun e => eq_refl) (le_n _)) as (L & Le & Q). unfold cg_shift, moves.
  destruct (cg_fast_goto r l) eqn:F.
  - unfold cg_fast_goto in F. destruct (fast_spec l (rev r) [] [] F) as (Ll & H); [intros [|j]; discriminate|]. rewrite rev_length in Ll.
    assert (N : forall q c x, nth_error cs q = Some c -> reads x c -> ~ (0 <= x < 0 + q)%nat).
    { intros q c x Nq Rd (_ & X). cbn in X. assert (q < length cs)%nat by (apply nth_error_Some; congruence). destruct (Q q c Nq) as (e & Ne & [(G & C)|(i & -> & I)]); [|cbn in Rd; lia].
      destruct (cexp_reads e r c x (gcsafe_cexp e G) C Rd) as (y & p & Ep & -> & Dy). apply rposq_nth, nth_rev in Ep. destruct (H q e _ y Ne Ep X) as (sp & I & D). rewrite (Dy sp I) in D. discriminate. }
    assert (K := assign_ok (cvs m) (regs m) cs 0 0 (regs m) (world m) (le_n _) N (fun x _ => eq_refl)). destruct (xseq (regs m) (cvs m) cs (world m)) as [(us & w')|].
    + destruct K as (r1 & E & U & _). exists r1. split; [assumption | exact U].
    + assumption.
  - assert (N : forall q c x, nth_error cs q = Some c -> reads x c -> ~ (length r' <= x < length r' + q)%nat).
    { intros q c x Nq Rd (X & _). destruct (Q q c Nq) as (e & Ne & [(G & C)|(i & -> & I)]); [|cbn in Rd; lia].
      destruct (cexp_reads e r c x (gcsafe_cexp e G) C Rd) as (y & p & Ep & -> & Dy). apply rposq_lt in Ep. lia. }
    assert (K := assign_ok (cvs m) (regs m) cs (length r') (length r') (regs m) (world m) (le_n _) N (fun x _ => eq_refl)). destruct (xseq (regs m) (cvs m) cs (world m)) as [(us & w')|].
    + destruct K as (r1 & E & U & _). rewrite E. exists (shifted r1 (length r')). split; [reflexivity|]. exact U.
    + now rewrite K.
Qed.

(** ** Code *)
Notation cg := (cg ls gcl).
Definition tidy (e : exp) : Prop := NoDup (binders e) /\ (forall x, free_in x e -> ~ In x (binders e)) /\ forall x, In x (binders e) -> ~ In x ls.
Definition fok (e : exp) : Prop := forall lb ys n, In (FCurry lb ys n) (collect e) -> exists ids, tab lb = Some (ids, n) /\ length ids = length ys.
Definition sok (e : exp) : Prop := forall x d lb, part_of (ESet x d) e -> In (lb, x) gcl -> exists ys, d = ELam ys (EApp (EVar lb) (map EVar ys)).
Record gok (e : exp) : Prop := { g_lifted : lifted ls e; g_tidy : tidy e; g_fok : fok e; g_sok : sok e }.
Definition tok (t : tgt) (e : exp) : Prop := match t with TCvar x _ => ~ In x (binders e) | _ => True end.
Definition OK (e : exp) : Prop := forall b t r code, cg e t r = Some code -> gok e -> tails b e -> tok t e -> forall rs m ws k, envrel e rs r m -> R ws (world m) ->
  cres b t (length r) m k (Ev (explicit e) rs k ws) (exec code m).
Lemma tidy_part e ys e' : tidy e -> In (ys, e') (parts e) -> tidy e' /\ (forall y, In y ys -> ~ In y (binders e') /\ In y (binders e)) /\ incl (binders e') (binders e).
Proof.
  intros (A & B & C) I. assert (Cn := part_cnt _ _ _ I). rewrite nodup_cnt in A.
  assert (Sub : forall y, In y (binders e') -> In y (binders e)) by (intros y; rewrite !cnt_In; specialize (Cn y); lia).
  assert (Sub2 : forall y, In y ys -> In y (binders e)) by (intros y; rewrite !cnt_In; specialize (Cn y); lia).
  assert (Dis : forall y, In y ys -> ~ In y (binders e')) by (intros y; rewrite !cnt_In; specialize (Cn y); specialize (A y); lia).
  split; [|auto]. split; [|split; [|auto]].
  - apply nodup_cnt. intros y. specialize (Cn y). specialize (A y). lia.
  - intros x F. destruct (in_dec id_dec x ys) as [J|J]; [auto|]. intros K. apply (B x); [eapply free_part; eauto | auto].
Qed.
Lemma sok_part e ys e' : sok e -> In (ys, e') (parts e) -> sok e'.
Proof. intros H I x d lb S. apply H. eapply po_in; eauto. Qed.
(** two operands of one expression bind different variables *)

Definition pairs (l : list exp) := map (fun e => (e, cg e)) l.
Lemma pairs_fst l : map fst (pairs l) = l.
Proof. unfold pairs. rewrite map_map. apply map_id. Qed.
Lemma temps_ok op rs k : forall l r cs r' K code m ws pre, Forall OK l -> Forall gok l -> Forall (tails false) l -> cg_args l r = Some (cs, r') ->
  cg_temps (pairs l) r (Some K) = Some code -> (forall e, In e l -> envrel e rs r m) -> R ws (world m) ->
  let s0 := Args op (pre ++ map STodo (map explicit l)) rs k ws in
  wrong s0 \/ (exists v u w1 ws1, exec code m = RHalt u w1 /\ star s0 (Halted v ws1) /\ vrel v u /\ R ws1 w1) \/
  exists sl ws' m', exec code m = exec K m' /\ star s0 (Args op (pre ++ sl) rs k ws') /\ R ws' (world m') /\ keeps (length r) m m' /\
    Forall2 (goodf rs) (map (xeval (regs m') (cvs m')) cs) sl.
Proof.
  induction l as [|e l IH]; intros r cs r' K code m ws pre Fo Fg Ft A T He W s0; cbn [cg_args pairs map cg_temps] in A, T.
  - injection A as <- <-. injection T as <-. right. right. exists [], ws, m. split; [reflexivity|]. split; [constructor|]. split; [assumption|]. split; [apply keeps_refl | constructor].
  - inversion Fo as [|? ? Oe Fo']; subst. inversion Fg as [|? ? Ge Fg']; subst. inversion Ft as [|? ? Te Ft']; subst. fold (pairs l) in T. destruct (cg_gcsafe_cexpp e) eqn:G.
    + destruct (cg_cexp e r) as [c|] eqn:C; [|discriminate]. destruct (cg_args l r) as [(cs1 & r1)|] eqn:A1; [|discriminate]. injection A as <- <-.
      assert (E0 : s0 = Args op ((pre ++ [STodo (explicit e)]) ++ map STodo (map explicit l)) rs k ws) by (unfold s0; cbn [map]; now rewrite <- app_assoc).
      destruct (IH r cs1 r1 K code m ws (pre ++ [STodo (explicit e)]) Fo' Fg' Ft' A1 T (fun e I => He e (or_intror I)) W) as [X|[X|(sl & ws' & m' & X1 & X2 & X3 & X4 & X5)]]; rewrite E0; auto.
      right. right. exists (STodo (explicit e) :: sl), ws', m'. split; [assumption|]. split; [replace (pre ++ STodo (explicit e) :: sl) with ((pre ++ [STodo (explicit e)]) ++ sl) by (now rewrite <- app_assoc); exact X2|]. split; [assumption|]. split; [assumption|]. cbn [map]. constructor; [|assumption].
      right. exists (explicit e). split; [reflexivity|]. intros k' ws2 w2 W2. eapply cexp_ok; [now apply gcsafe_cexp | exact C | | exact W2]. eapply envrel_keeps; [apply He; now left | assumption].
    + destruct (cg_args l (None :: r)) as [(cs1 & r1)|] eqn:A1; [|discriminate]. injection A as <- <-. unfold kseq in T. destruct (cg e (TReg (length r)) r) as [ce|] eqn:Ce; [|discriminate].
      destruct (cg_temps (pairs l) (None :: r) (Some K)) as [code'|] eqn:T'; [|discriminate]. injection T as <-.
      assert (C := Oe false _ _ _ Ce Ge Te Logic.I rs m ws (Fr op pre (map STodo (map explicit l)) rs :: k) (He e (or_introl eq_refl)) W).
      cbn [Spec_CodeGen.exec]. inversion C as [res Wr|v u ws1 m1 _ S V W1 Kp Er|v u ws1 w1 S V W1 Er|lab f vs rr ws1 w1 rs1 B|f vs rr ws1 w1 rs1 B]; try discriminate.
      * left. unfold s0. cbn [map]. apply pick_wrong. exact Wr.
      * cbn [Spec_CodeGen.store go] in Er. set (m2 := mkmach (upd (regs m1) (length r) u) (cvs m1) (world m1)) in *.
        assert (S0 : star s0 (Args op ((pre ++ [SDone v]) ++ map STodo (map explicit l)) rs k ws1)).
        { unfold s0. cbn [map]. rewrite <- app_assoc. eapply pick_ret; [exact S | constructor]. }
        assert (K2 : keeps (length r) m m2). { destruct Kp as (Ka & Kb). split; [|exact Kb]. intros i I. cbn. unfold upd. destruct (Nat.eqb_spec i (length r)); [lia | auto]. }
        destruct (IH (None :: r) cs1 r1 K code' m2 ws1 (pre ++ [SDone v]) Fo' Fg' Ft' A1 T') as [X|[X|(sl & ws' & m' & X1 & X2 & X3 & X4 & X5)]]; auto.
        { intros d I. apply envrel_none. eapply envrel_keeps; [apply He; now right | exact K2]. }
        -- left. eapply wrong_star; eauto.
        -- right. left. destruct X as (v1 & u1 & w1 & ws2 & X1 & X2 & X3). exists v1, u1, w1, ws2. split; [assumption|]. split; [eapply star_trans; eauto | assumption].
        -- right. right. exists (SDone v :: sl), ws', m'. split; [assumption|]. split; [replace (pre ++ SDone v :: sl) with ((pre ++ [SDone v]) ++ sl) by (now rewrite <- app_assoc); eapply star_trans; [exact S0 | exact X2]|]. split; [assumption|].
           cbn [length] in X4. split; [eapply keeps_trans; [exact K2 | exact X4 | lia]|]. cbn [map]. constructor; [|assumption]. left. exists v, u. split; [reflexivity|]. split; [assumption|].
           intros w. cbn. rewrite (proj1 X4 (length r)) by lia. cbn. unfold upd. now rewrite Nat.eqb_refl.
      * right. left. exists v, u, w1, ws1. split; [reflexivity|]. split; [|auto]. unfold s0. cbn [map]. econstructor; [apply st_pick | exact S].
Qed.
Lemma gok_list e l : gok e -> (forall x, In x l -> In ([], x) (parts e)) -> (forall x, In x l -> lifted ls x) -> (forall x, In x l -> incl (collect x) (collect e)) -> Forall gok l.
Proof.
  intros [A B C D] H L I. apply Forall_forall. intros x X. split; [auto|..].
  - eapply tidy_part; eauto.
  - intros lb ys n J. eapply C, I; eauto.
  - eapply sok_part; eauto.
Qed.
Lemma fold_tails l : fold_right (fun e q => tails false e /\ q) True l -> Forall (tails false) l.
Proof. induction l; cbn; [constructor | intros []; constructor; auto]. Qed.
Lemma envrel_list e l rs r m : envrel e rs r m -> (forall x, In x l -> In ([], x) (parts e)) -> forall x, In x l -> envrel x rs r m.
Proof. intros H P0 x I. eapply envrel_part; eauto. Qed.

Lemma OK_prim ef p l : Forall OK l -> OK (EPrim ef p l).
Proof.
  intros Fo b t r code C G T To rs m ws k H W. destruct (cg_cexpp (EPrim ef p l)) eqn:X.
  - change (cg (EPrim ef p l) t r) with (if cg_cexpp (EPrim ef p l) then option_map (KSet t) (cg_cexp (EPrim ef p l) r) else cg_primapp (pairs l) r (fun cs _ => KPrim t p cs)) in C.
    rewrite X in C. destruct (cg_cexp (EPrim ef p l) r) as [c|] eqn:Cc; [|discriminate]. injection C as <-. cbn [Spec_CodeGen.exec].
    assert (K := cexp_ok _ r c rs m ws k (world m) X Cc H W). destruct (xeval (regs m) (cvs m) c (world m)) as [(u & w1)|]; cbn [cx] in K; [|now apply c_wrong].
    destruct K as [K|(v & ws1 & S & V & W1)]; [now apply c_wrong|]. eapply c_go; eauto using keeps_world. destruct b; [|reflexivity]. cbn [tails] in T. destruct T as [T _]. rewrite (T eq_refl) in X. cbn [cg_cexpp] in X. rewrite halt_not_cexp in X. discriminate.
  - change (cg (EPrim ef p l) t r) with (if cg_cexpp (EPrim ef p l) then option_map (KSet t) (cg_cexp (EPrim ef p l) r) else cg_primapp (pairs l) r (fun cs _ => KPrim t p cs)) in C.
    rewrite X in C. unfold cg_primapp in C. rewrite pairs_fst in C. destruct (cg_args l r) as [(cs & r')|] eqn:A; [|discriminate].
    assert (Pt : forall x, In x l -> In ([], x) (parts (EPrim ef p l))) by (intros x I; now apply in_map_pair).
    assert (Fg : Forall gok l). { eapply gok_list; [exact G | exact Pt| |]; [destruct G as [Li _ _ _]; inversion Li; subst; now apply Forall_forall|]. intros x I y J. cbn. apply in_flat_map. eauto. }
    cbn [tails] in T. destruct T as [Tp Tl]. apply fold_tails in Tl. cbn [explicit].
    destruct (temps_ok (OPrim ef p) rs k l r cs r' _ code m ws [] Fo Fg Tl A C (envrel_list _ _ _ _ _ H Pt) W) as [X1|[X1|(sl & ws' & m' & X1 & X2 & X3 & X4 & X5)]].
    + apply c_wrong. eapply args_wrong; [reflexivity | exact X1].
    + destruct X1 as (v & u & w1 & ws1 & -> & S & V & W1). eapply c_halt; eauto. eapply to_args; [reflexivity | exact S].
    + assert (S0 : star (Ev (EPrim ef p (map explicit l)) rs k ws) (Args (OPrim ef p) sl rs k ws')) by (eapply to_args; [reflexivity | exact X2]).
      rewrite X1. eapply cres_star; [exact S0|]. cbn [Spec_CodeGen.exec]. assert (Q := xevals_ok rs (OPrim ef p) k cs (regs m') (cvs m') sl ws' (world m') X5 X3).
      destruct (xevals P order (regs m') (cvs m') cs (world m')) as [(us & w1)|]; cbn [cxs] in Q; [|now apply c_wrong]. destruct Q as [Q|(vs & ws1 & S & F & W1)]; [now apply c_wrong|].
      eapply cres_star; [exact S|]. unfold is_halt. destruct (list_eq_dec Z.eq_dec p the_halt_prim) as [->|Np].
      * destruct F as [|v u vs us V F]; [|destruct F].
        -- apply c_wrong. apply stuck_fire. intros s Fi. inversion Fi; subst; congruence.
        -- eapply c_halt; [|exact V | exact W1]. apply star_one, st_fire. constructor.
        -- apply c_wrong. apply stuck_fire. intros s Fi. inversion Fi; subst; congruence.
      * destruct (run (P p) vs ws1) as [(v & ws2)|] eqn:Er.
        -- destruct (run_R _ _ _ _ _ _ _ W1 F Er) as (u & w2 & -> & W2 & V). eapply c_go; [destruct b; [now specialize (Tp eq_refl) | reflexivity]| |exact V | exact W2 | exact X4]. apply star_one, st_fire. now constructor.
        -- apply c_wrong. apply stuck_fire. intros s Fi. inversion Fi; subst; congruence.
Qed.

Lemma cexp_code e b t r c rs m ws k : cg_cexpp e = true -> cg_cexp e r = Some c -> (b = true -> False) -> envrel e rs r m -> R ws (world m) ->
  cres b t (length r) m k (Ev (explicit e) rs k ws) (exec (KSet t c) m).
Proof.
  intros X C B H W. cbn [Spec_CodeGen.exec]. assert (K := cexp_ok e r c rs m ws k (world m) X C H W). destruct (xeval (regs m) (cvs m) c (world m)) as [(u & w1)|]; cbn [cx] in K; [|now apply c_wrong].
  destruct K as [K|(v & ws1 & S & V & W1)]; [now apply c_wrong|]. eapply c_go; eauto using keeps_world. destruct b; [now destruct B | reflexivity].
Qed.
Lemma OK_var x : OK (EVar x).
Proof.
  intros b t r code C G T To rs m ws k H W. change (cg (EVar x) t r) with (option_map (KSet t) (cg_cexp (EVar x) r)) in C. destruct (cg_cexp (EVar x) r) as [c|] eqn:E; [|discriminate]. injection C as <-.
  apply cexp_code; auto. cbn in T. congruence.
Qed.
Lemma gok_part e e' : gok e -> In ([], e') (parts e) -> lifted ls e' -> incl (collect e') (collect e) -> gok e'.
Proof.
  intros G I L J. assert (F : Forall gok [e']) by (eapply gok_list; [exact G| | |]; intros x [<-|[]]; auto). now inversion F.
Qed.
Lemma tok_part t e ys e' : tok t e -> In (ys, e') (parts e) -> tok t e'.
Proof. destruct t as [| | |x u]; cbn; auto. intros N I J. apply N. assert (Cn := part_cnt _ _ _ I x). rewrite cnt_In in *. lia. Qed.
(** a conditional, when the test has been computed *)
Lemma if_code b t r a bb cc cb cd rs m ws k v u : OK bb -> OK cc -> cg bb t r = Some cb -> cg cc t r = Some cd -> gok bb -> gok cc -> tails b bb -> tails b cc -> tok t bb -> tok t cc ->
  envrel bb rs r m -> envrel cc rs r m -> R ws (world m) -> vrel v u -> star a (Args (OIf (explicit bb) (explicit cc)) [SDone v] rs k ws) ->
  cres b t (length r) m k a (exec (if is_true u then cb else cd) m).
Proof.
  intros Ob Oc Cb Cd Gb Gc Tb Tc Kb Kc Hb Hc W V S. eapply cres_star; [exact S|]. eapply cres_star; [apply star_one; change [SDone v] with (map SDone [v]); apply st_fire; constructor|].
  rewrite <- (vrel_true _ _ V). destruct (is_true v); [eapply Ob | eapply Oc]; eauto.
Qed.
Lemma OK_if a bb cc : OK a -> OK bb -> OK cc -> OK (EIf a bb cc).
Proof.
  intros Oa Ob Oc b t r code C G T To rs m ws k H W. destruct (cg_cexpp (EIf a bb cc)) eqn:X.
  - change (cg (EIf a bb cc) t r) with (if cg_cexpp (EIf a bb cc) then option_map (KSet t) (cg_cexp (EIf a bb cc) r) else
      if cg_cexpp a then
        match cg_cexp a r, cg bb t r, cg cc t r with Some a', Some b', Some c' => Some (KIf a' b' c') | _, _, _ => None end
      else
        match cg a (TReg (length r)) r, cg bb t r, cg cc t r with
        | Some a', Some b', Some c' => Some (KSeq a' (KIf (XReg (length r)) b' c'))
        | _, _, _ => None
        end) in C. rewrite X in C. destruct (cg_cexp (EIf a bb cc) r) as [c|] eqn:E; [|discriminate]. injection C as <-. apply cexp_code; auto.
    intros ->. clear - X T. destruct T as (_ & T & _). apply andb_true_iff in X. destruct X as (X & _). apply andb_true_iff in X. destruct X as (_ & X).
    revert T X. induction bb as [y|y e IH|a1 b1 c1 IHa IHb IHc|ef p l IH|f l IHf IHl|xs b IH|xs lm b IHl IHb|y b IH|kk e IHk IHe] using exp_ind2; intros T X; try discriminate.
    + destruct T as (_ & T & _). cbn in X. rewrite !andb_true_iff in X. apply IHb; tauto.
    + cbn [tails] in T. destruct T as [T _]. rewrite (T eq_refl) in X. cbn [cg_cexpp] in X. rewrite halt_not_cexp in X. discriminate.
  - change (cg (EIf a bb cc) t r) with (if cg_cexpp (EIf a bb cc) then option_map (KSet t) (cg_cexp (EIf a bb cc) r) else
      if cg_cexpp a then
        match cg_cexp a r, cg bb t r, cg cc t r with Some a', Some b', Some c' => Some (KIf a' b' c') | _, _, _ => None end
      else
        match cg a (TReg (length r)) r, cg bb t r, cg cc t r with
        | Some a', Some b', Some c' => Some (KSeq a' (KIf (XReg (length r)) b' c'))
        | _, _, _ => None
        end) in C. rewrite X in C.
    assert (Pa : In ([], a) (parts (EIf a bb cc))) by (cbn; auto). assert (Pb : In ([], bb) (parts (EIf a bb cc))) by (cbn; auto). assert (Pc : In ([], cc) (parts (EIf a bb cc))) by (cbn; auto).
    assert (Li := g_lifted _ G). inversion Li as [| |? ? ? La Lb Lc| | | |]; subst.
    assert (Ga : gok a) by (apply (gok_part _ a G Pa La); cbn; intros y J; apply in_or_app; auto).
    assert (Gb : gok bb) by (apply (gok_part _ bb G Pb Lb); cbn; intros y J; apply in_or_app; right; apply in_or_app; auto).
    assert (Gc : gok cc) by (apply (gok_part _ cc G Pc Lc); cbn; intros y J; apply in_or_app; right; apply in_or_app; auto).
    destruct T as (Ta & Tb & Tc). assert (Kb := tok_part _ _ _ _ To Pb). assert (Kc := tok_part _ _ _ _ To Pc).
    assert (Ha := envrel_part _ _ _ _ _ _ H Pa eq_refl). assert (Hb := envrel_part _ _ _ _ _ _ H Pb eq_refl). assert (Hc := envrel_part _ _ _ _ _ _ H Pc eq_refl).
    set (o := OIf (explicit bb) (explicit cc)). set (k' := Fr o [] [] rs :: k).
    assert (Wr : wrong (Ev (explicit a) rs k' ws) -> wrong (Ev (explicit (EIf a bb cc)) rs k ws)).
    { intros Y. eapply args_wrong; [reflexivity|]. apply (pick_wrong o [] (explicit a) [] rs k ws). exact Y. }
    assert (St : forall s, star (Ev (explicit a) rs k' ws) s -> star (Ev (explicit (EIf a bb cc)) rs k ws) s).
    { intros s S. eapply to_args; [reflexivity|]. econstructor; [apply (st_pick P MDirect o [] (explicit a) [])|exact S]. }
    destruct (cg_cexpp a) eqn:Xa.
    + destruct (cg_cexp a r) as [a'|] eqn:Ea; [|discriminate]. destruct (cg bb t r) as [b'|] eqn:Eb; [|discriminate]. destruct (cg cc t r) as [c'|] eqn:Ec; [|discriminate]. injection C as <-.
      cbn [Spec_CodeGen.exec]. assert (K := cexp_ok a r a' rs m ws k' (world m) Xa Ea Ha W). destruct (xeval (regs m) (cvs m) a' (world m)) as [(u & w1)|]; cbn [cx] in K; [|apply c_wrong; auto].
      destruct K as [K|(v & ws1 & S & V & W1)]; [apply c_wrong; auto|]. apply cres_keeps with (length r) (set_world m w1); [lia | apply keeps_world|].
      apply if_code with (bb := bb) (cc := cc) (rs := rs) (ws := ws1) (v := v); auto; try (eapply envrel_keeps; [eassumption | apply keeps_world]).
      eapply star_trans; [apply St, S|]. apply star_one. apply (st_ret P MDirect v o [] [] rs k ws1).
    + destruct (cg a (TReg (length r)) r) as [a'|] eqn:Ea; [|discriminate]. destruct (cg bb t r) as [b'|] eqn:Eb; [|discriminate]. destruct (cg cc t r) as [c'|] eqn:Ec; [|discriminate]. injection C as <-.
      assert (Cr := Oa false _ _ _ Ea Ga Ta Logic.I rs m ws k' Ha W). cbn [Spec_CodeGen.exec].
      inversion Cr as [res Wx|v u ws1 m1 _ S V W1 Kp Er|v u ws1 w1 S V W1 Er|lab f vs rr ws1 w1 rs1 B|f vs rr ws1 w1 rs1 B]; try discriminate.
      * apply c_wrong. auto.
      * cbn [Spec_CodeGen.store go] in Er |- *. set (m2 := mkmach (upd (regs m1) (length r) u) (cvs m1) (world m1)) in *. cbn [Spec_CodeGen.xeval].
        replace (regs m2 (length r)) with u by (cbn; unfold upd; now rewrite Nat.eqb_refl). replace (set_world m2 (world m2)) with m2 by reflexivity.
        assert (K2 : keeps (length r) m m2). { destruct Kp as (Ka & Kbb). split; [|exact Kbb]. intros i I. cbn. unfold upd. destruct (Nat.eqb_spec i (length r)); [lia | auto]. }
        apply cres_keeps with (length r) m2; [lia | exact K2|].
        apply if_code with (bb := bb) (cc := cc) (rs := rs) (ws := ws1) (v := v); auto; try (eapply envrel_keeps; eassumption).
        eapply star_trans; [apply St, S|]. apply star_one. apply (st_ret P MDirect v o [] [] rs k ws1).
      * eapply c_halt; [apply St, S | exact V | exact W1].
Qed.

(** ** Closures *)
Lemma vars_seq rs r m w : forall l cs r', (forall c, In c l -> global_id c = false /\ ~ In c ls /\ var_rel rs r m c) -> cg_args (map EVar l) r = Some (cs, r') ->
  r' = r /\ (forall K, cg_temps (pairs (map EVar l)) r K = K) /\ exists us, xseq (regs m) (cvs m) cs w = Some (us, w) /\ Forall2 (fun c u => exists v, lookup rs c = Some v /\ vrel v u) l us.
Proof.
  induction l as [|c l IH]; intros cs r' H A; cbn [map cg_args] in A.
  - injection A as <- <-. split; [reflexivity|]. split; [reflexivity|]. exists []. split; [reflexivity | constructor].
  - cbn [cg_gcsafe_cexpp cg_cexp] in A. destruct (cg_var c r) as [d|] eqn:E; [|discriminate]. destruct (cg_args (map EVar l) r) as [(cs1 & r1)|] eqn:A1; [|discriminate]. injection A as <- <-.
    destruct (IH cs1 r1 (fun c I => H c (or_intror I)) eq_refl) as (-> & T & us & X & F). split; [reflexivity|]. split; [intros K; cbn [map pairs cg_temps cg_gcsafe_cexpp]; exact (T K)|].
    destruct (H c (or_introl eq_refl)) as (G & N & V). unfold var_rel in V. destruct (in_dec id_dec c ls) as [?|_]; [easy|]. destruct V as (v & L & V). unfold cg_var in E. rewrite G in E. destruct (label_id c); [discriminate|].
    assert (exists u, xeval (regs m) (cvs m) d w = Some (u, w) /\ vrel v u) as (u & Xu & Vu).
    { destruct (cvar_type c); [injection E as <-; destruct V as (u & Eu & V); exists u; cbn; rewrite Eu; split; [reflexivity | exact V]|]. destruct V as (p & Ep & V). rewrite Ep in E. injection E as <-. eexists. split; [reflexivity | exact V]. }
    exists (u :: us). cbn [Spec_CodeGen.xseq]. rewrite Xu, X. split; [reflexivity|]. constructor; eauto.
Qed.
Lemma Forall2_rev {A B} (Q : A -> B -> Prop) l l' : Forall2 Q l l' -> Forall2 Q (rev l) (rev l').
Proof. induction 1; cbn; [constructor|]. apply Forall2_app; auto. Qed.
Lemma skipn_app_len {A} (a b : list A) : skipn (length a) (a ++ b) = b.
Proof. now rewrite skipn_app, skipn_all, Nat.sub_diag. Qed.
Lemma lifted_lam_inv ys bd : lifted ls (ELam ys bd) -> exists t cs, bd = EApp (EVar t) (map EVar (ys ++ cs)) /\ In t ls /\ Forall local ys /\ Forall plain cs /\ (forall c, In c cs -> ~ In c ys /\ ~ In c ls).
Proof. intros L. inversion L; subst. eauto 8. Qed.
Lemma lam_code ys t cs g r code rs m ws : cg (ELam ys (EApp (EVar t) (map EVar (ys ++ cs)))) g r = Some code -> gok (ELam ys (EApp (EVar t) (map EVar (ys ++ cs)))) ->
  envrel (ELam ys (EApp (EVar t) (map EVar (ys ++ cs)))) rs r m -> R ws (world m) ->
  exists us, length us = length cs /\ exec code m = go (store g (clo t us) m) /\ vrel (VClo ys (EApp (EVar t) (map EVar (ys ++ cs))) rs) (clo t us).
Proof.
  set (e := ELam ys (EApp (EVar t) (map EVar (ys ++ cs)))). intros C G H W.
  change (cg e g r) with (match curry_view e with Some _ => if memq t ls then cg_primapp (rev (skipn (length ys) (pairs (map EVar (ys ++ cs))))) r (fun cs _ => KClo g t cs) else None | None => None end) in C.
  destruct (curry_view e) as [p|] eqn:V; [|discriminate]. destruct (memq t ls) eqn:M; [|discriminate]. apply memq_In in M.
  assert (Ep : p = (t, ys, map EVar cs)).
  { revert V. unfold e, curry_view. destruct (_ && _); [|discriminate]. intros [= <-]. f_equal. rewrite map_app. rewrite <- (map_length EVar ys). apply skipn_app_len. }
  assert (Sk : skipn (length ys) (pairs (map EVar (ys ++ cs))) = pairs (map EVar cs)).
  { unfold pairs. rewrite map_app, map_app. rewrite <- (map_length EVar ys), <- (map_length (fun e => (e, cg e)) (map EVar ys)). apply skipn_app_len. }
  rewrite Sk in C. replace (rev (pairs (map EVar cs))) with (pairs (map EVar (rev cs))) in C by (unfold pairs; now rewrite !map_map, map_rev).
  unfold cg_primapp in C. rewrite pairs_fst in C. destruct (cg_args (map EVar (rev cs)) r) as [(cx0 & r')|] eqn:A; [|discriminate].
  destruct (lifted_lam_inv _ _ (g_lifted _ G)) as (t0 & cs0 & Q1 & Ht & Hy & Hc & Hd).
  assert (Qcs : map EVar (ys ++ cs0) = map EVar (ys ++ cs)) by congruence. assert (cs0 = cs).
  { assert (IJ : forall a b, map EVar a = map EVar b -> a = b) by (induction a as [|? ? IHa]; intros [|? ?] X; cbn in X; try discriminate; [reflexivity | injection X as -> X; f_equal; auto]). apply IJ in Qcs. eapply app_inv_head. exact Qcs. }
  subst cs0 p. clear Qcs Q1. rewrite Forall_forall in Hy, Hc.
  destruct (vars_seq rs r m (world m) (rev cs) cx0 r') as (-> & T & us & X & F); [|exact A|].
  { intros c I. apply in_rev in I. destruct (Hc c I) as (Gc & _). destruct (Hd c I) as (D1 & D2). split; [assumption|]. split; [assumption|]. apply H; [|assumption].
    eapply free_part; [now left | exact D1|]. eapply free_part; [right; apply in_map_pair, in_map, in_or_app; right; exact I | easy | apply free_here, nm_ref]. }
  rewrite T in C. injection C as <-. exists (rev us). split; [rewrite rev_length, <- (Forall2_len _ _ _ F); apply rev_length|]. split.
  - cbn [Spec_CodeGen.exec]. rewrite X. replace (set_world m (world m)) with m by (now destruct m). reflexivity.
  - destruct (g_fok _ G t ys (length cs)) as (ids & Tb & Li2).
    { unfold e. cbn [collect]. fold e. rewrite V. left. f_equal. apply map_length. }
    assert (Ti := g_tidy _ G). destruct Ti as (Nd & Fr & Nl). cbn in Nd, Nl.
    assert (Ny : ~ In t ys) by (intros I; apply (Nl t); [apply in_or_app; now left | assumption]).
    eapply vr_clo; eauto.
    + assert (Ft : free_in t e). { eapply free_part; [now left | exact Ny|]. eapply free_part; [now left | easy | apply free_here, nm_ref]. }
      rewrite Forall_forall in labels_ok. assert (V0 := H t Ft (label_local _ (labels_ok t M))). unfold var_rel in V0. destruct (in_dec id_dec t ls); [exact V0 | easy].
    + apply Forall_forall. exact Hy.
    + eapply Proofs_LetrecFix.nodup_l. exact Nd.
    + intros c I. split; [apply Hc; assumption | apply Hd; assumption].
    + apply Forall2_rev in F. rewrite rev_involutive in F. exact F.
Qed.

Lemma OK_lam ys bd : OK (ELam ys bd).
Proof.
  intros b t r code C G T To rs m ws k H W. destruct (lifted_lam_inv _ _ (g_lifted _ G)) as (lb & cs & -> & _).
  destruct (lam_code _ _ _ _ _ _ rs m ws C G H W) as (us & _ & -> & V). eapply c_go; [destruct T as [T _]; exact T| | exact V | exact W | apply keeps_refl].
  assert (E : explicit (ELam ys (EApp (EVar lb) (map EVar (ys ++ cs)))) = ELam ys (EApp (EVar lb) (map EVar (ys ++ cs)))).
  { cbn [explicit]. rewrite wraps_nil, map_map. reflexivity. }
  rewrite E. apply star_one, st_lam.
Qed.
(** ** Assignments *)
Lemma R_set ws w x v u : R ws w -> vrel v u -> (forall lb, In (lb, x) gcl -> vrel v (clo lb [])) -> R (set_gl ws x v) (set_gl w x u).
Proof.
  intros ((H & G & O & I) & C) V K. split.
  - split; [|split; [|split]]; cbn; auto. intros y. destruct (id_eqb y x); auto.
  - intros lb y J. cbn. destruct (id_eqb y x) eqn:E; [apply id_eqb_eq in E; subst; auto | now apply C].
Qed.
Lemma void_code t m : exec (KSet t (XPrim the_void_prim [])) m = go (store t (VC CVoid) m).
Proof.
  cbn [Spec_CodeGen.exec Spec_CodeGen.xeval map]. assert (E : order [] = []) by (apply Permutation_nil, Permutation_sym, any). rewrite E. cbn [in_order all_some option_map].
  rewrite void_ok. now destruct m.
Qed.
Lemma set_value e1 x : gok (ESet x e1) -> OK e1 -> forall r code rs m ws k, cg e1 (TGlob x) r = Some code -> tails false e1 -> envrel e1 rs r m -> R ws (world m) ->
  wrong (Ev (explicit e1) rs k ws) \/ (exists v u w1 ws1, exec code m = RHalt u w1 /\ star (Ev (explicit e1) rs k ws) (Halted v ws1) /\ vrel v u /\ R ws1 w1) \/
  exists v u m1 ws1, exec code m = RGo (set_world m1 (set_gl (world m1) x u)) /\ star (Ev (explicit e1) rs k ws) (Ret v k ws1) /\ keeps (length r) m m1 /\ R (set_gl ws1 x v) (set_gl (world m1) x u).
Proof.
  intros G Oe r code rs m ws k C T H W.
  assert (Ge : gok e1). { apply (gok_part _ e1 G); [now left | | intros y; auto]. assert (Li := g_lifted _ G). inversion Li; now subst. }
  destruct (existsb (fun p => id_eqb x (snd p)) gcl) eqn:E.
  - apply existsb_exists in E. destruct E as ((lb & x') & I & E). apply id_eqb_eq in E. cbn in E. subst x'. destruct (g_sok _ G x e1 lb (po_here _) I) as (ys & ->).
    right. right. assert (Ea : map EVar ys = map EVar (ys ++ [])) by (now rewrite app_nil_r).
    rewrite Ea in C, Ge, H. destruct (lam_code _ _ _ _ _ _ rs m ws C Ge H W) as (us & L & -> & V). destruct us; [|discriminate]. eexists _, _, m, ws. split; [reflexivity|].
    split; [|split; [apply keeps_refl|]].
    + assert (Ex : explicit (ELam ys (EApp (EVar lb) (map EVar ys))) = ELam ys (EApp (EVar lb) (map EVar ys))). { cbn [explicit]. rewrite wraps_nil, map_map. reflexivity. } rewrite Ex. apply star_one, st_lam.
    + rewrite <- Ea in V. apply R_set; auto. intros lb' J. destruct (g_sok _ G x _ lb' (po_here _) J) as (ys' & [= <- <- _]). exact V.
  - assert (Cr := Oe false _ _ _ C Ge T Logic.I rs m ws k H W). inversion Cr as [res Wx|v u ws1 m1 _ S V W1 Kp Er|v u ws1 w1 S V W1 Er|lab f vs rr ws1 w1 rs1 B|f vs rr ws1 w1 rs1 B]; try discriminate.
    + now left.
    + right. right. exists v, u, m1, ws1. split; [reflexivity|]. split; [assumption|]. split; [assumption|]. apply R_set; auto.
      intros lb I. exfalso. assert (Y : existsb (fun p => id_eqb x (snd p)) gcl = true) by (apply existsb_exists; exists (lb, x); split; [assumption | apply id_eqb_refl]). congruence.
    + right. left. exists v, u, w1, ws1. auto.
Qed.
Lemma OK_set x e1 : OK e1 -> OK (ESet x e1).
Proof.
  intros Oe b t r code C G T To rs m ws k H W.
  change (cg (ESet x e1) t r) with (if global_id x then kseq (cg e1 (TGlob x) r) (Some (KSet t (XPrim the_void_prim []))) else None) in C.
  destruct (global_id x) eqn:Gx; [|discriminate]. unfold kseq in C. destruct (cg e1 (TGlob x) r) as [ce|] eqn:Ce; [|discriminate]. injection C as <-. destruct T as [-> T].
  change (explicit (ESet x e1)) with (ESet x (explicit e1)). set (k' := Fr (OSet x) [] [] rs :: k).
  assert (He := envrel_part _ _ _ _ _ _ H (or_introl eq_refl) eq_refl).
  change (exec (KSeq ce (KSet t (XPrim the_void_prim []))) m) with (match exec ce m with RGo m' => exec (KSet t (XPrim the_void_prim [])) m' | q => q end).
  destruct (set_value e1 x G Oe r ce rs m ws k' Ce T He W) as [X|[X|X]].
  - apply c_wrong. eapply args_wrong; [reflexivity|]. apply (pick_wrong (OSet x) [] (explicit e1) [] rs k ws). exact X.
  - destruct X as (v & u & w1 & ws1 & -> & S & V & W1). eapply c_halt; [|exact V | exact W1]. eapply to_args; [reflexivity|]. econstructor; [apply (st_pick P MDirect (OSet x) [] (explicit e1) [])|exact S].
  - destruct X as (v & u & m1 & ws1 & -> & S & Kp & W1). rewrite void_code. apply c_go with (VC CVoid) (set_gl ws1 x v); auto; [|constructor].
    eapply to_args; [reflexivity|]. eapply (pick_ret (OSet x) [] (explicit e1) [] rs k ws); [exact S|]. apply star_one. cbn [app]. change [SDone v] with (map SDone [v]). apply st_fire. now constructor.
Qed.
(** ** Calls *)
Lemma vrel_nth vs us r1 : Forall2 vrel vs us -> (forall q u, nth_error us q = Some u -> r1 q = u) -> forall i v, nth_error vs i = Some v -> vrel v (r1 i).
Proof. intros F H i v N. destruct (Forall2_nth _ _ _ _ _ F N) as (u & Nu & V). now rewrite (H _ _ Nu). Qed.
Lemma xseq_len r cv : forall l w us w', xseq r cv l w = Some (us, w') -> length us = length l.
Proof.
  induction l as [|c l IH]; intros w us w' E; cbn [Spec_CodeGen.xseq] in E; [now injection E as <- <-|]. destruct (xeval r cv c w) as [(v & w1)|]; [|discriminate].
  destruct (xseq r cv l w1) as [(vs & w2)|] eqn:E1; [|discriminate]. injection E as <- <-. cbn. f_equal. eauto.
Qed.
Lemma jump_ok f l t r code rs m ws k : Forall OK (f :: l) -> Forall gok (f :: l) -> Forall (tails false) (f :: l) -> (forall e, In e (f :: l) -> envrel e rs r m) -> R ws (world m) ->
  cg_primapp (pairs (f :: l)) r (fun cs n => KJump (cg_shift r (f :: l) n) cs) = Some code ->
  cres true t (length r) m k (Args OApp (map STodo (map explicit (f :: l))) rs k ws) (exec code m).
Proof.
  intros Fo Fg Ft He W C. unfold cg_primapp in C. rewrite pairs_fst in C. destruct (cg_args (f :: l) r) as [(cs & r')|] eqn:A; [|discriminate].
  destruct (temps_ok OApp rs k (f :: l) r cs r' _ code m ws [] Fo Fg Ft A C He W) as [X1|[X1|(sl & ws' & m' & X1 & X2 & X3 & X4 & X5)]].
  - now apply c_wrong.
  - destruct X1 as (v & u & w1 & ws1 & -> & S & V & W1). eapply c_halt; eauto.
  - rewrite X1. eapply cres_star; [exact X2|]. cbn [app Spec_CodeGen.exec]. assert (Q := xseq_ok rs OApp k (regs m') (cvs m') cs sl [] ws' (world m') X5 X3). cbn [map app] in Q.
    assert (M := moves_ok _ _ _ _ m' A). destruct (xseq (regs m') (cvs m') cs (world m')) as [(us & w1)|] eqn:Ex; [|now apply c_wrong]. apply xseq_len in Ex.
    destruct Q as [Q|(vs & ws1 & S & F & W1)]; [now apply c_wrong|]. destruct M as (r1 & -> & U).
    destruct (cg_args_spec _ _ _ _ r A (fun e => eq_refl) (le_n _)) as (_ & Lc & _). assert (Lv := Forall2_len _ _ _ F). destruct vs as [|g vs]; [rewrite Ex, Lc in Lv; discriminate|].
    rewrite <- Ex, <- Lv. cbn [length]. eapply c_jump; [reflexivity | exact S | | exact W1]. eapply vrel_nth; eauto.
Qed.
Lemma goto_ok g lab l t r code rs m ws k : (exists c, g = VC c) \/ calls g lab -> Forall OK l -> Forall gok l -> Forall (tails false) l -> (forall e, In e l -> envrel e rs r m) -> R ws (world m) ->
  cg_primapp (pairs l) r (fun cs n => KGoto (cg_shift r l n) lab cs) = Some code ->
  cres true t (length r) m k (Args OApp (SDone g :: map STodo (map explicit l)) rs k ws) (exec code m).
Proof.
  intros Hg Fo Fg Ft He W C. unfold cg_primapp in C. rewrite pairs_fst in C. destruct (cg_args l r) as [(cs & r')|] eqn:A; [|discriminate].
  destruct (temps_ok OApp rs k l r cs r' _ code m ws [SDone g] Fo Fg Ft A C He W) as [X1|[X1|(sl & ws' & m' & X1 & X2 & X3 & X4 & X5)]].
  - now apply c_wrong.
  - destruct X1 as (v & u & w1 & ws1 & -> & S & V & W1). eapply c_halt; eauto.
  - rewrite X1. eapply cres_star; [exact X2|]. cbn [app Spec_CodeGen.exec]. assert (Q := xseq_ok rs OApp k (regs m') (cvs m') cs sl [g] ws' (world m') X5 X3). cbn [map app] in Q.
    assert (M := moves_ok _ _ _ _ m' A). destruct (xseq (regs m') (cvs m') cs (world m')) as [(us & w1)|] eqn:Ex; [|now apply c_wrong]. apply xseq_len in Ex.
    destruct Q as [Q|(vs & ws1 & S & F & W1)]; [now apply c_wrong|]. destruct M as (r1 & -> & U).
    assert (Lv := Forall2_len _ _ _ F). rewrite <- Ex, <- Lv. destruct Hg as [(c & ->)|Hg].
    + apply c_wrong. eapply wrong_star; [exact S|]. apply (stuck_fire P MDirect OApp (VC c :: vs)). intros s Fi. inversion Fi.
    + eapply c_goto; [reflexivity | exact S | exact Hg | | exact W1]. eapply vrel_nth; eauto.
Qed.
Hypothesis labels_nodup : NoDup ls.
Hypothesis gcl_glob : forall lb x, In (lb, x) gcl -> global_id x = true.
Lemma label_value x : In x ls -> exists i, nth_error ls i = Some x /\ lookup rT x = Some (VFix ls lamsE i []).
Proof. intros I. apply In_nth_error in I. destruct I as (i & E). exists i. split; [assumption|]. apply (fix_get 0 [] (fun _ (H : False) => match H with end)); assumption. Qed.
Definition cg_jump (f : exp) (l : list exp) (r : renv) := cg_primapp (pairs (f :: l)) r (fun cs n => KJump (cg_shift r (f :: l) n) cs).
Definition cg_goto (lb : id) (l : list exp) (r : renv) := cg_primapp (pairs l) r (fun cs n => KGoto (cg_shift r l n) lb cs).
Lemma cg_app_eq f l t r : (forall xs b, f <> ELam xs b) -> cg (EApp f l) t r =
  match f with
  | EVar x => if label_id x then if memq x ls then cg_goto x l r else None
              else match gc_label gcl x with Some lb => if gc_defined ls gcl x lb then cg_goto lb l r else None | None => cg_jump f l r end
  | _ => cg_jump f l r
  end.
Proof. intros N. destruct f; try reflexivity. now destruct (N xs f). Qed.
Lemma OK_app f l : (forall xs b, f <> ELam xs b) -> OK f -> Forall OK l -> OK (EApp f l).
Proof.
  intros N Of Fo b t r code C G T To rs m ws k H W. rewrite cg_app_eq in C by assumption.
  assert (Li := g_lifted _ G). assert (L2 : lifted ls f /\ Forall (lifted ls) l) by (inversion Li; subst; [auto | now destruct (N ids b0)]). destruct L2 as (Lf & Ll). rewrite Forall_forall in Ll.
  assert (Pl : forall e, In e l -> In ([], e) (parts (EApp f l))) by (intros e I; right; now apply in_map_pair).
  assert (Cl : forall e, In e l -> incl (collect e) (collect (EApp f l))).
  { intros e I y J. assert (In y (flat_map collect l)) by (apply in_flat_map; eauto). destruct f as [x| | | | |xs bd| | |]; cbn [collect]; try (apply in_or_app; now right); [destruct (label_id x); [right|]; assumption | now destruct (N xs bd)]. }
  assert (Gl : Forall gok l) by (eapply gok_list; eauto).
  assert (T2 : b = true /\ tails false f /\ Forall (tails false) l).
  { assert (tails b (EApp f l) = (b = true /\ tails false f /\ fold_right (fun e q => tails false e /\ q) True l)) by (destruct f; try reflexivity; now destruct (N xs f)). rewrite H0 in T. destruct T as (T1 & T2 & T3). auto using fold_tails. }
  destruct T2 as (-> & Tf & Tl). assert (Hl := envrel_list _ _ _ _ _ H Pl).
  assert (E : explicit (EApp f l) = EApp (explicit f) (map explicit l)) by (destruct f; cbn [explicit]; rewrite ?wraps_nil; try reflexivity; now destruct (N xs f)). rewrite E.
  assert (J : cg_jump f l r = Some code -> cres true t (length r) m k (Ev (EApp (explicit f) (map explicit l)) rs k ws) (exec code m)).
  { intros Cj. eapply cres_star; [apply star_one, st_args; reflexivity|]. apply (jump_ok f l); auto.
    - constructor; [|assumption]. apply (gok_part _ f G); [now left | assumption|]. intros y I. destruct f as [x| | | | |xs bd| | |]; cbn [collect]; try (apply in_or_app; now left); [easy | now destruct (N xs bd)].
    - intros e [<-|I]; [|auto]. eapply envrel_part; [exact H | now left | reflexivity]. }
  destruct f as [x| | | | |xs bd| | |]; auto. cbn [explicit] in *.
  assert (S0 : forall v, read_var MDirect rs x ws = Some v -> star (Ev (EApp (EVar x) (map explicit l)) rs k ws) (Args OApp (SDone v :: map STodo (map explicit l)) rs k ws)).
  { intros v Rv. eapply to_args; [reflexivity|]. cbn [map]. eapply (pick_ret OApp [] (EVar x) (map STodo (map explicit l)) rs k ws); [apply star_one, st_var, Rv | constructor]. }
  destruct (label_id x) eqn:Lx.
  - destruct (memq x ls) eqn:M; [|discriminate]. apply memq_In in M. destruct (label_value x M) as (i & Ni & Lk).
    eapply cres_star; [apply (S0 (VFix ls lamsE i []))|].
    + assert (V : var_rel rs r m x) by (apply H; [eapply free_part; [now left | easy | apply free_here, nm_ref] | now apply label_local]). unfold var_rel in V. destruct (in_dec id_dec x ls); [|easy].
      apply read_local; [now apply label_local | congruence | discriminate].
    + apply (goto_ok (VFix ls lamsE i []) x l); auto. right. now apply cl_fix.
  - destruct (gc_label gcl x) as [lb|] eqn:Gc; [|auto]. destruct (gc_defined ls gcl x lb) eqn:Gd; [|discriminate].
    unfold gc_label in Gc. destruct (find (fun p => id_eqb x (snd p)) gcl) as [(lb' & x')|] eqn:Fi; [|discriminate]. injection Gc as ->. apply find_some in Fi. destruct Fi as (I & Ex). apply id_eqb_eq in Ex. cbn in Ex. subst x'.
    destruct (global_id x) eqn:Gx.
    + eapply cres_star; [apply (S0 (gl ws x)); unfold read_var; now rewrite Gx|]. apply (goto_ok (gl ws x) lb l); auto. destruct W as (_ & Cs). destruct (Cs lb x I) as [?|?]; [now left | right; now apply cl_clo].
    + rewrite (gcl_glob _ _ I) in Gx. discriminate.
Qed.

(** ** [let] *)
Definition loc (r : renv) (m : mach) (x : id) (v : val) : Prop :=
  match cvar_type x with
  | Some _ => exists u, assq x (cvs m) = Some u /\ vrel v u
  | None => exists p, rposq x r = Some p /\ vrel v (regs m (length r - p - 1)%nat)
  end.
Lemma loc_push r m m1 x y v u : loc r m y v -> y <> x -> keeps (length r) m m1 -> loc (Some x :: r) (mkmach (upd (regs m1) (length r) u) (cvs m1) (world m1)) y v.
Proof.
  unfold loc. intros L N (A & B). destruct (cvar_type y); [cbn [cvs]; now rewrite B|]. destruct L as (p & E & V). exists (S p). cbn [rposq regs length].
  destruct (id_eqb x y) eqn:Q; [apply id_eqb_eq in Q; congruence|]. rewrite E. split; [reflexivity|]. assert (Lt := rposq_lt _ _ _ E). unfold upd.
  replace (S (length r) - S p - 1)%nat with (length r - p - 1)%nat by lia. destruct (Nat.eqb_spec (length r - p - 1) (length r)); [lia|]. rewrite A by lia. exact V.
Qed.
Lemma loc_block r m m1 x y v u : loc r m y v -> y <> x -> (forall i, (i < length r)%nat -> regs m1 i = regs m i) -> cvs m1 = (x, u) :: cvs m -> loc r m1 y v.
Proof.
  unfold loc. intros L N A B. destruct (cvar_type y).
  - rewrite B. cbn [assq]. destruct (id_eqb y x) eqn:Q; [apply id_eqb_eq in Q; congruence | exact L].
  - destruct L as (p & E & V). exists p. split; [assumption|]. assert (Lt := rposq_lt _ _ _ E). rewrite A by lia. exact V.
Qed.
Lemma var_loc rs r m x r' m' : (forall v, loc r m x v -> loc r' m' x v) -> var_rel rs r m x -> var_rel rs r' m' x.
Proof. intros H. unfold var_rel. destruct (in_dec id_dec x ls); [auto|]. intros (v & L & V). exists v. split; [assumption|]. exact (H v V). Qed.
Definition leave (q : result) : result :=
  match q with
  | RGo m' => RGo (mkmach (regs m') (tl (cvs m')) (world m'))
  | RHalt v w => RHalt v w
  | RGoto lab n r w => RGoto lab n r w
  | RJump n r w => RJump n r w
  | RFail => RFail
  end.
Lemma block_ok b t n m m2 k s res x u : cres b t n m2 k s res -> (forall i, (i < n)%nat -> regs m2 i = regs m i) -> cvs m2 = (x, u) :: cvs m -> match t with TCvar y _ => y <> x | _ => True end ->
  cres b t n m k s (leave res).
Proof.
  intros C A B T. destruct C as [res W|v u1 ws m1 Bf S1 V W (K1 & K2)|v u1 ws w S1 V W|lab f vs r ws w rs Bf S1 C V W|f vs r ws w rs Bf S1 V W].
  - now apply c_wrong.
  - assert (E : leave (go (store t u1 m1)) = go (store t u1 (mkmach (regs m1) (cvs m) (world m1)))).
    { rewrite B in K2. destruct t as [|i|y|y ty]; cbn [Spec_CodeGen.store cvs regs world go tl leave]; rewrite ?K2; try reflexivity. destruct (run (P (conv ty)) [u1] (world m1)) as [(v' & w')|]; [|reflexivity]. cbn [set_cv].
      destruct (id_eqb y x) eqn:Q; [apply id_eqb_eq in Q; congruence|]. destruct (set_cv (cvs m) y v') as [c|]; reflexivity. }
    rewrite E. eapply c_go; eauto. split; [cbn; intros i I; rewrite K1, A by lia; reflexivity | reflexivity].
  - eapply c_halt; eauto.
  - eapply c_goto; eauto.
  - eapply c_jump; eauto.
Qed.
Lemma loc_list r m r' m' dn vs : Forall2 (loc r m) dn vs -> (forall y v, In y dn -> loc r m y v -> loc r' m' y v) -> Forall2 (loc r' m') dn vs.
Proof. induction 1 as [|y v dn vs L F IH]; intros H; constructor; [apply H; [now left | assumption] | apply IH; intros; apply H; [now right | assumption]]. Qed.
Lemma lets_ok IDS b0 b t k rs : NoDup IDS -> (forall x, In x IDS -> ~ In x ls /\ local x /\ match t with TCvar y _ => y <> x | _ => True end) -> OK b0 -> gok b0 -> tails b b0 -> tok t b0 ->
  forall l ids r code m ws vs dn, length ids = length l -> IDS = dn ++ ids -> Forall OK l -> Forall gok l -> Forall (tails false) l ->
  (forall e x, In e l -> In x IDS -> ~ In x (binders e) /\ ~ free_in x e) -> (forall e, In e l -> envrel e rs r m) ->
  Forall2 (loc r m) dn vs -> (forall y, free_in y b0 -> global_id y = false -> ~ In y IDS -> var_rel rs r m y) ->
  cg_lets ids (map cg l) r (fun r' => cg b0 t r') = Some code -> R ws (world m) ->
  cres b t (length r) m k (Args OApp (map SDone (VClo IDS (explicit b0) rs :: vs) ++ map STodo (wraps ids (map explicit l))) rs k ws) (exec code m).
Proof.
  intros ND Hid Ob Gb Tb Kb. induction l as [|e l IH]; intros ids r code m ws vs dn Le Ei Fo Fg Ft Hn He Hp Hb C W.
  - destruct ids; [|discriminate]. rewrite app_nil_r in Ei. subst dn. cbn [cg_lets map wraps] in *. rewrite app_nil_r.
    destruct (bind_direct IDS vs rs (hp ws) (Forall2_len _ _ _ Hp)) as (r1 & B & Bi & Bo).
    eapply cres_star; [apply star_one; apply (st_fire P MDirect OApp (VClo IDS (explicit b0) rs :: vs)); eapply fi_call; exact B|]. rewrite set_hp_same. apply (Ob b t r code C Gb Tb Kb r1 m ws k); [|assumption].
    intros y Fy Gy. destruct (in_dec id_dec y IDS) as [I|I].
    + unfold var_rel. destruct (in_dec id_dec y ls) as [J|_]; [now destruct (Hid y I)|]. apply In_nth_error in I. destruct I as (i & Ni). destruct (Forall2_nth _ _ _ _ _ Hp Ni) as (v & Nv & L). exists v. rewrite (Bi ND i y Ni). split; [assumption | exact L].
    + assert (V := Hb y Fy Gy I). unfold var_rel in *. now rewrite (Bo y I).
  - destruct ids as [|x ids]; [discriminate|]. injection Le as Le. inversion Fo as [|? ? Oe Fo']; subst. inversion Fg as [|? ? Ge Fg']; subst. inversion Ft as [|? ? Te Ft']; subst.
    set (IDS := dn ++ x :: ids) in *. assert (Ix : In x IDS) by (apply in_or_app; right; now left). destruct (Hid x Ix) as (Nx & Lx & Tx). destruct (Hn e x (or_introl eq_refl) Ix) as (Bx & Fx).
    assert (EI : IDS = (dn ++ [x]) ++ ids) by (unfold IDS; now rewrite <- app_assoc).
    assert (Dx : ~ In x dn). { intros I. unfold IDS in ND. apply NoDup_remove_2 in ND. apply ND, in_or_app. now left. }
    set (F := VClo IDS (explicit b0) rs) in *. cbn [cg_lets map wraps] in *. unfold cvar_type in C. unfold local in Lx. rewrite Lx in C.
    set (we := match xt x with XC t => EPrim ENo (conv t) [explicit e] | _ => explicit e end) in *. set (S0 := Args OApp _ rs k ws).
    set (k1 := Fr OApp (map SDone (F :: vs)) (map STodo (wraps ids (map explicit l))) rs :: k).
    assert (Wr : wrong (Ev we rs k1 ws) -> wrong S0) by (intros X; apply pick_wrong; exact X).
    assert (St : forall s, star (Ev we rs k1 ws) s -> star S0 s) by (intros s X; econstructor; [apply st_pick | exact X]).
    assert (Rt : forall v ws1, star (Ev we rs k1 ws) (Ret v k1 ws1) -> star S0 (Args OApp (map SDone (F :: vs ++ [v]) ++ map STodo (wraps ids (map explicit l))) rs k ws1)).
    { intros v ws1 X. eapply pick_ret; [exact X|]. replace (map SDone (F :: vs ++ [v]) ++ map STodo (wraps ids (map explicit l))) with (map SDone (F :: vs) ++ SDone v :: map STodo (wraps ids (map explicit l))); [constructor|].
      cbn [map app]. rewrite map_app, <- app_assoc. reflexivity. }
    assert (Hn' : forall d y, In d l -> In y IDS -> ~ In y (binders d) /\ ~ free_in y d) by (intros; apply Hn; [now right | assumption]).
    assert (Cv : (exists ty, xt x = XC ty /\ cvar_type x = Some ty) \/ (cvar_type x = None /\ we = explicit e)).
    { unfold we, cvar_type. rewrite Lx. destruct (xt x); eauto. }
    destruct Cv as [(ty & Xt & Ct)|(Ct & Ew)].
    + unfold we in *. rewrite Xt in *. unfold kseq in C. destruct (cg e (TCvar x ty) r) as [ce|] eqn:Ce; [|discriminate].
      destruct (cg_lets ids (map cg l) r (fun r' => cg b0 t r')) as [code'|] eqn:Cl; [|discriminate]. injection C as <-.
      set (m0 := mkmach (regs m) ((x, junk x) :: cvs m) (world m)). set (k2 := Fr (OPrim ENo (conv ty)) [] [] rs :: k1).
      assert (He0 : envrel e rs r m0). { intros y Fy Gy. eapply var_loc; [|apply (He e (or_introl eq_refl)); assumption]. intros v L. apply (loc_block r m m0 x y v (junk x)); [exact L | intros ->; contradiction | reflexivity | reflexivity]. }
      assert (Cr := Oe false _ _ _ Ce Ge Te Bx rs m0 ws k2 He0 W).
      assert (St2 : forall s, star (Ev (explicit e) rs k2 ws) s -> star S0 s).
      { intros s X. apply St. eapply to_args; [reflexivity|]. econstructor; [apply (st_pick P MDirect (OPrim ENo (conv ty)) [] (explicit e) [])|exact X]. }
      change (exec (KBlock x (KSeq ce code')) m) with (leave (match exec ce m0 with RGo m' => exec code' m' | q => q end)).
      inversion Cr as [res Wx|v u ws1 m1 _ S V W1 Kp Er|v u ws1 w1 S V W1 Er|lab f vs0 rr ws1 w1 rs1 B|f vs0 rr ws1 w1 rs1 B]; try discriminate.
      * apply c_wrong. apply Wr. eapply args_wrong; [reflexivity|]. apply (pick_wrong (OPrim ENo (conv ty)) [] (explicit e) [] rs k1 ws). exact Wx.
      * assert (Sv : star S0 (Args (OPrim ENo (conv ty)) (map SDone [v]) rs k1 ws1)).
        { eapply star_trans; [apply St2, S|]. apply star_one. apply (st_ret P MDirect v (OPrim ENo (conv ty)) [] [] rs k1 ws1). }
        destruct (run (P (conv ty)) [v] ws1) as [(v1 & ws2)|] eqn:Rv.
        2:{ apply c_wrong. eapply wrong_star; [exact Sv|]. apply stuck_fire. intros s Fi. inversion Fi; subst; congruence. }
        destruct (run_R (P (conv ty)) [v] [u] ws1 (world m1) v1 ws2 W1 (Forall2_cons _ _ V (Forall2_nil _)) Rv) as (u1 & w2 & Ru & _).
        assert (X1 := conv_id _ _ _ _ Rv). assert (X2 := conv_id _ _ _ _ Ru). injection X1 as -> ->. injection X2 as -> ->.
        cbn [Spec_CodeGen.store]. rewrite Ru. destruct Kp as (Ka & Kc). rewrite Kc. unfold m0 at 1. cbn [cvs set_cv]. rewrite id_eqb_refl. cbn [go].
        set (m2 := mkmach (regs m1) ((x, u) :: cvs m) (world m1)).
        assert (A2 : forall i, (i < length r)%nat -> regs m2 i = regs m i) by (intros i I; exact (Ka i I)).
        apply block_ok with (m2 := m2) (x := x) (u := u); [| exact A2 | reflexivity | exact Tx].
        eapply cres_star; [apply (Rt v ws1); eapply star_trans; [|apply star_one]|].
        { eapply to_args; [reflexivity|]. econstructor; [apply (st_pick P MDirect (OPrim ENo (conv ty)) [] (explicit e) [])|]. eapply star_trans; [exact S|]. apply star_one. apply (st_ret P MDirect v (OPrim ENo (conv ty)) [] [] rs k1 ws1). }
        { cbn [app]. change [SDone v] with (map SDone [v]). apply st_fire. constructor; [apply conv_not_halt | exact Rv]. }
        apply (IH ids r code' m2 ws1 (vs ++ [v]) (dn ++ [x])); auto.
        -- intros d I y Fy Gy. eapply var_loc; [|apply (He d (or_intror I)); assumption]. intros v0 L. apply (loc_block r m m2 x y v0 u); [exact L | intros ->; now apply (Hn' d x I Ix) | exact A2 | reflexivity].
        -- apply Forall2_app; [|constructor; [|constructor]].
           ++ eapply loc_list; [exact Hp|]. intros y v0 I L. apply (loc_block r m m2 x y v0 u); [exact L | intros ->; now apply Dx | exact A2 | reflexivity].
           ++ unfold loc. rewrite Ct. exists u. split; [cbn; now rewrite id_eqb_refl | exact V].
        -- intros y Fy Gy Iy. eapply var_loc; [|apply Hb; assumption]. intros v0 L. apply (loc_block r m m2 x y v0 u); [exact L | intros ->; apply Iy, Ix | exact A2 | reflexivity].
      * eapply c_halt; [apply St2, S | exact V | exact W1].
    + replace (match match xt x with XC t1 => Some t1 | _ => None end with
             | Some t1 => option_map (KBlock x) (kseq (cg e (TCvar x t1) r) (cg_lets ids (map cg l) r (fun r' => cg b0 t r')))
             | None => kseq (cg e (TReg (length r)) r) (cg_lets ids (map cg l) (Some x :: r) (fun r' => cg b0 t r')) end)
        with (kseq (cg e (TReg (length r)) r) (cg_lets ids (map cg l) (Some x :: r) (fun r' => cg b0 t r'))) in C by (unfold cvar_type in Ct; rewrite Lx in Ct; now rewrite Ct).
      clearbody we. subst we. unfold kseq in C. destruct (cg e (TReg (length r)) r) as [ce|] eqn:Ce; [|discriminate].
      destruct (cg_lets ids (map cg l) (Some x :: r) (fun r' => cg b0 t r')) as [code'|] eqn:Cl; [|discriminate]. injection C as <-.
      assert (Cr := Oe false _ _ _ Ce Ge Te Logic.I rs m ws k1 (He e (or_introl eq_refl)) W).
      cbn [Spec_CodeGen.exec]. inversion Cr as [res Wx|v u ws1 m1 _ S V W1 Kp Er|v u ws1 w1 S V W1 Er|lab f vs0 rr ws1 w1 rs1 B|f vs0 rr ws1 w1 rs1 B]; try discriminate.
      * apply c_wrong. apply Wr. exact Wx.
      * cbn [Spec_CodeGen.store go] in Er |- *. set (m2 := mkmach (upd (regs m1) (length r) u) (cvs m1) (world m1)) in *.
        assert (K2 : keeps (length r) m m2). { destruct Kp as (Ka & Kc). split; [|exact Kc]. intros i I. cbn. unfold upd. destruct (Nat.eqb_spec i (length r)); [lia | auto]. }
        apply cres_keeps with (length (Some x :: r)) m2; [cbn; lia | exact K2|].
        eapply cres_star; [apply (Rt v ws1), S|].
        apply (IH ids (Some x :: r) code' m2 ws1 (vs ++ [v]) (dn ++ [x])); auto.
        -- intros d I y Fy Gy. eapply var_loc; [|apply (He d (or_intror I)); assumption]. intros v0 L. apply loc_push with m; [exact L | intros ->; now apply (Hn' d x I Ix) | exact Kp].
        -- apply Forall2_app; [|constructor; [|constructor]].
           ++ eapply loc_list; [exact Hp|]. intros y v0 I L. apply loc_push with m; [exact L | intros ->; now apply Dx | exact Kp].
           ++ unfold loc. rewrite Ct. exists O. cbn [rposq]. rewrite id_eqb_refl. split; [reflexivity|]. cbn [regs length m2]. unfold upd. replace (Datatypes.S (length r) - 0 - 1)%nat with (length r) by lia. now rewrite Nat.eqb_refl.
        -- intros y Fy Gy Iy. eapply var_loc; [|apply Hb; assumption]. intros v0 L. apply loc_push with m; [exact L | intros ->; apply Iy, Ix | exact Kp].
      * eapply c_halt; [apply St, S | exact V | exact W1].
Qed.

Definition wrapx (x : id) (e : exp) : exp := match xt x with XC t => EPrim ENo (conv t) [e] | _ => e end.
Lemma wrap_run x e rs k ws : exists k', (wrong (Ev e rs k' ws) -> wrong (Ev (wrapx x e) rs k ws)) /\ (forall v w, star (Ev e rs k' ws) (Halted v w) -> star (Ev (wrapx x e) rs k ws) (Halted v w)) /\
  forall v ws1, star (Ev e rs k' ws) (Ret v k' ws1) -> wrong (Ev (wrapx x e) rs k ws) \/ star (Ev (wrapx x e) rs k ws) (Ret v k ws1).
Proof.
  unfold wrapx. destruct (xt x) as [| | |ty]; try (exists k; now auto). exists (Fr (OPrim ENo (conv ty)) [] [] rs :: k). split; [|split].
  - intros X. eapply args_wrong; [reflexivity|]. apply (pick_wrong (OPrim ENo (conv ty)) [] e [] rs k ws). exact X.
  - intros v w X. eapply to_args; [reflexivity|]. econstructor; [apply (st_pick P MDirect (OPrim ENo (conv ty)) [] e [])|exact X].
  - intros v ws1 X. assert (Y : forall s, star (Args (OPrim ENo (conv ty)) (map SDone [v]) rs k ws1) s -> star (Ev (EPrim ENo (conv ty) [e]) rs k ws) s).
    { intros s Z. eapply to_args; [reflexivity|]. eapply (pick_ret (OPrim ENo (conv ty)) [] e [] rs k ws); [exact X | exact Z]. }
    destruct (run (P (conv ty)) [v] ws1) as [(v1 & ws2)|] eqn:Rv.
    + assert (X1 := conv_id _ _ _ _ Rv). injection X1 as -> ->. right. apply Y. apply star_one, st_fire. constructor; [apply conv_not_halt | exact Rv].
    + left. eapply wrong_star; [apply Y; constructor|]. apply stuck_fire. intros s Fi. inversion Fi; subst; congruence.
Qed.
Lemma let_start xs bd l rs k ws s : star (Args OApp (SDone (VClo xs (explicit bd) rs) :: map STodo (wraps xs (map explicit l))) rs k ws) s -> star (Ev (explicit (EApp (ELam xs bd) l)) rs k ws) s.
Proof.
  intros X. cbn [explicit]. eapply to_args; [reflexivity|]. cbn [map]. eapply (pick_ret OApp [] (ELam xs (explicit bd)) (map STodo (wraps xs (map explicit l))) rs k ws); [apply star_one, st_lam | exact X].
Qed.
Lemma let_wrong xs bd l rs k ws : wrong (Args OApp (SDone (VClo xs (explicit bd) rs) :: map STodo (wraps xs (map explicit l))) rs k ws) -> wrong (Ev (explicit (EApp (ELam xs bd) l)) rs k ws).
Proof. intros X. eapply wrong_star; [apply let_start; constructor | exact X]. Qed.
Lemma let1 x e1 bd rs k ws : let S0 := Ev (explicit (EApp (ELam [x] bd) [e1])) rs k ws in
  exists k', (wrong (Ev (explicit e1) rs k' ws) -> wrong S0) /\ (forall v w, star (Ev (explicit e1) rs k' ws) (Halted v w) -> star S0 (Halted v w)) /\
  forall v ws1, star (Ev (explicit e1) rs k' ws) (Ret v k' ws1) -> wrong S0 \/ star S0 (Ev (explicit bd) ((x, v) :: rs) k ws1).
Proof.
  intros S0. set (F := VClo [x] (explicit bd) rs). set (k1 := Fr OApp [SDone F] [] rs :: k). destruct (wrap_run x (explicit e1) rs k1 ws) as (k' & A & B & C).
  assert (Wr : wrong (Ev (wrapx x (explicit e1)) rs k1 ws) -> wrong S0). { intros X. apply let_wrong. apply (pick_wrong OApp [SDone F] (wrapx x (explicit e1)) [] rs k ws). exact X. }
  exists k'. split; [auto|]. split.
  - intros v w X. apply let_start. econstructor; [apply (st_pick P MDirect OApp [SDone F] (wrapx x (explicit e1)) [])|]. apply B. exact X.
  - intros v ws1 X. destruct (C v ws1 X) as [Y|Y]; [left; auto|]. right. apply let_start. eapply (pick_ret OApp [SDone F] (wrapx x (explicit e1)) [] rs k ws); [exact Y|].
    apply star_one. cbn [app]. change [SDone F; SDone v] with (map SDone [F; v]). apply st_fire. assert (E : set_hp ws1 (hp ws1) = ws1) by apply set_hp_same. rewrite <- E at 2. now apply fi_call.
Qed.
Definition cg_let (xs : list id) (bd : exp) (l : list exp) (t : tgt) (r : renv) : option code :=
  let e := EApp (ELam xs bd) l in
  match degenerate_let e with
  | Some _ => match xs, l with [], _ => cg bd t r | _, e1 :: _ => cg e1 t r | _, _ => None end
  | None =>
    match begin_view e with
    | Some (e1, _) =>
      match l with
      | d :: _ =>
        match e1 with
        | ESet x c =>
          match curry_view c with
          | Some (lb, _, []) => if global_id x && memq lb ls then kseq (Some (KStatic x lb)) (cg bd t r) else None
          | _ => kseq (cg d TVoid r) (cg bd t r)
          end
        | _ => kseq (cg d TVoid r) (cg bd t r)
        end
      | [] => None
      end
    | None => cg_lets xs (map cg l) r (fun r' => cg bd t r')
    end
  end.
Lemma cg_let_eq xs bd l t r : length xs = length l -> cg (EApp (ELam xs bd) l) t r = cg_let xs bd l t r.
Proof.
  intros L. change (cg (EApp (ELam xs bd) l) t r) with (if Nat.eqb (length xs) (length l) then cg_let xs bd l t r else cg_jump (ELam xs bd) l r). rewrite L, Nat.eqb_refl. reflexivity.
Qed.

Lemma curry_inv c lb ys rands : curry_view c = Some (lb, ys, rands) -> exists zs, c = ELam ys (EApp (EVar lb) zs) /\ rands = skipn (length ys) zs.
Proof.
  unfold curry_view. destruct c as [| | | | |xs [| | | |[] zs| | | |]| | |]; try discriminate. destruct (_ && _); [|discriminate]. intros [= <- <- <-]. eauto.
Qed.
Lemma collect_let xs bd l : length xs = length l -> incl (flat_map collect l ++ collect bd) (collect (EApp (ELam xs bd) l)).
Proof.
  intros L. assert (E : collect (EApp (ELam xs bd) l) =
    match begin_view (EApp (ELam xs bd) l) with
    | Some (ESet x c, _) =>
      match curry_view c with
      | Some (lb, ys, []) => if global_id x then FCurry lb ys O :: FStatic x lb :: collect bd else flat_map collect l ++ collect bd
      | _ => flat_map collect l ++ collect bd
      end
    | _ => flat_map collect l ++ collect bd
    end) by (cbn [collect]; rewrite L, Nat.eqb_refl; reflexivity).
  rewrite E. clear E. destruct (begin_view _) as [(e1 & e2)|] eqn:B; [|apply incl_refl]. destruct (Proofs_FoldWf.begin_view_inv _ _ _ B) as (x & [= -> -> ->] & _).
  destruct e1 as [|x0 c| | | | | | |]; try apply incl_refl. destruct (curry_view c) as [((lb & ys) & [|? ?])|] eqn:V; try apply incl_refl. destruct (global_id x0); [|apply incl_refl].
  destruct (curry_inv _ _ _ _ V) as (zs & -> & Z). intros f I. apply in_app_or in I. destruct I as [I|I]; [|right; now right]. cbn [flat_map] in I. rewrite app_nil_r in I.
  cbn [collect] in I. rewrite V in I. rewrite skipn_map, <- Z in I. cbn in I. destruct I as [<-|[]]. now left.
Qed.
Lemma OK_let xs bd l : OK bd -> Forall OK l -> OK (EApp (ELam xs bd) l).
Proof.
  intros Ob Fo b t r code C G T To rs m ws k H W. set (e := EApp (ELam xs bd) l) in *.
  assert (Li := g_lifted _ G). assert (L4 : length xs = length l /\ Forall local xs /\ Forall (lifted ls) l /\ lifted ls bd).
  { unfold e in Li. inversion Li as [| | | |f l0 Lf Nf| |]; subst; [now destruct (Nf xs bd) | auto]. } destruct L4 as (Len & Lx & Ll & Lb). rewrite Forall_forall in Lx, Ll.
  unfold e in C. rewrite cg_let_eq in C by assumption. fold e in C.
  assert (Pf : In ([], ELam xs bd) (parts e)) by now left. assert (Pl : forall d, In d l -> In ([], d) (parts e)) by (intros d I; right; now apply in_map_pair).
  assert (Cs := collect_let xs bd l Len). fold e in Cs.
  assert (Gl : Forall gok l). { eapply gok_list; [exact G | exact Pl | exact Ll|]. intros d I y J. apply Cs, in_or_app. left. apply in_flat_map. eauto. }
  destruct (tidy_part _ _ _ (g_tidy _ G) Pf) as (Tf & _). destruct (tidy_part _ _ _ Tf (or_introl eq_refl)) as (Tb & Hxs & _).
  assert (Gb : gok bd).
  { split; [assumption | assumption | |]. - intros lb ys n I. apply (g_fok _ G). apply Cs, in_or_app. now right. - eapply sok_part; [eapply sok_part; [exact (g_sok _ G) | exact Pf] | now left]. }
  assert (Kb : tok t bd) by (eapply tok_part; [eapply tok_part; [exact To | exact Pf] | now left]).
  assert (Tt : tails b bd /\ Forall (tails false) l).
  { unfold e in T. cbn [tails] in T. rewrite Len, Nat.eqb_refl in T. destruct T as (T1 & T2). auto using fold_tails. } destruct Tt as (Tb' & Tl).
  assert (Hl := envrel_list _ _ _ _ _ H Pl).
  assert (Nd : NoDup (binders e)) by apply (g_tidy _ G). cbn [binders e] in Nd.
  assert (Hn : forall d x, In d l -> In x xs -> ~ In x (binders d) /\ ~ free_in x d).
  { intros d x I J. split.
    - intros K. apply (Proofs_LetrecFix.nodup_no _ _ x Nd); [apply in_or_app; now left | apply in_flat_map; eauto].
    - intros K. apply (proj1 (proj2 (g_tidy _ G)) x); [eapply free_part; [apply Pl, I | easy | exact K]|]. cbn. apply in_or_app. left. apply in_or_app. now left. }
  assert (Hbd : forall y, free_in y bd -> global_id y = false -> ~ In y xs -> var_rel rs r m y).
  { intros y Fy Gy N. apply H; [|assumption]. eapply free_part; [exact Pf | easy|]. eapply free_part; [now left | exact N | exact Fy]. }
  unfold cg_let in C. fold e in C. destruct (degenerate_let e) as [d|] eqn:D.
  - destruct (Proofs_FoldWf.degenerate_inv _ _ D) as [Q|(x & Q)]; unfold e in Q.
    + injection Q as -> -> ->. eapply cres_star; [apply let_start; cbn [map wraps]; apply star_one; apply (st_fire P MDirect OApp [VClo [] (explicit d) rs]); now apply fi_call|].
      cbn [hp]. rewrite set_hp_same. apply (Ob b t r code C Gb Tb' Kb rs m ws k); [|assumption]. intros y Fy Gy. apply Hbd; auto.
    + injection Q as -> -> ->. inversion Fo as [|? ? Oe _]; subst. inversion Gl as [|? ? Ge _]; subst. inversion Tl as [|? ? Te _]; subst. cbn [tails] in Tb'. subst b.
      destruct (let1 x d (EVar x) rs k ws) as (k' & A & B & Cc).
      assert (Cr := Oe false t r code C Ge Te (tok_part _ _ _ _ To (Pl d (or_introl eq_refl))) rs m ws k' (Hl d (or_introl eq_refl)) W).
      inversion Cr as [res Wx|v u ws1 m1 _ S V W1 Kp Er|v u ws1 w1 S V W1 Er|lab f vs0 rr ws1 w1 rs1 Bq|f vs0 rr ws1 w1 rs1 Bq]; try discriminate.
      * apply c_wrong. auto.
      * destruct (Cc v ws1 S) as [X|X]; [now apply c_wrong|]. eapply c_go; [reflexivity | | exact V | exact W1 | exact Kp]. eapply star_trans; [exact X|]. apply star_one, st_var, read_local.
        -- apply Lx. now left.
        -- unfold lookup. cbn. now rewrite id_eqb_refl.
        -- eapply vrel_not_ref; eauto.
      * eapply c_halt; [apply B, S | exact V | exact W1].
  - clear D. destruct (begin_view e) as [(e1 & e2)|] eqn:Bv.
    + destruct (Proofs_FoldWf.begin_view_inv _ _ _ Bv) as (x & Q & Nx). unfold e in Q. injection Q as -> -> ->.
      inversion Fo as [|? ? Oe _]; subst. inversion Gl as [|? ? Ge _]; subst. inversion Tl as [|? ? Te _]; subst. destruct (let1 x e1 e2 rs k ws) as (k' & A & B & Cc).
      assert (He2 : forall v m1, (forall y v, loc r m y v -> loc r m1 y v) -> envrel e2 ((x, v) :: rs) r m1).
      { intros v m1 Hm y Fy Gy. assert (y <> x) by (intros ->; now apply Nx). assert (V := Hbd y Fy Gy ltac:(intros [->|[]]; contradiction)).
        unfold var_rel in *. unfold lookup in *. cbn [assq]. destruct (id_eqb y x) eqn:Q; [apply id_eqb_eq in Q; contradiction|]. destruct (in_dec id_dec y ls); [assumption|]. destruct V as (v0 & L0 & V). exists v0. split; [assumption | exact (Hm _ _ V)]. }
      assert (Hk : forall m1, keeps (length r) m m1 -> forall y v, loc r m y v -> loc r m1 y v).
      { intros m1 (K1 & K2) y v. unfold loc. destruct (cvar_type y); [now rewrite K2|]. intros (p & E & V). exists p. split; [assumption|]. rewrite K1; [assumption|]. apply rposq_lt in E. lia. }
      assert (Gen : kseq (cg e1 TVoid r) (cg e2 t r) = Some code -> cres b t (length r) m k (Ev (explicit e) rs k ws) (exec code m)).
      { unfold kseq. destruct (cg e1 TVoid r) as [c1|] eqn:C1; [|discriminate]. destruct (cg e2 t r) as [c2|] eqn:C2; [|discriminate]. intros [= <-]. cbn [Spec_CodeGen.exec].
        assert (Cr := Oe false TVoid r c1 C1 Ge Te Logic.I rs m ws k' (Hl e1 (or_introl eq_refl)) W).
        inversion Cr as [res Wx|v u ws1 m1 _ S V W1 Kp Er|v u ws1 w1 S V W1 Er|lab f vs0 rr ws1 w1 rs1 Bq|f vs0 rr ws1 w1 rs1 Bq]; try discriminate.
        - apply c_wrong. auto.
        - destruct (Cc v ws1 S) as [X|X]; [now apply c_wrong|]. cbn [Spec_CodeGen.store go]. eapply cres_star; [exact X|]. apply cres_keeps with (length r) m1; [lia | exact Kp|].
          apply (Ob b t r c2 C2 Gb Tb' Kb); auto.
        - eapply c_halt; [apply B, S | exact V | exact W1]. }
      destruct e1 as [|x0 c| | | | | | |]; auto. destruct (curry_view c) as [((lb & ys) & [|? ?])|] eqn:V; auto. clear Gen.
      destruct (global_id x0) eqn:Gx; [|discriminate]. cbn [andb] in C. destruct (memq lb ls) eqn:M; [|discriminate]. unfold kseq in C. destruct (cg e2 t r) as [c2|] eqn:C2; [|discriminate]. injection C as <-.
      destruct (curry_inv _ _ _ _ V) as (zs & -> & Z). assert (Lc : lifted ls (ELam ys (EApp (EVar lb) zs))) by (assert (Lc := g_lifted _ Ge); inversion Lc; now subst).
      destruct (lifted_lam_inv _ _ Lc) as (t0 & cs & [= <- ->] & _).
      assert (cs = []). { rewrite map_app, <- (map_length EVar ys), skipn_app_len in Z. now destruct cs. } subst cs.
      assert (Gc : gok (ELam ys (EApp (EVar lb) (map EVar (ys ++ []))))) by (apply (gok_part _ _ Ge); [now left | exact Lc | intros y; auto]).
      assert (Cc2 : cg (ELam ys (EApp (EVar lb) (map EVar (ys ++ [])))) TVoid r = Some (KClo TVoid lb [])).
      { set (c := ELam ys (EApp (EVar lb) (map EVar (ys ++ [])))) in *.
        change (cg c TVoid r) with (match curry_view c with Some _ => if memq lb ls then cg_primapp (rev (skipn (length ys) (pairs (map EVar (ys ++ []))))) r (fun cs _ => KClo TVoid lb cs) else None | None => None end).
        rewrite V, M. unfold pairs. rewrite skipn_map, <- Z. reflexivity. }
      assert (Hc := envrel_part _ _ _ _ _ _ (Hl _ (or_introl eq_refl)) (or_introl eq_refl) eq_refl).
      destruct (lam_code _ _ _ _ _ _ rs m ws Cc2 Gc Hc W) as (us & Lu & _ & Vc). destruct us; [|discriminate]. cbn [Spec_CodeGen.exec].
      unfold e. clear e G T To Bv H Li Pf Pl Cs. rewrite app_nil_r in *. set (F := VClo ys (EApp (EVar lb) (map EVar ys)) rs) in *.
      assert (Rw : R (set_gl ws x0 F) (set_gl (world m) x0 (clo lb []))).
      { apply R_set; auto. intros lb' J. destruct (g_sok _ Ge x0 _ lb' (po_here _) J) as (ys' & [= <- <- _]). exact Vc. }
      destruct (Cc (VC CVoid) (set_gl ws x0 F)) as [X|X].
      * cbn [explicit]. rewrite wraps_nil, map_map. cbn [explicit]. eapply to_args; [reflexivity|]. apply (pick_ret (OSet x0) [] (ELam ys (EApp (EVar lb) (map EVar ys))) [] rs k' ws F ws); [apply star_one, st_lam|].
        apply star_one. cbn [app]. change [SDone F] with (map SDone [F]). apply st_fire. now constructor.
      * now apply c_wrong.
      * eapply cres_star; [exact X|]. apply cres_keeps with (length r) (set_world m (set_gl (world m) x0 (clo lb []))); [lia | apply keeps_world|].
        apply (Ob b t r c2 C2 Gb Tb' Kb); auto using keeps_world.
    + eapply cres_star; [apply let_start; constructor|]. apply (lets_ok xs bd b t k rs) with (l := l) (dn := []) (vs := []); auto.
      * eapply Proofs_LetrecFix.nodup_l, Proofs_LetrecFix.nodup_l. exact Nd.
      * intros x I. split; [|split; [auto|]].
        -- apply (proj2 (proj2 (g_tidy _ G))). cbn. apply in_or_app. left. apply in_or_app. now left.
        -- destruct t as [| | |y ty]; auto. intros ->. apply To. cbn. apply in_or_app. left. apply in_or_app. now left.
Qed.
Lemma cg_ok e : OK e.
Proof.
  assert (Q : OK e /\ forall xs bd, e = ELam xs bd -> OK bd); [|apply Q].
  induction e as [x|x e IH|a b c IHa IHb IHc|ef p l IH|f l IHf IH|xs b IH|xs lams0 b _ IH|x b IH|k e IHk IHe] using exp_ind2; (split; [|intros xs0 bd0 E; try discriminate]).
  - apply OK_var.
  - now apply OK_set.
  - now apply OK_if.
  - apply OK_prim. eapply Forall_impl; [|exact IH]. cbn. tauto.
  - assert (Fo : Forall OK l) by (eapply Forall_impl; [|exact IH]; cbn; tauto).
    destruct f as [| | | | |xs bd| | |]; try (apply OK_app; [discriminate | apply IHf | assumption]). apply OK_let; [|assumption]. now apply (proj2 IHf xs).
  - apply OK_lam.
  - injection E as <- <-. apply IH.
  - intros bb t r code C. discriminate.
  - intros bb t r code C. discriminate.
  - intros bb t r code C. discriminate.
Qed.

End CodeGen.
