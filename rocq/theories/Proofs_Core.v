(** Facts about core expressions and the machine. *)
From Coq Require Import ZArith String List Bool Lia.
From Verif Require Import Model_Lit Model_Core Spec_Sem Proofs_Sim.
Import ListNotations.
Open Scope Z_scope.

Section Ind.
Variable Q : exp -> Prop.
Hypothesis HVar : forall x, Q (EVar x).
Hypothesis HSet : forall x e, Q e -> Q (ESet x e).
Hypothesis HIf : forall a b c, Q a -> Q b -> Q c -> Q (EIf a b c).
Hypothesis HPrim : forall ef p l, Forall Q l -> Q (EPrim ef p l).
Hypothesis HApp : forall f l, Q f -> Forall Q l -> Q (EApp f l).
Hypothesis HLam : forall xs b, Q b -> Q (ELam xs b).
Hypothesis HFix : forall xs ls b, Forall (fun l => Q (snd l)) ls -> Q b -> Q (EFix xs ls b).
Hypothesis HLetcc : forall x b, Q b -> Q (ELetcc x b).
Hypothesis HWithcc : forall k e, Q k -> Q e -> Q (EWithcc k e).
Fixpoint exp_ind2 (e : exp) : Q e :=
  match e with
  | EVar x => HVar x
  | ESet x e => HSet x e (exp_ind2 e)
  | EIf a b c => HIf a b c (exp_ind2 a) (exp_ind2 b) (exp_ind2 c)
  | EPrim ef p l => HPrim ef p l ((fix go l : Forall Q l := match l with [] => Forall_nil _ | e :: l' => Forall_cons _ (exp_ind2 e) (go l') end) l)
  | EApp f l => HApp f l (exp_ind2 f) ((fix go l : Forall Q l := match l with [] => Forall_nil _ | e :: l' => Forall_cons _ (exp_ind2 e) (go l') end) l)
  | ELam xs b => HLam xs b (exp_ind2 b)
  | EFix xs ls b =>
    HFix xs ls b ((fix go l : Forall (fun l => Q (snd l)) l :=
      match l with [] => Forall_nil _ | e :: l' => Forall_cons _ (exp_ind2 (snd e)) (go l') end) ls) (exp_ind2 b)
  | ELetcc x b => HLetcc x b (exp_ind2 b)
  | EWithcc k e => HWithcc k e (exp_ind2 k) (exp_ind2 e)
  end.
End Ind.

(** ** The last step of an operation as a function *)
Section Fire.
Variable P : prim -> script.
Variable m : mode.
Definition throwf (k' : kont) (vs : list val) (w : st) : option state :=
  match vs with
  | [v] => Some (Ret v k' w)
  | _ => match k' with [Fr (OWith _) [SDone p] [] _] => Some (Args OApp (map SDone (p :: vs)) [] trap w) | _ => None end
  end.
Lemma throwf_inv k' vs w s : throwf k' vs w = Some s -> (exists v, vs = [v] /\ s = Ret v k' w) \/
  exists e p r0, length vs <> 1%nat /\ k' = [Fr (OWith e) [SDone p] [] r0] /\ s = Args OApp (map SDone (p :: vs)) [] trap w.
Proof.
  intros E. destruct vs as [|v [|v2 vs]]; [right|left; injection E as <-; eauto|right]; cbn [throwf] in E;
    destruct k' as [|[[| | | |e] [|[p|] [|]] [|] r0] [|]]; try discriminate; injection E as <-; exists e, p, r0; (split; [cbn; congruence | auto]).
Qed.
Definition firef (o : oper) (vs : list val) (r : env) (k : kont) (w : st) : option state :=
  match o, vs with
  | OIf b c, [v] => Some (Ev (if is_true v then b else c) r k w)
  | OSet x, [v] =>
    if global_id x then Some (Ret (VC CVoid) k (set_gl w x v))
    else match lookup r x with
         | Some (VRef l) =>
           match nth_error (hp w) l, list_set (hp w) l [v] with Some [_], Some h => Some (Ret v k (set_hp w h)) | _, _ => None end
         | _ => None
         end
  | OPrim _ p, _ =>
    if zlist_dec p the_halt_prim then match vs with [v] => Some (Halted v w) | _ => None end
    else match run (P p) vs w with Some (v, w') => Some (Ret v k w') | None => None end
  | OApp, VClo xs b r0 :: vs => match bind m xs vs r0 (hp w) with Some (r', h) => Some (Ev b r' k (set_hp w h)) | None => None end
  | OApp, VFix ys lams i r0 :: vs =>
    match nth_error lams i with
    | Some (xs, b) =>
      match bind m xs vs (bind_fix ys lams r0) (hp w) with Some (r', h) => Some (Ev b r' k (set_hp w h)) | None => None end
    | None => None
    end
  | OApp, VCont k' :: vs => throwf k' vs w
  | OWith e, [v] => Some (Ev e r (kont_of v) w)
  | OWith e, [p; v] => Some (Args OApp (map SDone [p; v]) [] trap w)
  | _, _ => None
  end.
Lemma fire_firef o vs r k w s : fire P m o vs r k w s <-> firef o vs r k w = Some s.
Proof.
  split.
  - destruct 1; cbn [firef]; try reflexivity.
    + now rewrite H.
    + now rewrite H, H0, H1, H2.
    + destruct (zlist_dec p the_halt_prim); [easy|]. rewrite H0. reflexivity.
    + now rewrite H.
    + now rewrite H, H0.
    + destruct vs as [|v [|v2 vs]]; [reflexivity | now contradiction H | reflexivity].
  - destruct o as [b c|x|ef p| |e]; cbn [firef]; intros E.
    + destruct vs as [|v [|]]; try discriminate. injection E as <-. constructor.
    + destruct vs as [|v [|]]; try discriminate. destruct (global_id x) eqn:G.
      * injection E as <-. now constructor.
      * destruct (lookup r x) as [[]|] eqn:L; try discriminate. destruct (nth_error (hp w) l) as [[|u []]|] eqn:N; try discriminate.
        destruct (list_set (hp w) l [v]) eqn:H; [|discriminate].
        injection E as <-. econstructor; eauto.
    + destruct (zlist_dec p the_halt_prim) as [->|N].
      * destruct vs as [|v [|]]; try discriminate. injection E as <-. constructor.
      * destruct (run (P p) vs w) as [(v & w')|] eqn:R; [|discriminate]. injection E as <-. now constructor.
    + destruct vs as [|[c|l|l|xs b r0|ys lams i r0|k'] vs]; try discriminate.
      * destruct (bind m xs vs r0 (hp w)) as [(r' & h)|] eqn:B; [|discriminate]. injection E as <-. now constructor.
      * destruct (nth_error lams i) as [(xs & b)|] eqn:N; [|discriminate].
        destruct (bind m xs vs _ (hp w)) as [(r' & h)|] eqn:B; [|discriminate]. injection E as <-. econstructor; eauto.
      * apply throwf_inv in E. destruct E as [(v & -> & ->)|(e & p & r0 & N & -> & ->)]; [constructor | now constructor].
    + destruct vs as [|v [|v2 [|]]]; try discriminate; injection E as <-; constructor.
Qed.
Lemma fire_det o vs r k w s s' : fire P m o vs r k w s -> fire P m o vs r k w s' -> s = s'.
Proof. rewrite !fire_firef. congruence. Qed.

Lemma map_SDone_inj a b : map SDone a = map SDone b -> a = b.
Proof. revert b. induction a as [|x a IH]; intros [|y b]; cbn; try congruence. intros E. injection E as -> E. f_equal. auto. Qed.
Lemma done_todo vs a e b : map SDone vs <> a ++ STodo e :: b.
Proof. intros E. assert (I : In (STodo e) (map SDone vs)) by (rewrite E; apply in_elt). apply in_map_iff in I. destruct I as (? & ? & _). discriminate. Qed.
Lemma slots_cases l : (exists vs, l = map SDone vs) \/ exists a e b, l = a ++ STodo e :: b.
Proof.
  induction l as [|x l IH]; [left; now exists []|].
  destruct x as [v|e]; [|right; now exists [], e, l].
  destruct IH as [(vs & ->)|(a & e' & b & ->)]; [left; now exists (v :: vs) | right; now exists (SDone v :: a), e', b].
Qed.
Lemma step_args o l r k w t : step P m (Args o l r k w) t ->
  (exists a e b, l = a ++ STodo e :: b /\ t = Ev e r (Fr o a b r :: k) w) \/
  (exists vs, l = map SDone vs /\ fire P m o vs r k w t).
Proof. intros S. inversion S; subst; [left | right]; eauto 8. Qed.
Lemma step_done o vs r k w t : step P m (Args o (map SDone vs) r k w) t -> fire P m o vs r k w t.
Proof.
  intros S. apply step_args in S. destruct S as [(a & e & b & E & _)|(vs' & E & F)].
  - now apply done_todo in E.
  - apply map_SDone_inj in E. now subst.
Qed.
(** what an evaluation step does *)
Definition evf (e : exp) (r : env) (k : kont) (w : st) : option state :=
  match e with
  | EVar x => match read_var m r x w with Some v => Some (Ret v k w) | None => None end
  | ELam xs b => Some (Ret (VClo xs b r) k w)
  | EFix xs lams b => Some (Ev b (bind_fix xs lams r) k w)
  | ELetcc x b => if capturable k then match bind m [x] [VCont k] r (hp w) with Some (r', h) => Some (Ev b r' k (set_hp w h)) | None => None end else None
  | _ => match decomp e with Some (o, l) => Some (Args o (map STodo l) r k w) | None => None end
  end.
Lemma step_evf e r k w t : step P m (Ev e r k w) t <-> evf e r k w = Some t.
Proof.
  split.
  - intros S. inversion S; subst; cbn.
    + destruct e; cbn in *; try discriminate; now rewrite H4 || injection H4 as <- <-.
    + now rewrite H4.
    + reflexivity.
    + reflexivity.
    + rewrite H4. cbn in H5. now rewrite H5.
  - destruct e; cbn [evf decomp]; intros E; try (match type of E with Some ?a = Some ?b => assert (EE : b = a) by congruence; rewrite EE; constructor; reflexivity end).
    + destruct (read_var m r x w) eqn:R; [|discriminate]. injection E as <-. now constructor.
    + destruct (capturable k) eqn:C; [|discriminate]. destruct m; injection E as <-; now constructor.
Qed.
Lemma step_ret v o a b r k w t : step P m (Ret v (Fr o a b r :: k) w) t -> t = Args o (a ++ SDone v :: b) r k w.
Proof. intros S. inversion S; subst; reflexivity. Qed.
Lemma stuck_fire o vs r k w : (forall s, ~ fire P m o vs r k w s) -> wrong P m (Args o (map SDone vs) r k w).
Proof.
  intros N. apply stuck_wrong.
  - intros s' S. apply step_done in S. eapply N; eauto.
  - intros v E. inversion E.
Qed.
Lemma stuck_ev e r k w : evf e r k w = None -> wrong P m (Ev e r k w).
Proof.
  intros N. apply stuck_wrong.
  - intros s' S. apply step_evf in S. congruence.
  - intros v E. inversion E.
Qed.
End Fire.

(** ** Parallel steps *)
Section Lock.
Variable P : prim -> script.
Variables m m' : mode.
Variable R : nat -> state -> state -> Prop.
Lemma good_args n o l r k w o' l' r' k' w' :
  (forall a e b, l' = a ++ STodo e :: b ->
     inev P m' (out w') (next P m R n (Args o l r k w)) (Ev e r' (Fr o' a b r' :: k') w')) ->
  (forall vs, l = map SDone vs -> exists vs', l' = map SDone vs' /\
     forall s1, firef P m o vs r k w = Some s1 -> exists t1, firef P m' o' vs' r' k' w' = Some t1 /\
       inev P m' (out w') (next P m R n (Args o l r k w)) t1) ->
  (forall a e b, l = a ++ STodo e :: b -> exists a' e' b', l' = a' ++ STodo e' :: b') ->
  good P m m' R n (Args o l r k w) (Args o' l' r' k' w').
Proof.
  intros Pick Done Todo. destruct (slots_cases l) as [(vs & E)|(a & e & b & E)].
  - destruct (Done vs E) as (vs' & E' & H). destruct (firef P m o vs r k w) as [s1|] eqn:F.
    + destruct (H s1 eq_refl) as (t1 & F' & I). right; right. split.
      * exists t1. rewrite E'. constructor. now apply fire_firef.
      * intros t' S. rewrite E' in S. apply step_done, fire_firef in S. assert (t' = t1) by congruence. now subst t'.
    + left. rewrite E. apply stuck_fire. intros s1 S. apply fire_firef in S. congruence.
  - right; right. destruct (Todo _ _ _ E) as (a' & e' & b' & E'). split.
    + eexists. rewrite E'. constructor.
    + intros t' S. apply step_args in S. destruct S as [(a1 & e1 & b1 & E1 & ->)|(vs' & E1 & _)].
      * now apply Pick.
      * rewrite E1 in E'. now apply done_todo in E'.
Qed.
(** both sides take one step, that of the target being the only one *)
Lemma good_ev n e r k w e' r' k' w' :
  (forall s1, evf m e r k w = Some s1 -> exists t1, evf m' e' r' k' w' = Some t1 /\
     inev P m' (out w') (next P m R n (Ev e r k w)) t1) ->
  good P m m' R n (Ev e r k w) (Ev e' r' k' w').
Proof.
  intros H. destruct (evf m e r k w) as [s1|] eqn:F; [|left; now apply stuck_ev].
  destruct (H s1 eq_refl) as (t1 & F' & I). right; right. split.
  - exists t1. now apply step_evf.
  - intros t' S. apply step_evf in S. assert (t' = t1) by congruence. now subst t'.
Qed.
Lemma next_one n n' s s1 t1 : step P m s s1 -> R n' s1 t1 -> next P m R n s t1.
Proof. intros S X. right. exists n', s1. split; [assumption | left; now apply plus_one]. Qed.
Lemma good_ret n v o a b r k w v' o' a' b' r' k' w' :
  inev P m' (out w') (next P m R n (Ret v (Fr o a b r :: k) w)) (Args o' (a' ++ SDone v' :: b') r' k' w') ->
  good P m m' R n (Ret v (Fr o a b r :: k) w) (Ret v' (Fr o' a' b' r' :: k') w').
Proof. intros I. right; right. split; [eexists; constructor|]. intros t' S. apply step_ret in S. now subst. Qed.
End Lock.

(** ** Operands that cannot do harm, evaluated in any order *)
Section Operands.
Variable P : prim -> script.
Variable m : mode.
Lemma inev_det o0 (Q : state -> Prop) t t1 : out (mem t) = o0 -> step P m t t1 -> (forall t', step P m t t' -> t' = t1) ->
  inev P m o0 Q t1 -> inev P m o0 Q t.
Proof. intros O S D I. eapply inev_step; [assumption | exact S|]. intros t' S'. now rewrite (D t' S'). Qed.
Lemma inev_ev o0 (Q : state -> Prop) e r k w t1 : out w = o0 -> evf m e r k w = Some t1 -> inev P m o0 Q t1 -> inev P m o0 Q (Ev e r k w).
Proof.
  intros O E. apply inev_det; [assumption | now apply step_evf|]. intros t' S. apply step_evf in S. congruence.
Qed.
Lemma inev_ret o0 (Q : state -> Prop) v o a b r k w : out w = o0 -> inev P m o0 Q (Args o (a ++ SDone v :: b) r k w) ->
  inev P m o0 Q (Ret v (Fr o a b r :: k) w).
Proof. intros O. apply inev_det; [assumption | constructor|]. intros t' S. now apply step_ret in S. Qed.
Lemma inev_fire o0 (Q : state -> Prop) o vs r k w t1 : out w = o0 -> firef P m o vs r k w = Some t1 -> inev P m o0 Q t1 ->
  inev P m o0 Q (Args o (map SDone vs) r k w).
Proof.
  intros O E. apply inev_det; [assumption | constructor; now apply fire_firef|].
  intros t' S. apply step_done, fire_firef in S. congruence.
Qed.
Definition todos (l : list slot) : nat := length (filter (fun s => match s with STodo _ => true | _ => false end) l).
Lemma todos_app a b : todos (a ++ b) = (todos a + todos b)%nat.
Proof. unfold todos. now rewrite filter_app, app_length. Qed.
Lemma inev_operands o0 (op : oper) r k (J : list slot -> st -> Prop) :
  (forall a e b w k1, J (a ++ STodo e :: b) w -> inev P m o0 (fun t => exists v w', t = Ret v k1 w' /\ J (a ++ SDone v :: b) w') (Ev e r k1 w)) ->
  (forall l w, J l w -> out w = o0) ->
  forall l w, J l w -> inev P m o0 (fun t => exists vs w', t = Args op (map SDone vs) r k w' /\ J (map SDone vs) w') (Args op l r k w).
Proof.
  intros HJ HO l. remember (todos l) as n eqn:En. revert l En. induction n as [|n IH]; intros l En w Jl.
  - apply inev_now. destruct (slots_cases l) as [(vs & ->)|(a & e & b & ->)]; [eauto|]. rewrite todos_app in En. unfold todos in En. cbn in En. lia.
  - destruct (slots_cases l) as [(vs & ->)|(a & e & b & ->)].
    + exfalso. assert (Z : todos (map SDone vs) = O) by (clear; unfold todos; induction vs; cbn; auto). lia.
    + eapply inev_step; [exact (HO _ _ Jl) | constructor|]. intros t' S. apply step_args in S.
      destruct S as [(a1 & e1 & b1 & E & ->)|(vs & E & _)]; [|symmetry in E; now apply done_todo in E].
      rewrite E in Jl, En. eapply inev_trans; [|apply HJ, Jl]. cbn beta. intros t (v & w' & -> & J').
      apply inev_ret; [exact (HO _ _ J')|]. apply IH; [|assumption].
      rewrite todos_app in *. unfold todos in *. cbn in *. lia.
Qed.
End Operands.
