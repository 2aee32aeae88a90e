(** Programs without effects: one result, whatever the order of evaluation. *)
From Coq Require Import ZArith List Bool Lia.
From Verif Require Import Model_Core Model_Beta Spec_Sem Proofs_Sim Proofs_Core Proofs_Run Proofs_BetaPure Proofs_BetaFree.
Import ListNotations.

Section Det.
Variable P : prim -> script.
Variable pure : list prim.
Hypothesis H : Forall (fun p => p <> the_halt_prim /\ honours ENo (P p)) pure.
Definition purep (p : prim) : bool := existsb (fun q => if zlist_dec q p then true else false) pure.
Fixpoint dev (n : nat) (e : exp) (r : env) : option val :=
  match n with
  | O => None
  | S n' =>
    match e with
    | EVar x => if global_id x then None else match lookup r x with Some (VRef _) => None | o => o end
    | ELam xs b => Some (VClo xs b r)
    | EIf a b c => match dev n' a r with Some v => dev n' (if is_true v then b else c) r | None => None end
    | EPrim ef p l =>
      if purep p then match mapo (fun a => dev n' a r) l with Some vs => match run (P p) vs st0 with Some (v, _) => Some v | None => None end | None => None end
      else None
    | EApp f l =>
      match mapo (fun a => dev n' a r) (f :: l) with
      | Some (VClo xs b r0 :: vs) => match bind MDirect xs vs r0 [] with Some (r', _) => dev n' b r' | None => None end
      | _ => None
      end
    | _ => None
    end
  end.
Lemma bind_direct xs : forall vs r r' h h', bind MDirect xs vs r h = Some (r', h') -> forall g, bind MDirect xs vs r g = Some (r', g).
Proof. induction xs as [|x xs IH]; intros [|v vs] r r' h h' E g; cbn in *; try discriminate; [congruence | eauto]. Qed.
Definition fits (n : nat) (r : env) (s : slot) (v : val) : Prop := match s with SDone u => u = v | STodo e => dev n e r = Some v end.
Lemma fits_done n r us : forall vs, Forall2 (fits n r) (map SDone us) vs -> us = vs.
Proof. induction us as [|u us IH]; intros vs F; inversion F; subst; [reflexivity|]. f_equal; [assumption | now apply IH]. Qed.
Lemma dev_operands n o r k w l vs : (forall e r v, dev n e r = Some v -> forall k w, inev P MDirect (out w) (fun t => t = Ret v k w) (Ev e r k w)) ->
  mapo (fun a => dev n a r) l = Some vs -> inev P MDirect (out w) (fun t => t = Args o (map SDone vs) r k w) (Args o (map STodo l) r k w).
Proof.
  intros IH M. apply mapo_spec in M.
  eapply inev_impl; [|apply (inev_operands P MDirect (out w) o r k (fun l w' => w' = w /\ Forall2 (fits n r) l vs))].
  - intros t (us & w' & -> & -> & F). now rewrite (fits_done _ _ _ _ F).
  - intros a e b w' k1 (-> & F). apply Forall2_app_inv_l in F. destruct F as (va & vb & Fa & Fb & E). inversion Fb as [|? v ? vb' X Fb' E1 E2]; subst. eapply inev_impl; [|exact (IH e r v X k1 w)].
    cbn beta. intros t ->. exists v, w. split; [reflexivity|]. split; [reflexivity|]. apply Forall2_app; [assumption|]. constructor; [reflexivity | assumption].
  - intros l0 w' (-> & _). reflexivity.
  - split; [reflexivity|]. clear -M. induction M; constructor; auto.
Qed.
Lemma dev_inev n : forall e r v, dev n e r = Some v -> forall k w, inev P MDirect (out w) (fun t => t = Ret v k w) (Ev e r k w).
Proof.
  induction n as [|n IH]; intros e r v E k w; [discriminate|]. destruct e as [x|x e|a b c|ef p l|f l|xs b|xs lams b|x b|k0 e]; cbn [dev] in E; try discriminate.
  - destruct (global_id x) eqn:G; [discriminate|]. eapply inev_ev; [reflexivity | | now apply inev_now]. cbn [evf]. unfold read_var. rewrite G. destruct (lookup r x) as [[]|]; try discriminate; injection E as <-; reflexivity.
  - destruct (dev n a r) as [u|] eqn:Ea; [|discriminate]. eapply inev_ev; [reflexivity | reflexivity|]. eapply inev_trans; [|apply (dev_operands n (OIf b c) r k w [a] [u] IH)]; [|cbn [mapo]; now rewrite Ea].
    cbn beta. intros t ->. eapply inev_fire; [reflexivity | reflexivity | now apply IH].
  - destruct (purep p) eqn:Pp; [|discriminate]. destruct (mapo _ l) as [vs|] eqn:M; [|discriminate]. eapply inev_ev; [reflexivity | reflexivity|]. eapply inev_trans; [|apply (dev_operands n (OPrim ef p) r k w l vs IH M)].
    cbn beta. intros t ->. apply existsb_exists in Pp. destruct Pp as (q & I & Q). destruct (zlist_dec q p) as [->|]; [|discriminate]. rewrite Forall_forall in H. destruct (H _ I) as (NH & HO).
    eapply inev_fire; [reflexivity | | now apply inev_now]. apply fire_firef. apply fi_prim; [assumption|]. rewrite (run_any _ HO vs st0 w). destruct (run (P p) vs st0) as [(u & w')|]; [|discriminate]. congruence.
  - destruct (mapo _ (f :: l)) as [vs|] eqn:M; [|discriminate]. destruct vs as [|[| | |xs b r0| |] vs]; try discriminate. destruct (bind MDirect xs vs r0 []) as [(r' & h)|] eqn:B; [|discriminate].
    eapply inev_ev; [reflexivity | reflexivity|]. eapply inev_trans; [|apply (dev_operands n OApp r k w (f :: l) _ IH M)]. cbn beta. intros t ->.
    eapply inev_fire; [reflexivity | apply fire_firef; apply fi_call; apply (bind_direct _ _ _ _ _ _ B) |]. replace (set_hp w (hp w)) with w by (destruct w; reflexivity). now apply IH.
  - injection E as <-. eapply inev_ev; [reflexivity | reflexivity | now apply inev_now].
Qed.
Lemma inev_last o (Q : state -> Prop) s t : inev P MDirect o Q s -> star P MDirect s t -> (forall t', ~ step P MDirect t t') -> exists q, Q q /\ star P MDirect q t.
Proof.
  intros I. revert t. induction I as [s Qs|s s1 O S _ IH]; intros t St N; [eauto|]. destruct St as [s|s s2 t S2 St]; [now apply N in S|]. eauto.
Qed.
Lemma not_refines_pure n n' e e' v g i s o : dev n e [] = Some v -> left_outcome P MDirect n' e' g i = Some (Some s, o) -> shape_of v <> s -> ~ refines P MDirect MDirect e e'.
Proof.
  intros D L N R. unfold left_outcome in L. destruct (leftmost P MDirect n' (start e' g i)) as [t|] eqn:Y; [|discriminate]. injection L as L1 L2. destruct (leftmost_star _ _ _ _ _ Y) as (St & _).
  assert (Last : forall t1, star P MDirect (start e g i) t1 -> (forall t', ~ step P MDirect t1 t') -> exists w, t1 = Ret v [] w).
  { intros t1 S1 N1. destruct (inev_last _ _ _ t1 (dev_inev n e [] v D [] _) S1 N1) as (q & -> & S2). inversion S2 as [|? s2 ? S3]; subst; [eauto|]. inversion S3. }
  assert (V : exists v, ends t v /\ shape_of v = s) by (destruct t as [| |u [|f k] w|u w]; try discriminate; injection L1 as <-; eexists; split; constructor).
  destruct V as (v' & EN & Sv). destruct (proj1 (proj2 (R g i)) t v' St EN) as [(t1 & S1 & N1 & NE)|(s1 & u & S1 & E1 & Sh & _)].
  - destruct (Last _ S1 N1) as (w & ->). apply (NE v). constructor.
  - destruct (Last _ S1) as (w & ->); [intros t' S'; destruct E1; inversion S'|]. inversion E1; subst. congruence.
Qed.
End Det.
