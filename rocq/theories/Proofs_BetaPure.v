(** Expressions that can be copied and expressions that can be deleted: what they do when they are evaluated. *)
From Coq Require Import ZArith List Bool Lia.
From Verif Require Import Model_Lit Model_Core Model_Beta Spec_Sem Spec_Free Spec_Fold Spec_Beta Proofs_Sim Proofs_Core Proofs_Free.
Import ListNotations.
Open Scope Z_scope.

Section Pure.
Variable P : prim -> script.
Variable g : id -> const.
Notation fine := (fine P).
Notation star := (star P MDirect).
Notation wrong := (wrong P MDirect).
Notation inev := (inev P MDirect).

Lemma fine_part e ys e' : fine e -> In (ys, e') (parts e) -> fine e'.
Proof. intros [_ H]. apply H. Qed.
Lemma fine_node e : fine e -> node_ok P e.
Proof. now intros [H _]. Qed.

(** ** Scripts *)
Definition st0 : st := mkst [] (fun _ => VC CVoid) [] [].
Lemma run_any s : honours ENo s -> forall vs w w2, run s vs w2 = match run s vs w with Some (v, _) => Some (v, w2) | None => None end.
Proof.
  induction s as [a| |a f IH|a b f IH|l p IH|a i p IH|a i b p IH|a p IH|p IH]; cbn [run honours may_alloc may_look may_act]; intros H vs w w2; try tauto.
  - destruct (atom_val a vs); reflexivity.
  - destruct (atom_val a vs); [apply IH, H | reflexivity].
  - destruct (atom_val a vs); [|reflexivity]. destruct (atom_val b vs); [|reflexivity]. destruct (same v v0); [apply IH, H | reflexivity].
Qed.
Lemma run_same s vs w v w' : honours ENo s -> run s vs w = Some (v, w') -> w' = w.
Proof. intros H E. assert (X := run_any s H vs w w). rewrite E in X. congruence. Qed.
Lemma set_hp_id w : set_hp w (hp w ++ []) = w.
Proof. destruct w. unfold set_hp. cbn. now rewrite app_nil_r. Qed.
Lemma run_grow ef s : removable_if_dead_effect ef = true -> honours ef s -> forall vs w v w', run s vs w = Some (v, w') -> exists h, w' = set_hp w (hp w ++ h).
Proof.
  intros Re. assert (NA : ~ may_act ef) by (destruct ef; try discriminate; cbn; auto).
  induction s as [a| |a f IH|a b f IH|l p IH|a i p IH|a i b p IH|a p IH|p IH]; cbn [run honours]; intros H vs w v w' E; try tauto; try discriminate.
  - destruct (atom_val a vs); [|discriminate]. injection E as <- <-. exists []. now rewrite set_hp_id.
  - destruct (atom_val a vs); [eapply IH; eauto | discriminate].
  - destruct (atom_val a vs); [|discriminate]. destruct (atom_val b vs); [|discriminate]. destruct (same v0 v1); [eapply IH; eauto | discriminate].
  - destruct (atom_vals l vs) as [us|]; [|discriminate]. destruct H as (_ & H). destruct (IH H _ _ _ _ E) as (h & ->). exists ([us] ++ h). unfold set_hp; cbn [hp gl out inp]; now rewrite <- app_assoc.
  - destruct (atom_val a vs) as [[]|]; try discriminate. destruct (nth_error (hp w) l); [|discriminate]. destruct (nth_error l0 i); [|discriminate]. destruct H as (_ & H). eapply IH; eauto.
Qed.

(** ** Copies *)
Definition constok (w : st) : Prop := forall x, global_id_constant x = true -> gl w x = VC (g x).
Fixpoint peval (r : env) (e : exp) : option val :=
  let pevals := fix pevals (l : list exp) : option (list val) :=
    match l with
    | [] => Some []
    | e1 :: l' => match peval r e1, pevals l' with Some v, Some vs => Some (v :: vs) | _, _ => None end
    end in
  match e with
  | EVar x =>
    if global_id x then if global_id_constant x then Some (VC (g x)) else None
    else match lookup r x with Some (VRef _) => None | o => o end
  | EIf a b c => match peval r a with Some v => if is_true v then peval r b else peval r c | None => None end
  | EPrim ef p l => match pevals l with Some vs => match run (P p) vs st0 with Some (v, _) => Some v | None => None end | None => None end
  | ELam xs b => Some (VClo xs b r)
  | EApp (ELam xs b) l =>
    match pevals l with
    | Some vs => match bind MDirect xs vs r [] with Some (r1, _) => peval r1 b | None => None end
    | None => None
    end
  | _ => None
  end.
Fixpoint pevals (r : env) (l : list exp) : option (list val) :=
  match l with
  | [] => Some []
  | e1 :: l' => match peval r e1, pevals r l' with Some v, Some vs => Some (v :: vs) | _, _ => None end
  end.
Lemma peval_prim r ef p l : peval r (EPrim ef p l) = match pevals r l with Some vs => match run (P p) vs st0 with Some (v, _) => Some v | None => None end | None => None end.
Proof.
  cbn [peval]. assert (E : forall l, (fix pevals (l : list exp) : option (list val) :=
    match l with [] => Some [] | e1 :: l' => match peval r e1, pevals l' with Some v, Some vs => Some (v :: vs) | _, _ => None end end) l = pevals r l); [|now rewrite E].
  induction l0 as [|e l0 IH]; cbn; [reflexivity | now rewrite IH].
Qed.
Lemma peval_let r xs b l : peval r (EApp (ELam xs b) l) =
  match pevals r l with Some vs => match bind MDirect xs vs r [] with Some (r1, _) => peval r1 b | None => None end | None => None end.
Proof.
  cbn [peval]. assert (E : forall l, (fix pevals (l : list exp) : option (list val) :=
    match l with [] => Some [] | e1 :: l' => match peval r e1, pevals l' with Some v, Some vs => Some (v :: vs) | _, _ => None end end) l = pevals r l); [|now rewrite E].
  induction l0 as [|e l0 IH]; cbn; [reflexivity | now rewrite IH].
Qed.
Lemma bind_heap xs : forall vs r h r1 h1, bind MDirect xs vs r h = Some (r1, h1) -> h1 = h /\ forall h', bind MDirect xs vs r h' = Some (r1, h').
Proof.
  induction xs as [|x xs IH]; intros [|v vs] r h r1 h1 E; cbn in *; try discriminate; [|eauto]. injection E as <- <-. auto.
Qed.
Lemma no_halt ef p l : fine (EPrim ef p l) -> ~ may_act ef -> p <> the_halt_prim /\ honours ef (P p).
Proof. intros F N. apply fine_node in F. unfold node_ok in F. destruct (zlist_dec p the_halt_prim); [contradiction | auto]. Qed.
Lemma fine_ops ef p l e : fine (EPrim ef p l) -> In e l -> fine e.
Proof. intros F I. apply (fine_part _ [] e F). cbn. now apply in_map. Qed.
Lemma fine_rands f l e : fine (EApp f l) -> In e l -> fine e.
Proof. intros F I. apply (fine_part _ [] e F). cbn. right. now apply in_map. Qed.
Lemma fine_body xs b l : fine (EApp (ELam xs b) l) -> fine b.
Proof. intros F. assert (G : fine (ELam xs b)) by (apply (fine_part _ [] _ F); now left). apply (fine_part _ xs b G). now left. Qed.
Lemma size_in e l : In e l -> (esize e <= list_sum (map esize l))%nat.
Proof. induction l as [|x l IH]; [easy|]. cbn [In map]. change (list_sum (esize x :: map esize l)) with (esize x + list_sum (map esize l))%nat. intros [->|I]; [|specialize (IH I)]; lia. Qed.

(** the slots of copied operands: still to be evaluated, or evaluated *)
Definition pslot (r : env) (s : slot) (e : exp) (v : val) : Prop := s = STodo e \/ s = SDone v.
Inductive pslots (r : env) : list slot -> list exp -> list val -> Prop :=
| ps_nil : pslots r [] [] []
| ps_cons s e v l es vs : pslot r s e v -> peval r e = Some v -> pslots r l es vs -> pslots r (s :: l) (e :: es) (v :: vs).
Lemma pslots_todo r l : forall vs, pevals r l = Some vs -> pslots r (map STodo l) l vs.
Proof.
  induction l as [|e l IH]; cbn; intros vs E; [injection E as <-; constructor|].
  destruct (peval r e) as [v|] eqn:V; [|discriminate]. destruct (pevals r l) as [us|]; [|discriminate]. injection E as <-. constructor; auto. now left.
Qed.
Lemma pslots_done r us es vs : pslots r (map SDone us) es vs -> us = vs.
Proof.
  revert es vs. induction us as [|u us IH]; intros es vs F; inversion F as [|? ? ? ? ? ? D V F']; subst; [reflexivity|]. f_equal; [|eauto]. destruct D as [D|D]; [discriminate | congruence].
Qed.
Lemma pslots_split r a : forall e b es vs, pslots r (a ++ STodo e :: b) es vs -> exists v, peval r e = Some v /\ In e es /\ pslots r (a ++ SDone v :: b) es vs.
Proof.
  induction a as [|s a IH]; intros e b es vs F; inversion F as [|? e0 v0 ? es' vs' D V F']; subst.
  - destruct D as [[= <-]|D]; [|discriminate]. exists v0. split; [assumption|]. split; [now left|]. constructor; auto. now right.
  - destruct (IH _ _ _ _ F') as (v & A & B & C). exists v. split; [assumption|]. split; [now right|]. constructor; auto.
Qed.
Lemma pe_run m : forall t r v K w, (esize t <= m)%nat -> bs_ref_transparent t = true -> fine t -> constok w -> peval r t = Some v ->
  inev (out w) (fun s => s = Ret v K w) (Ev t r K w).
Proof.
  induction m as [|m IH]; intros t r v K w Sz RT Fi C E; [destruct t; cbn in Sz; lia|].
  assert (OPS : forall o l vs r0 K0, (forall e, In e l -> (esize e <= m)%nat /\ bs_ref_transparent e = true /\ fine e) -> pevals r0 l = Some vs ->
    forall op Q, inev (out w) Q (Args o (op :: map SDone vs) r0 K0 w) -> forall s0, (forall k1, inev (out w) (fun t => t = Ret (match op with SDone x => x | _ => VC CVoid end) k1 w) (Ev s0 r0 k1 w)) -> op = SDone (match op with SDone x => x | _ => VC CVoid end) ->
    inev (out w) Q (Args o (STodo s0 :: map STodo l) r0 K0 w)).
  { intros o l vs r0 K0 Hl El op Q HQ s0 Hs Hop.
    apply (inev_trans P MDirect (out w) (fun t => exists us w', t = Args o (map SDone us) r0 K0 w' /\ (w' = w /\ exists s1 l1, map SDone us = s1 :: l1 /\ (s1 = STodo s0 \/ s1 = op) /\ pslots r0 l1 l vs)) Q).
    - intros tt0 (us & w' & -> & -> & s1 & l1 & E1 & D & PS). destruct us as [|u us]; [discriminate|]. cbn in E1. injection E1 as E2 E3. subst l1 s1. apply pslots_done in PS. subst us.
      destruct D as [D|D]; [discriminate|]. cbn [map]. rewrite D. exact HQ.
    - apply (inev_operands P MDirect (out w) o r0 K0 (fun sl w' => w' = w /\ exists s1 l1, sl = s1 :: l1 /\ (s1 = STodo s0 \/ s1 = op) /\ pslots r0 l1 l vs)).
      + intros a e b w0 k1 (-> & s1 & l1 & E1 & D & PS). destruct a as [|s2 a].
        * injection E1 as <- <-. destruct D as [[= ->]|D]; [|rewrite Hop in D; discriminate]. eapply inev_impl; [|apply Hs]. intros ? ->. eexists _, w. split; [reflexivity|]. split; [reflexivity|].
          exists op, b. split; [rewrite Hop at 2; reflexivity|]. auto.
        * injection E1 as <- <-. destruct (pslots_split _ _ _ _ _ _ PS) as (v0 & V & I & PS'). destruct (Hl _ I) as (Z1 & Z2 & Z3).
          eapply inev_impl; [|apply (IH e r0 v0 k1 w Z1 Z2 Z3 C V)]. intros ? ->. eexists _, w. split; [reflexivity|]. split; [reflexivity|]. exists s2, (a ++ SDone v0 :: b). auto.
      + intros ? ? (-> & _). reflexivity.
      + split; [reflexivity|]. eexists _, _. split; [reflexivity|]. split; [now left|]. now apply pslots_todo. }
  destruct t as [x|x e|a b c|ef p l|f l|xs b|xs lams b|x b|k e]; cbn [bs_ref_transparent] in RT; try discriminate.
  - cbn [peval] in E. eapply inev_ev; [reflexivity| |apply inev_now; reflexivity]. cbn [evf]. unfold read_var. destruct (global_id x) eqn:G.
    + destruct (global_id_constant x) eqn:GC; [|discriminate]. injection E as <-. rewrite (C x GC). reflexivity.
    + destruct (lookup r x) as [[]|]; congruence.
  - cbn [peval] in E. cbn in Sz. apply andb_prop in RT. destruct RT as (RT & Rc). apply andb_prop in RT. destruct RT as (Ra & Rb).
    destruct (peval r a) as [v0|] eqn:V0; [|discriminate].
    assert (Fa : fine a) by (apply (fine_part _ [] a Fi); cbn; auto). assert (Fb : fine b) by (apply (fine_part _ [] b Fi); cbn; auto). assert (Fc : fine c) by (apply (fine_part _ [] c Fi); cbn; auto).
    eapply inev_ev; [reflexivity | reflexivity|]. cbn [map]. apply inev_step with (Ev a r (Fr (OIf b c) [] [] r :: K) w); [reflexivity | apply (st_pick P MDirect (OIf b c) [] a [])|].
    intros t' S. apply step_args in S. destruct S as [(a1 & e1 & b1 & E1 & ->)|(vs & E1 & _)]; [|destruct vs as [|? [|]]; discriminate].
    destruct a1 as [|? [|]]; try discriminate. injection E1 as <- <-. eapply inev_trans; [|apply (IH a r v0 _ w); auto; lia]. intros ? ->.
    apply inev_ret; [reflexivity|]. cbn [app]. apply (inev_fire P MDirect _ _ _ [v0]) with (t1 := Ev (if is_true v0 then b else c) r K w); [reflexivity | reflexivity|].
    destruct (is_true v0); apply IH; auto; lia.
  - rewrite peval_prim in E. apply andb_prop in RT. destruct RT as (Re & Rl). assert (ef = ENo) as -> by (destruct ef; try discriminate; reflexivity).
    destruct (pevals r l) as [vs|] eqn:Vs; [|discriminate]. destruct (no_halt _ _ _ Fi) as (NH & Ho); [easy|].
    destruct (run (P p) vs st0) as [(v0 & w0)|] eqn:Rn; [|discriminate]. injection E as ->.
    eapply inev_ev; [reflexivity | reflexivity|]. cbn in Sz. rewrite forallb_forall in Rl.
    assert (Hl : forall e, In e l -> (esize e <= m)%nat /\ bs_ref_transparent e = true /\ fine e).
    { intros e I. split; [assert (Y := size_in e l I); lia|]. split; [auto | exact (fine_ops _ _ _ _ Fi I)]. }
    apply (inev_trans P MDirect (out w) (fun t => exists us w', t = Args (OPrim ENo p) (map SDone us) r K w' /\ (w' = w /\ pslots r (map SDone us) l vs))).
    + intros tt0 (us & w' & -> & -> & PS). apply pslots_done in PS. subst us. eapply inev_fire; [reflexivity| |apply inev_now; reflexivity]. cbn [firef].
      destruct (zlist_dec p the_halt_prim); [contradiction|]. rewrite (run_any (P p) Ho vs st0 w), Rn. reflexivity.
    + apply (inev_operands P MDirect (out w) (OPrim ENo p) r K (fun sl w' => w' = w /\ pslots r sl l vs)).
      * intros a e b w1 k1 (-> & PS). destruct (pslots_split _ _ _ _ _ _ PS) as (v1 & V & I & PS'). destruct (Hl _ I) as (Z1 & Z2 & Z3).
        eapply inev_impl; [|apply (IH e r v1 k1 w Z1 Z2 Z3 C V)]. intros ? ->. eexists _, w. auto.
      * intros ? ? (-> & _). reflexivity.
      * split; [reflexivity|]. now apply pslots_todo.
  - destruct f as [| | | | |xs b| | |]; try discriminate. rewrite peval_let in E. apply andb_prop in RT. destruct RT as (_ & RT). apply andb_prop in RT. destruct RT as (Rl & Rb). rewrite forallb_forall in Rl.
    destruct (pevals r l) as [vs|] eqn:Vs; [|discriminate]. destruct (bind MDirect xs vs r []) as [(r1 & h1)|] eqn:B; [|discriminate]. apply bind_heap in B. destruct B as (_ & B). cbn in Sz.
    eapply inev_ev; [reflexivity | reflexivity|]. cbn [map]. apply (OPS OApp l vs r K) with (op := SDone (VClo xs b r)); auto.
    + intros e I. split; [assert (Y := size_in e l I); lia|]. split; [auto | exact (fine_rands _ _ _ Fi I)].
    + apply (inev_fire P MDirect (out w) _ OApp (VClo xs b r :: vs)) with (t1 := Ev b r1 K w); [reflexivity| |].
      * cbn [firef]. rewrite B. now destruct w.
      * apply IH; auto; [lia | exact (fine_body _ _ _ Fi)].
    + intros k1. eapply inev_ev; [reflexivity | reflexivity|]. now apply inev_now.
  - cbn [peval] in E. injection E as <-. eapply inev_ev; [reflexivity | reflexivity|]. now apply inev_now.
Qed.
Lemma inev_star o Q t : inev o Q t -> exists t', star t t' /\ Q t'.
Proof. induction 1 as [t X|t t1 O S H IH]; [exists t; split; [constructor | assumption]|]. destruct (IH t1 S) as (t' & A & B). exists t'. split; [econstructor; eauto | assumption]. Qed.
Lemma pe_star t r v K w : bs_ref_transparent t = true -> fine t -> constok w -> peval r t = Some v -> star (Ev t r K w) (Ret v K w).
Proof. intros A B C D. destruct (inev_star _ _ _ (pe_run (esize t) t r v K w (le_n _) A B C D)) as (t' & S & ->). exact S. Qed.
Lemma pes_star l : forall r vs o pre K w, (forall e, In e l -> bs_ref_transparent e = true /\ fine e) -> constok w -> pevals r l = Some vs ->
  star (Args o (map SDone pre ++ map STodo l) r K w) (Args o (map SDone (pre ++ vs)) r K w).
Proof.
  induction l as [|e l IH]; cbn [pevals map]; intros r vs o pre K w H C E; [injection E as <-; rewrite !app_nil_r; constructor|].
  destruct (peval r e) as [v|] eqn:V; [|discriminate]. destruct (pevals r l) as [us|] eqn:Us; [|discriminate]. injection E as <-.
  eapply star_step; [apply st_pick|]. destruct (H e (or_introl eq_refl)) as (H1 & H2). eapply star_trans; [apply pe_star; eassumption|]. eapply star_step; [apply Spec_Sem.st_ret|].
  replace (map SDone pre ++ SDone v :: map STodo l) with (map SDone (pre ++ [v]) ++ map STodo l) by (rewrite map_app, <- app_assoc; reflexivity).
  replace (pre ++ v :: us) with ((pre ++ [v]) ++ us) by (rewrite <- app_assoc; reflexivity). apply IH; auto. intros e0 I. apply H. now right.
Qed.

(** ** Deletions *)
Lemma rem_run m : forall e r K w, (esize e <= m)%nat -> quiet e = true -> fine e ->
  wrong (Ev e r K w) \/ exists v h, star (Ev e r K w) (Ret v K (set_hp w (hp w ++ h))).
Proof.
  induction m as [|m IH]; intros e r K w Sz Q Fi; [destruct e; cbn in Sz; lia|].
  assert (OPS : forall o l, (forall e, In e l -> (esize e <= m)%nat /\ quiet e = true /\ fine e) -> forall pre r0 K0 w0,
    wrong (Args o (map SDone pre ++ map STodo l) r0 K0 w0) \/ exists vs h, length vs = length l /\ star (Args o (map SDone pre ++ map STodo l) r0 K0 w0) (Args o (map SDone (pre ++ vs)) r0 K0 (set_hp w0 (hp w0 ++ h)))).
  { intros o l. induction l as [|e0 l IHl]; intros Hl pre r0 K0 w0.
    - right. exists [], []. cbn [map]. rewrite !app_nil_r. split; [reflexivity|]. destruct w0. constructor.
    - destruct (Hl e0 (or_introl eq_refl)) as (Z1 & Z2 & Z3). cbn [map]. destruct (IH e0 r0 (Fr o (map SDone pre) (map STodo l) r0 :: K0) w0 Z1 Z2 Z3) as [W|(v & h & S)].
      + left. eapply wrong_star; [|exact W]. apply star_one. apply st_pick.
      + assert (S2 : star (Args o (map SDone pre ++ STodo e0 :: map STodo l) r0 K0 w0) (Args o (map SDone (pre ++ [v]) ++ map STodo l) r0 K0 (set_hp w0 (hp w0 ++ h)))).
        { eapply star_step; [apply st_pick|]. eapply star_trans; [exact S|]. eapply star_step; [apply Spec_Sem.st_ret|]. rewrite map_app, <- app_assoc. constructor. }
        destruct (IHl (fun e I => Hl e (or_intror I)) (pre ++ [v]) r0 K0 (set_hp w0 (hp w0 ++ h))) as [W|(vs & h2 & L & S3)].
        * left. eapply wrong_star; eassumption.
        * right. exists (v :: vs), (h ++ h2). split; [cbn; congruence|]. eapply star_trans; [exact S2|]. rewrite <- app_assoc in S3. cbn [set_hp hp app] in S3. rewrite app_assoc. exact S3. }
  destruct e as [x|x e|a b c|ef p l|f l|xs b|xs lams b|x b|k e]; cbn [quiet] in Q; try discriminate; cbn [esize] in Sz.
  - destruct (read_var MDirect r x w) as [v|] eqn:R; [right | left; apply stuck_ev; cbn [evf]; now rewrite R].
    exists v, []. rewrite set_hp_id. apply star_one. now constructor.
  - apply andb_prop in Q. destruct Q as (Q & Qc). apply andb_prop in Q. destruct Q as (Qa & Qb).
    assert (Fa : fine a) by (apply (fine_part _ [] a Fi); cbn; auto). assert (Fb : fine b) by (apply (fine_part _ [] b Fi); cbn; auto). assert (Fc : fine c) by (apply (fine_part _ [] c Fi); cbn; auto).
    destruct (OPS (OIf b c) [a]) with (pre := @nil val) (r0 := r) (K0 := K) (w0 := w) as [W|(vs & h & L & S)].
    { intros e [<-|[]]. split; [lia | auto]. }
    + left. eapply wrong_star; [|exact W]. apply star_one. now apply st_args.
    + destruct vs as [|v [|]]; try discriminate. assert (S2 : star (Ev (EIf a b c) r K w) (Ev (if is_true v then b else c) r K (set_hp w (hp w ++ h)))).
      { eapply star_step; [now apply st_args|]. eapply star_trans; [exact S|]. apply star_one. apply (st_fire P MDirect _ [v]). constructor. }
      destruct (IH (if is_true v then b else c) r K (set_hp w (hp w ++ h))) as [W|(u & h2 & S3)]; [destruct (is_true v); lia | destruct (is_true v); assumption | destruct (is_true v); assumption | |].
      * left. eapply wrong_star; eassumption.
      * right. exists u, (h ++ h2). rewrite app_assoc. eapply star_trans; eassumption.
  - apply andb_prop in Q. destruct Q as (Qe & Ql). rewrite forallb_forall in Ql.
    destruct (no_halt _ _ _ Fi) as (NH & Ho); [destruct ef; try discriminate; cbn; auto|].
    destruct (OPS (OPrim ef p) l) with (pre := @nil val) (r0 := r) (K0 := K) (w0 := w) as [W|(vs & h & L & S)].
    { intros e I. split; [assert (Y := size_in e l I); lia|]. split; [auto | exact (fine_ops _ _ _ _ Fi I)]. }
    + left. eapply wrong_star; [|exact W]. apply star_one. now apply st_args.
    + cbn [map app] in S. assert (S2 : star (Ev (EPrim ef p l) r K w) (Args (OPrim ef p) (map SDone vs) r K (set_hp w (hp w ++ h)))) by (eapply star_step; [now apply st_args | exact S]).
      destruct (run (P p) vs (set_hp w (hp w ++ h))) as [(v & w2)|] eqn:Rn.
      * destruct (run_grow _ _ Qe Ho _ _ _ _ Rn) as (h2 & ->). right. exists v, (h ++ h2). eapply star_trans; [exact S2|]. apply star_one. constructor. constructor; [assumption|].
        rewrite Rn. unfold set_hp. cbn. now rewrite app_assoc.
      * left. eapply wrong_star; [exact S2|]. apply stuck_fire. intros s F. apply fire_firef in F. cbn [firef] in F. destruct (zlist_dec p the_halt_prim); [contradiction|]. rewrite Rn in F. discriminate.
  - destruct f as [| | | | |xs b| | |]; try discriminate. cbn [esize] in Sz. apply andb_prop in Q. destruct Q as (L0 & Q). apply Nat.eqb_eq in L0. apply andb_prop in Q. destruct Q as (Ql & Qb). rewrite forallb_forall in Ql.
    destruct (OPS OApp l) with (pre := [VClo xs b r]) (r0 := r) (K0 := K) (w0 := w) as [W|(vs & h & L & S)].
    { intros e I. split; [assert (Y := size_in e l I); lia|]. split; [auto | exact (fine_rands _ _ _ Fi I)]. }
    + left. eapply wrong_star; [|exact W]. eapply star_step; [now apply st_args|]. cbn [map]. eapply star_step; [apply (st_pick P MDirect OApp [])|]. eapply star_step; [apply st_lam|]. apply star_one. apply (Spec_Sem.st_ret P MDirect _ OApp []).
    + assert (Bi : exists r1, forall h', bind MDirect xs vs r h' = Some (r1, h')).
      { assert (LL : length xs = length vs) by congruence. clear - LL. revert vs r LL. induction xs as [|x xs IH]; intros [|v vs] r LL; cbn in *; try discriminate; [eauto|]. injection LL as LL. exact (IH vs ((x, v) :: r) LL). }
      destruct Bi as (r1 & Bi). assert (S2 : star (Ev (EApp (ELam xs b) l) r K w) (Ev b r1 K (set_hp w (hp w ++ h)))).
      { eapply star_step; [now apply st_args|]. cbn [map]. eapply star_step; [apply (st_pick P MDirect OApp [])|]. eapply star_step; [apply st_lam|]. eapply star_step; [apply (Spec_Sem.st_ret P MDirect _ OApp [])|].
        eapply star_trans; [exact S|]. apply star_one. apply (st_fire P MDirect OApp (VClo xs b r :: vs)). apply fire_firef. cbn [firef]. rewrite Bi. reflexivity. }
      destruct (IH b r1 K (set_hp w (hp w ++ h))) as [W|(u & h2 & S3)]; [lia | assumption | exact (fine_body _ _ _ Fi)| |].
      * left. eapply wrong_star; eassumption.
      * right. exists u, (h ++ h2). rewrite app_assoc. eapply star_trans; eassumption.
  - right. exists (VClo xs b r), []. rewrite set_hp_id. apply star_one. constructor.
  - destruct (capturable K) eqn:C; [|left; apply stuck_ev; cbn [evf]; now rewrite C].
    assert (S2 : star (Ev (ELetcc x b) r K w) (Ev b ((x, VCont K) :: r) K w)).
    { apply star_one. apply step_evf. cbn [evf bind]. rewrite C. now destruct w. }
    destruct (IH b ((x, VCont K) :: r) K w) as [W|(u & h2 & S3)]; [lia | assumption | apply (fine_part _ [x] b Fi); now left| |].
    + left. eapply wrong_star; eassumption.
    + right. exists u, h2. eapply star_trans; eassumption.
Qed.
End Pure.
