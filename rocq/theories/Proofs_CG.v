From Coq Require Import ZArith List Bool Lia.
From Verif Require Import Model_CG Spec_CG.
Import ListNotations.
Open Scope Z_scope.

Section ExpInd.
Variable P : exp -> Prop.
Hypothesis HV : forall x, P (EVar x).
Hypothesis HG : forall x e, P e -> P (EGassign x e).
Hypothesis HI : forall a b c, P a -> P b -> P c -> P (EIf a b c).
Hypothesis HP : forall f p l, Forall P l -> P (EPrim f p l).
Hypothesis HL : forall xs l b, Forall P l -> P b -> P (ELet xs l b).
Hypothesis HC : forall x xs l, Forall P l -> P (ECurry x xs l).
Hypothesis HB : forall x l, Forall P l -> P (ELabelApp x l).
Hypothesis HA : forall e l, P e -> Forall P l -> P (EApp e l).
Fixpoint exp_ind2 (e : exp) : P e :=
  let all := fix all (l : list exp) : Forall P l :=
    match l with [] => Forall_nil P | x :: l' => Forall_cons x (exp_ind2 x) (all l') end in
  match e with
  | EVar x => HV x
  | EGassign x e => HG x e (exp_ind2 e)
  | EIf a b c => HI a b c (exp_ind2 a) (exp_ind2 b) (exp_ind2 c)
  | EPrim f p l => HP f p l (all l)
  | ELet xs l b => HL xs l b (all l) (exp_ind2 b)
  | ECurry x xs l => HC x xs l (all l)
  | ELabelApp x l => HB x l (all l)
  | EApp e l => HA e l (exp_ind2 e) (all l)
  end.
End ExpInd.
Section CexpInd.
Variable P : cexp -> Prop.
Hypothesis HR : forall n, P (CReg n).
Hypothesis HG : forall x, P (CGlob x).
Hypothesis HV : forall x t, P (CVar x t).
Hypothesis HC : forall p l, Forall P l -> P (CCall p l).
Hypothesis HD : forall t a b c, P a -> P b -> P c -> P (CCond t a b c).
Hypothesis HA : forall a b, P a -> P b -> P (CAnd a b).
Hypothesis HO : forall a b, P a -> P b -> P (COr a b).
Fixpoint cexp_ind2 (c : cexp) : P c :=
  let all := fix all (l : list cexp) : Forall P l :=
    match l with [] => Forall_nil P | x :: l' => Forall_cons x (cexp_ind2 x) (all l') end in
  match c with
  | CReg n => HR n
  | CGlob x => HG x
  | CVar x t => HV x t
  | CCall p l => HC p l (all l)
  | CCond t a b c => HD t a b c (cexp_ind2 a) (cexp_ind2 b) (cexp_ind2 c)
  | CAnd a b => HA a b (cexp_ind2 a) (cexp_ind2 b)
  | COr a b => HO a b (cexp_ind2 a) (cexp_ind2 b)
  end.
End CexpInd.

Lemma prim_eqb_eq p q : prim_eqb p q = true -> p = q.
Proof.
  destruct p as [a [t|]], q as [b [u|]]; unfold prim_eqb; cbn [p_text p_type]; intros H; apply andb_prop in H; destruct H as [H1 H2]; try discriminate.
  - replace b with a by lia. now replace u with t by lia.
  - now replace b with a by lia.
Qed.
Lemma cexp_eqb_eq c : forall d, cexp_eqb c d = true -> c = d.
Proof.
  induction c using cexp_ind2; intros d E; destruct d; cbn [cexp_eqb] in E; try discriminate.
  - f_equal. now apply Nat.eqb_eq.
  - f_equal. lia.
  - apply andb_prop in E. destruct E. f_equal; lia.
  - apply andb_prop in E. destruct E as [E1 E2]. apply prim_eqb_eq in E1. subst p0. f_equal.
    revert l0 E2. induction H as [|x l Hx Hl IH]; intros [|y k] E2; try discriminate; [reflexivity|].
    apply andb_prop in E2. destruct E2 as [E2 E3]. f_equal; auto.
  - apply andb_prop in E. destruct E as [E E4]. apply andb_prop in E. destruct E as [E E3]. apply andb_prop in E. destruct E as [E1 E2].
    f_equal; auto. lia.
  - apply andb_prop in E. destruct E. f_equal; auto.
  - apply andb_prop in E. destruct E. f_equal; auto.
Qed.

(** the registers a C expression reads *)
Fixpoint reads (n : nat) (c : cexp) : Prop :=
  match c with
  | CReg m => n = m
  | CGlob _ | CVar _ _ => False
  | CCall _ l => (fix any (l : list cexp) : Prop := match l with [] => False | c :: l' => reads n c \/ any l' end) l
  | CCond _ a b c => reads n a \/ reads n b \/ reads n c
  | CAnd a b | COr a b => reads n a \/ reads n b
  end.
Lemma reads_call n p l : reads n (CCall p l) <-> Exists (reads n) l.
Proof.
  cbn [reads]. induction l as [|c l IH].
  - split; [intros []|intros H; inversion H].
  - rewrite IH. split; [intros [H|H]; [now left|now right]|]. intros H. inversion H; auto.
Qed.
Lemma cg_if_reads n a b c : reads n (cg_if a b c) -> reads n a \/ reads n b \/ reads n c.
Proof.
  unfold cg_if. destruct (_ && cexp_eqb c _) eqn:E1; [cbn [reads]; tauto|]. destruct (_ && cexp_eqb a b); cbn [reads]; tauto.
Qed.

Section Codes.
Variable kind : id -> idkind.
Definition all_cexp (renv : list slot) := fix all (l : list exp) : option (list cexp) :=
             match l with
             | [] => Some []
             | e :: l' => match cg_cexp kind e renv, all l' with Some c, Some r => Some (c :: r) | _, _ => None end
             end.
Lemma cg_prim f p l renv : cg_cexp kind (EPrim f p l) renv = match all_cexp renv l with Some r => Some (CCall p r) | None => None end.
Proof. reflexivity. Qed.

Lemma posq_ok x renv : forall p, posq x renv = Some p -> exists a b, renv = a ++ SId x :: b /\ ~ In (SId x) a /\ p = length a.
Proof.
  induction renv as [|s renv IH]; intros p; cbn [posq]; [discriminate|].
  destruct s as [y|].
  - destruct (x =? y) eqn:E.
    + intros H. injection H as <-. exists [], renv. replace y with x by lia. split; [reflexivity|]. split; [intros []|reflexivity].
    + destruct (posq x renv) as [q|]; [|discriminate]. intros H. injection H as <-. destruct (IH q eq_refl) as (a & b & -> & N & ->).
      exists (SId y :: a), b. split; [reflexivity|]. split; [|reflexivity]. intros [H|H]; [injection H as H; lia|contradiction].
  - destruct (posq x renv) as [q|]; [|discriminate]. intros H. injection H as <-. destruct (IH q eq_refl) as (a & b & -> & N & ->).
    exists (STmp :: a), b. split; [reflexivity|]. split; [|reflexivity]. intros [H|H]; [discriminate|contradiction].
Qed.
Lemma cg_var_ok x renv c : cg_var kind x renv = Some c ->
  (kind x = KGlobal /\ c = CGlob x) \/ (exists t, kind x = KCvar t /\ c = CVar x t) \/
  (kind x = KLocal /\ exists n, reg_of renv x n /\ c = CReg n).
Proof.
  unfold cg_var. destruct (kind x) as [| |t|] eqn:K; intros E.
  - destruct (posq x renv) as [p|] eqn:Ep; [|discriminate]. injection E as <-. apply posq_ok in Ep. destruct Ep as (a & b & -> & N & ->).
    right. right. split; [reflexivity|]. exists (length b). split; [now exists a, b|]. f_equal. rewrite app_length. cbn [length]. lia.
  - injection E as <-. auto.
  - injection E as <-. right. left. eauto.
  - discriminate.
Qed.
Lemma reg_slot renv x n : reg_of renv x n -> nth_error (rev renv) n = Some (SId x).
Proof.
  intros (a & b & -> & _ & ->). rewrite rev_app_distr. cbn [rev]. rewrite <- app_assoc. rewrite nth_error_app2 by (rewrite rev_length; lia).
  rewrite rev_length, Nat.sub_diag. reflexivity.
Qed.
Lemma reg_lt renv x n : reg_of renv x n -> (n < length renv)%nat.
Proof. intros (a & b & -> & _ & ->). rewrite app_length. cbn [length]. lia. Qed.

Lemma depends_mono sp x e : In x sp -> depends [x] e = true -> depends sp e = true.
Proof.
  intros Hx. assert (Ex : forall l, Forall (fun e => depends [x] e = true -> depends sp e = true) l -> existsb (depends [x]) l = true -> existsb (depends sp) l = true).
  { intros l F H. apply existsb_exists in H. destruct H as (y & Hy & H). rewrite Forall_forall in F. apply existsb_exists. eauto. }
  induction e using exp_ind2; cbn [depends]; intros D; auto.
  - apply existsb_exists. exists x. split; [exact Hx|]. cbn [existsb] in D. lia.
  - rewrite !orb_true_iff in *. tauto.
  - rewrite !orb_true_iff in *. destruct D as [D|D]; [left; now apply Ex|right; auto].
  - rewrite !orb_true_iff in *. destruct D as [D|D]; [left; auto|right; now apply Ex].
Qed.
Lemma cg_reads e : forall renv c n, cg_cexp kind e renv = Some c -> reads n c -> exists x, depends [x] e = true /\ reg_of renv x n.
Proof.
  induction e using exp_ind2; intros renv c n E R; try discriminate.
  - cbn [cg_cexp] in E. apply cg_var_ok in E. destruct E as [[_ ->]|[(t & _ & ->)|(_ & m & Hm & ->)]]; [destruct R|destruct R|].
    cbn [reads] in R. subst m. exists x. split; [cbn [depends existsb]; lia|exact Hm].
  - cbn [cg_cexp] in E. destruct (cg_cexp kind e1 renv) as [a|] eqn:E1; [|discriminate].
    destruct (cg_cexp kind e2 renv) as [b|] eqn:E2; [|discriminate]. destruct (cg_cexp kind e3 renv) as [d|] eqn:E3; [|discriminate].
    injection E as <-. cbn [depends]. apply cg_if_reads in R. destruct R as [R|[R|R]].
    + destruct (IHe1 _ _ _ E1 R) as (x & D & Hx). exists x. rewrite D. auto.
    + destruct (IHe2 _ _ _ E2 R) as (x & D & Hx). exists x. rewrite D, orb_true_r. auto.
    + destruct (IHe3 _ _ _ E3 R) as (x & D & Hx). exists x. rewrite D, orb_true_r. auto.
  - rewrite cg_prim in E. destruct (all_cexp renv l) as [r|] eqn:Er; [|discriminate]. injection E as <-. apply reads_call in R. cbn [depends].
    clear p f. revert r Er R. induction H as [|e l He Hl IH]; intros r Er R; cbn [all_cexp] in Er.
    + injection Er as <-. inversion R.
    + fold all_cexp in Er. destruct (cg_cexp kind e renv) as [c|] eqn:Ec; [|discriminate]. destruct (all_cexp renv l) as [r'|] eqn:Er'; [|discriminate].
      injection Er as <-. cbn [existsb]. inversion R as [? ? R1|? ? R1]; subst.
      * destruct (He _ _ _ Ec R1) as (x & D & Hx). exists x. rewrite D. auto.
      * destruct (IH r' eq_refl R1) as (x & D & Hx). exists x. rewrite D, orb_true_r. auto.
Qed.

(** operand codes *)
Lemma tmp_reg renv x n : reg_of (STmp :: renv) x n -> reg_of renv x n.
Proof.
  intros (a & b & E & N & ->). destruct a as [|s a]; [discriminate|]. injection E as <- ->. exists a, b. split; [reflexivity|]. split; [|reflexivity].
  intros H. apply N. now right.
Qed.
Definition op_reads (renv : list slot) (e : exp) (c : cexp) : Prop :=
  forall n, reads n c -> (length renv <= n)%nat \/ exists x, depends [x] e = true /\ reg_of renv x n.
Lemma args_ok l : forall renv ts cs renv', cg_prim_args kind l renv = Some (ts, cs, renv') ->
  (length renv <= length renv')%nat /\ Forall2 (op_reads renv) l cs /\ Forall (fun c => forall n, reads n c -> (n < length renv')%nat) cs /\
  Forall (fun t : temp => (length renv <= fst (fst t))%nat) ts.
Proof.
  induction l as [|e l IH]; intros renv ts cs renv' E; cbn [cg_prim_args] in E.
  - injection E as <- <- <-. repeat split; auto.
  - destruct (cg_gcsafe_cexp e).
    + destruct (cg_cexp kind e renv) as [c|] eqn:Ec; [|discriminate]. destruct (cg_prim_args kind l renv) as [[[ts1 cs1] re1]|] eqn:El; [|discriminate].
      injection E as <- <- <-. destruct (IH _ _ _ _ El) as (L & F & G & K). split; [exact L|]. split; [|split; [|exact K]].
      * constructor; [|exact F]. intros n R. right. eapply cg_reads; eauto.
      * constructor; [|exact G]. intros n R. destruct (cg_reads _ _ _ _ Ec R) as (x & _ & Hx). apply reg_lt in Hx. lia.
    + destruct (cg_prim_args kind l (STmp :: renv)) as [[[ts1 cs1] re1]|] eqn:El; [|discriminate].
      injection E as <- <- <-. destruct (IH _ _ _ _ El) as (L & F & G & K). cbn [length] in *. split; [lia|]. split; [|split].
      * constructor; [intros n R; cbn [reads] in R; left; lia|]. clear -F. induction F as [|e c l cs H F IHf]; constructor; [|exact IHf].
        intros n R. destruct (H n R) as [H1|(x & D & Hx)]; [left; cbn [length] in H1; lia|right; exists x; split; [exact D|now apply tmp_reg]].
      * constructor; [intros n R; cbn [reads] in R; lia|exact G].
      * constructor; [cbn [fst]; lia|]. eapply Forall_impl; [|exact K]. cbn beta. intros t Ht. lia.
Qed.

(** the check of cg-fast-goto? *)
Lemma skipn_S {A} k : forall l : list A, skipn (S k) l = tl (skipn k l).
Proof. induction k as [|k IH]; intros [|a l]; try reflexivity. exact (IH l). Qed.
Lemma fast_ok renv : forall rands k regs sp, regs = skipn k (rev renv) -> (k <= length renv)%nat ->
  (forall m, (m < k)%nat -> exists x, nth_error (rev renv) m = Some (SId x) /\ In x sp) ->
  fast_loop rands regs sp = true ->
  (k + length rands <= length renv)%nat /\
  forall i e, nth_error rands i = Some e -> forall x n, depends [x] e = true -> nth_error (rev renv) n = Some (SId x) -> (k + i <= n)%nat.
Proof.
  induction rands as [|e rands IH]; intros k regs sp Er Hk Sp H; cbn [fast_loop] in H.
  - cbn [length]. split; [lia|]. intros [|i] ? ?; discriminate.
  - destruct regs as [|[y|] regs]; try discriminate.
    destruct (match sp with [] => true | _ => negb (depends sp e) end) eqn:Es; [|discriminate].
    assert (Hk' : (k < length renv)%nat).
    { assert (L := f_equal (@length slot) Er). rewrite skipn_length, rev_length in L. cbn [length] in L. lia. }
    assert (Ny : nth_error (rev renv) k = Some (SId y)).
    { rewrite <- (firstn_skipn k (rev renv)), <- Er. rewrite nth_error_app2; rewrite firstn_length_le; try (rewrite rev_length; lia).
      - rewrite Nat.sub_diag. reflexivity.
      - lia. }
    assert (Er' : regs = skipn (S k) (rev renv)).
    { rewrite skipn_S, <- Er. reflexivity. }
    destruct (IH (S k) regs (y :: sp) Er') as [L G]; [lia| |exact H|].
    { intros m Hm. destruct (Nat.eq_dec m k) as [->|Hd]; [exists y; split; [exact Ny|now left]|].
      destruct (Sp m) as (x & A & B); [lia|]. exists x. split; [exact A|now right]. }
    cbn [length]. split; [lia|]. intros [|i] e' Ei x n D Hn.
    + cbn [nth_error] in Ei. injection Ei as <-. destruct (Nat.le_gt_cases k n) as [|Hlt]; [lia|]. exfalso.
      destruct (Sp n Hlt) as (x' & A & B). rewrite A in Hn. injection Hn as ->.
      destruct sp as [|z sp]; [destruct B|]. rewrite (depends_mono _ _ _ B D) in Es. discriminate.
    + cbn [nth_error] in Ei. specialize (G i e' Ei x n D Hn). lia.
Qed.
End Codes.

Section Run.
Variable val store : Type.
Variable truth : val -> bool.
Variable vbool : bool -> val.
Variable primsem : prim -> list val -> store -> val * store.
Variable gread : id -> store -> val.
Variable cvar : id -> val.
Notation evc := (evalc val store truth vbool primsem gread cvar).
Notation regs := (nat -> val).

Lemma evalc_ext (r q : regs) c : (forall n, reads n c -> q n = r n) -> forall st, evc q c st = evc r c st.
Proof.
  induction c using cexp_ind2; intros A st; cbn [evalc]; auto.
  - rewrite (A n eq_refl). reflexivity.
  - assert (El : forall st, eval_list val store (evc q) l st = eval_list val store (evc r) l st).
    { assert (A' : forall n, Exists (reads n) l -> q n = r n) by (intros n Hn; apply A; now apply reads_call). clear A p st.
      induction H as [|c l Hc Hl IH]; intros st; [reflexivity|]. cbn [eval_list]. rewrite Hc by (intros n Hn; apply A'; now left).
      destruct (evc r c st) as [v st1]. rewrite IH by (intros n Hn; apply A'; now right). reflexivity. }
    rewrite El. reflexivity.
  - cbn [reads] in A. rewrite IHc1 by auto. destruct (evc r c1 st) as [v st1]. destruct (truth v); auto.
  - cbn [reads] in A. rewrite IHc1 by auto. destruct (evc r c1 st) as [v st1]. rewrite IHc2 by auto. reflexivity.
  - cbn [reads] in A. rewrite IHc1 by auto. destruct (evc r c1 st) as [v st1]. rewrite IHc2 by auto. reflexivity.
Qed.
Lemma moves_ok cs : forall base r st, (forall i c n, nth_error cs i = Some c -> reads n c -> (n < base)%nat \/ (base + i <= n)%nat) ->
  exists q, moves val store truth vbool primsem gread cvar base cs r st = (q, snd (eval_list val store (evc r) cs st)) /\
  (forall i v, nth_error (fst (eval_list val store (evc r) cs st)) i = Some v -> q (base + i)%nat = v) /\
  (forall n, (n < base)%nat \/ (base + length cs <= n)%nat -> q n = r n).
Proof.
  induction cs as [|c cs IH]; intros base r st H; cbn [moves eval_list].
  - exists r. split; [reflexivity|]. split; [intros [|i] v; discriminate|reflexivity].
  - destruct (evc r c st) as [v st1] eqn:Ev.
    destruct (IH (S base) (setreg val r base v) st1) as (q & Eq & Q1 & Q2).
    { intros i c' n Hi Hr. destruct (H (S i) c' n Hi Hr); [left; lia|right; lia]. }
    assert (El : eval_list val store (evc (setreg val r base v)) cs st1 = eval_list val store (evc r) cs st1).
    { assert (A : forall i c' , nth_error cs i = Some c' -> forall n, reads n c' -> n <> base).
      { intros i c' Hi n Hr. destruct (H (S i) c' n Hi Hr); lia. }
      clear -A. revert st1. induction cs as [|c cs IH]; intros st1; [reflexivity|]. cbn [eval_list].
      rewrite (evalc_ext r (setreg val r base v) c).
      - destruct (evc r c st1) as [w st2]. rewrite IH; [reflexivity|]. intros i c' Hi. exact (A (S i) c' Hi).
      - intros n Hn. unfold setreg. pose proof (A 0%nat c eq_refl n Hn). destruct (Nat.eqb_spec n base); [contradiction|reflexivity]. }
    rewrite El in *. destruct (eval_list val store (evc r) cs st1) as [vs st2]. cbn [fst snd] in *. exists q. split; [exact Eq|]. split.
    + intros [|i] w Hw; cbn [nth_error] in Hw.
      * injection Hw as <-. rewrite Nat.add_0_r, Q2 by (left; lia). unfold setreg. now rewrite Nat.eqb_refl.
      * rewrite <- Nat.add_succ_comm. now apply Q1.
    + intros n Hn. cbn [length] in Hn. rewrite Q2 by lia. unfold setreg. destruct (Nat.eqb_spec n base); [lia|reflexivity].
Qed.

Lemma jump_ok kind compute rands renv ts cs renv' j r st :
  cg_prim_args kind rands renv = Some (ts, cs, renv') -> cg_jump kind rands renv = Some j ->
  let (r1, st1) := run_temps val store compute ts r st in
  let (vs, st2) := eval_list val store (evc r1) cs st1 in
  exists w, run_jump val store truth vbool primsem gread cvar compute j r st = (w, st2) /\
  length vs = length rands /\ forall i v, nth_error vs i = Some v -> w i = v.
Proof.
  intros Ea Ej. destruct (args_ok kind rands renv ts cs renv' Ea) as (L & F & G & K). unfold cg_jump in Ej. rewrite Ea in Ej.
  destruct (run_temps val store compute ts r st) as [r1 st1] eqn:Et.
  assert (Len : length (fst (eval_list val store (evc r1) cs st1)) = length rands).
  { assert (Lc : length cs = length rands) by (clear -F; induction F; cbn [length]; congruence). rewrite <- Lc. clear. revert st1. induction cs as [|c cs IH]; intros st1; [reflexivity|]. cbn [eval_list].
    destruct (evc r1 c st1) as [v st']. specialize (IH st'). destruct (eval_list val store (evc r1) cs st'). cbn [fst length] in *. lia. }
  destruct (eval_list val store (evc r1) cs st1) as [vs st2] eqn:El. cbn [fst] in Len.
  injection Ej as <-. destruct (cg_fast_goto renv rands) eqn:Ef; cbn [run_jump]; rewrite Et.
  - destruct (fast_ok kind renv rands 0 (rev renv) [] eq_refl) as [Lf Hf]; [lia|intros m Hm; lia|exact Ef|].
    destruct (moves_ok cs 0 r1 st1) as (q & Eq & Q1 & Q2).
    { intros i c n Hi Hr. right.
      assert (Hx : exists e, nth_error rands i = Some e /\ op_reads renv e c).
      { clear -F Hi. revert i Hi. induction F as [|e c' l cs H F IH]; intros [|i] Hi; try discriminate; cbn [nth_error] in *.
        - injection Hi as <-. eauto.
        - now apply IH. }
      destruct Hx as (e & He & Ho). destruct (Ho n Hr) as [Hn|(x & D & Hx)].
      - assert (i < length rands)%nat by (apply nth_error_Some; congruence). lia.
      - apply reg_slot in Hx. exact (Hf i e He x n D Hx). }
    rewrite El in *. cbn [fst snd] in *. exists q. split; [exact Eq|]. split; [exact Len|]. exact Q1.
  - destruct (moves_ok cs (length renv') r1 st1) as (q & Eq & Q1 & Q2).
    { intros i c n Hi Hr. left. rewrite Forall_forall in G. apply (G c); [eapply nth_error_In; eauto|exact Hr]. }
    rewrite El in *. cbn [fst snd] in *. rewrite Eq. eexists. split; [reflexivity|]. split; [exact Len|]. intros i v Hv. now apply Q1.
Qed.
End Run.

(** ** conditionals *)
Section Cond.
Variable kind : id -> idkind.
Variable val store : Type.
Variable truth : val -> bool.
Variable vbool : bool -> val.
Variable primsem : prim -> list val -> store -> val * store.
Variable gread : id -> store -> val.
Variable cvar local : id -> val.
Hypothesis truth_bool : forall b, truth (vbool b) = b.
Hypothesis prim_bool : forall p vs st, p_type p = Some t_bool -> exists b, fst (primsem p vs st) = vbool b.
Hypothesis prim_false : forall st, primsem p_false [] st = (vbool false, st).
Hypothesis cvar_bool : forall x, kind x = KCvar t_bool -> exists b, cvar x = vbool b.
Variable renv : list slot.
Variable r : nat -> val.
Hypothesis regs_ok : forall x n, kind x = KLocal -> reg_of renv x n -> r n = local x.
Notation evc := (evalc val store truth vbool primsem gread cvar r).
Notation sem := (means kind val store truth primsem gread cvar local).
Notation seml := (mean_list kind val store truth primsem gread cvar local).

Lemma cg_bool e : forall c, cg_cexp kind e renv = Some c -> ctype_of c = Some t_bool -> forall st, exists b, fst (evc c st) = vbool b.
Proof.
  induction e using exp_ind2; intros c E T st; try discriminate.
  - cbn [cg_cexp] in E. apply cg_var_ok in E. destruct E as [[_ ->]|[(t & K & ->)|(_ & m & Hm & ->)]]; cbn [ctype_of] in T; try discriminate.
    injection T as ->. cbn [evalc fst]. auto.
  - cbn [cg_cexp] in E. destruct (cg_cexp kind e1 renv) as [a|] eqn:E1; [|discriminate].
    destruct (cg_cexp kind e2 renv) as [b|] eqn:E2; [|discriminate]. destruct (cg_cexp kind e3 renv) as [d|] eqn:E3; [|discriminate].
    injection E as <-. unfold cg_if in *. destruct (_ && cexp_eqb d _) eqn:F1.
    { cbn [evalc]. destruct (evc a st) as [v st1]. destruct (truth v); [|cbn [fst]; eauto]. destruct (evc b st1). cbn [fst]. eauto. }
    destruct (_ && cexp_eqb a b) eqn:F2.
    { cbn [evalc]. destruct (evc a st) as [v st1]. destruct (truth v); [cbn [fst]; eauto|]. destruct (evc d st1). cbn [fst]. eauto. }
    cbn [ctype_of] in T. injection T as T. destruct (ctype_of b) as [tb|] eqn:Tb; [|discriminate]. destruct (ctype_of d) as [td|] eqn:Td; [|discriminate].
    destruct (tb =? td) eqn:Etd; [|discriminate]. subst tb. assert (td = t_bool) by lia. subst td.
    cbn [evalc]. destruct (evc a st) as [v st1]. destruct (truth v); [now apply IHe2|now apply IHe3].
  - rewrite cg_prim in E. destruct (all_cexp kind renv l) as [k|]; [|discriminate]. injection E as <-. cbn [ctype_of] in T. cbn [evalc].
    destruct (eval_list _ _ _ k st) as [vs st1]. now apply prim_bool.
Qed.
Lemma quiet_ok e : quiet primsem e -> forall c st, cg_cexp kind e renv = Some c -> snd (evc c st) = st.
Proof.
  induction e using exp_ind2; intros Q c st E; try discriminate.
  - cbn [cg_cexp] in E. apply cg_var_ok in E. destruct E as [[_ ->]|[(t & K & ->)|(_ & m & Hm & ->)]]; reflexivity.
  - cbn [cg_cexp] in E. destruct (cg_cexp kind e1 renv) as [a|] eqn:E1; [|discriminate].
    destruct (cg_cexp kind e2 renv) as [b|] eqn:E2; [|discriminate]. destruct (cg_cexp kind e3 renv) as [d|] eqn:E3; [|discriminate].
    injection E as <-. inversion Q as [|? ? ? Q1 Q2 Q3|]; subst. specialize (IHe1 Q1 _ st eq_refl).
    unfold cg_if. destruct (_ && cexp_eqb d _).
    { cbn [evalc]. destruct (evc a st) as [v st1]. cbn [snd] in IHe1. subst st1. specialize (IHe2 Q2 _ st eq_refl). destruct (truth v); [|reflexivity]. destruct (evc b st). exact IHe2. }
    specialize (IHe3 Q3 _ st eq_refl). destruct (_ && cexp_eqb a b).
    { cbn [evalc]. destruct (evc a st) as [v st1]. cbn [snd] in IHe1. subst st1. destruct (truth v); [reflexivity|]. destruct (evc d st). exact IHe3. }
    cbn [evalc]. destruct (evc a st) as [v st1]. cbn [snd] in IHe1. subst st1. destruct (truth v); auto.
  - rewrite cg_prim in E. destruct (all_cexp kind renv l) as [k|] eqn:Ek; [|discriminate]. injection E as <-. inversion Q as [| |? ? ? Qp Ql]; subst.
    cbn [evalc]. assert (El : snd (eval_list val store evc k st) = st).
    { clear Qp Q. revert k Ek Ql. induction H as [|e l He Hl IH]; intros k Ek Ql; cbn [all_cexp] in Ek.
      - injection Ek as <-. reflexivity.
      - fold all_cexp in Ek. destruct (cg_cexp kind e renv) as [c|] eqn:Ec; [|discriminate]. destruct (all_cexp kind renv l) as [k'|]; [|discriminate].
        injection Ek as <-. cbn [eval_list]. specialize (He (Forall_inv Ql) c st eq_refl). destruct (evc c st) as [v st1]. cbn [snd] in He. subst st1.
        specialize (IH k' eq_refl (Forall_inv_tail Ql)). destruct (eval_list val store evc k' st). exact IH. }
    destruct (eval_list val store evc k st) as [vs st1]. cbn [snd] in El. subst st1. apply Qp.
Qed.

Notation or_safe := (or_safe primsem kind renv).
Lemma cg_sem e : or_safe e -> forall c st, cg_cexp kind e renv = Some c -> sem e st (fst (evc c st)) (snd (evc c st)).
Proof.
  induction e using exp_ind2; intros S c st E; try discriminate.
  - cbn [cg_cexp] in E. apply cg_var_ok in E. destruct E as [[K ->]|[(t & K & ->)|(K & m & Hm & ->)]]; cbn [evalc fst snd].
    + now apply m_global. + eapply m_cvar; eauto. + rewrite (regs_ok x m K Hm). now apply m_local.
  - cbn [cg_cexp] in E. destruct (cg_cexp kind e1 renv) as [a|] eqn:E1; [|discriminate].
    destruct (cg_cexp kind e2 renv) as [b|] eqn:E2; [|discriminate]. destruct (cg_cexp kind e3 renv) as [d|] eqn:E3; [|discriminate].
    injection E as <-. cbn [or_safe] in S. destruct S as (S1 & S2 & S3 & Sq). specialize (IHe1 S1 a st eq_refl).
    set (ty := match ctype_of b, ctype_of d with Some t, Some u => if t =? u then t else t_obj | _, _ => t_obj end).
    assert (Ty : ty = t_bool -> ctype_of b = Some t_bool /\ ctype_of d = Some t_bool).
    { unfold ty. destruct (ctype_of b) as [tb|]; [|discriminate]. destruct (ctype_of d) as [td|]; [|discriminate].
      destruct (tb =? td) eqn:Etd; [|discriminate]. intros ->. split; [reflexivity|]. f_equal. lia. }
    assert (Bv : forall e' c', cg_cexp kind e' renv = Some c' -> ctype_of c' = Some t_bool -> forall st', vbool (truth (fst (evc c' st'))) = fst (evc c' st')).
    { intros e' c' E' T' st'. destruct (cg_bool e' c' E' T' st') as (b' & ->). now rewrite truth_bool. }
    unfold cg_if. fold ty. destruct ((ty =? t_bool) && cexp_eqb d (CCall p_false [])) eqn:F1.
    { apply andb_prop in F1. destruct F1 as [F1 F2]. apply cexp_eqb_eq in F2. assert (F1' : ty = t_bool) by lia. destruct (Ty F1') as [Tb Td].
      cbn [evalc]. destruct (evc a st) as [v st1]. cbn [fst snd] in IHe1. destruct (truth v) eqn:Ev.
      - specialize (IHe2 S2 b st1 eq_refl). specialize (Bv e2 b E2 Tb st1). destruct (evc b st1) as [w st2]. cbn [fst snd] in *. rewrite Bv. eapply m_true; eauto.
      - cbn [fst snd]. specialize (IHe3 S3 d st1 eq_refl). subst d. cbn [evalc eval_list] in IHe3. rewrite prim_false in IHe3. cbn [fst snd] in IHe3. eapply m_false; eauto. }
    destruct ((ty =? t_bool) && cexp_eqb a b) eqn:F2.
    { apply andb_prop in F2. destruct F2 as [F2 F3]. apply cexp_eqb_eq in F3. assert (F2' : ty = t_bool) by lia. destruct (Ty F2') as [Tb Td].
      assert (Qa : quiet primsem e1) by (apply (Sq a b); auto). pose proof (quiet_ok e1 Qa a st E1) as Qs.
      assert (Bt := Bv e2 b E2 Tb st). subst b. cbn [evalc].
      specialize (IHe2 S2 a st eq_refl). destruct (evc a st) as [v st1] eqn:Ea. cbn [fst snd] in *. subst st1. destruct (truth v) eqn:Ev; cbn [fst snd].
      - rewrite Bt. eapply m_true; eauto.
      - specialize (IHe3 S3 d st eq_refl). specialize (Bv e3 d E3 Td st). destruct (evc d st) as [w st2]. cbn [fst snd] in *. rewrite Bv. eapply m_false; eauto. }
    cbn [evalc]. destruct (evc a st) as [v st1]. cbn [fst snd] in IHe1. destruct (truth v) eqn:Ev; [eapply m_true|eapply m_false]; eauto.
  - rewrite cg_prim in E. destruct (all_cexp kind renv l) as [k|] eqn:Ek; [|discriminate]. injection E as <-. cbn [evalc].
    assert (El : seml l st (fst (eval_list val store evc k st)) (snd (eval_list val store evc k st))).
    { cbn [or_safe] in S. clear p f. revert k Ek S st. induction H as [|e l He Hl IH]; intros k Ek S st; cbn [all_cexp] in Ek.
      - injection Ek as <-. constructor.
      - fold all_cexp in Ek. destruct (cg_cexp kind e renv) as [c|] eqn:Ec; [|discriminate]. destruct (all_cexp kind renv l) as [k'|]; [|discriminate].
        injection Ek as <-. cbn [eval_list]. destruct S as [Se Sl]. specialize (He Se c st eq_refl). destruct (evc c st) as [v st1]. cbn [fst snd] in He.
        specialize (IH k' eq_refl Sl st1). destruct (eval_list val store evc k' st1). cbn [fst snd] in *. econstructor; eauto. }
    destruct (eval_list val store evc k st) as [vs st1]. cbn [fst snd] in El. destruct (primsem p vs st1) as [w st2] eqn:Ep. eapply m_prim; eauto.
Qed.

Lemma sem_fun e : forall st v st1, sem e st v st1 -> forall w st2, sem e st w st2 -> w = v /\ st2 = st1.
Proof.
  induction e using exp_ind2; intros st v st1 H1 w st2 H2; try (now inversion H1).
  - inversion H1; subst; inversion H2; subst; try congruence; auto.
  - inversion H1 as [| | |? ? ? ? v1 s1 ? ? A1 A2 A3|? ? ? ? v1 s1 ? ? A1 A2 A3|]; subst; inversion H2 as [| | |? ? ? ? v2 s2 ? ? B1 B2 B3|? ? ? ? v2 s2 ? ? B1 B2 B3|]; subst;
      destruct (IHe1 _ _ _ A1 _ _ B1) as [-> ->]; [eauto|congruence|congruence|eauto].
  - inversion H1 as [| | | | |? ? ? ? vs s1 ? ? Hl Hp]; subst. inversion H2 as [| | | | |? ? ? ? ws s2 ? ? Kl Kp]; subst.
    assert (A : ws = vs /\ s2 = s1).
    { clear Hp Kp H1 H2. revert st vs s1 ws s2 Hl Kl. induction H as [|e l He Hf IH]; intros st0 vs s1 ws s2 Hl Kl.
      - inversion Hl; subst; inversion Kl; subst; auto.
      - inversion Hl as [|? ? ? x1 t1 xs ? Hx Hxs]; subst. inversion Kl as [|? ? ? y1 u1 ys ? Hy Hys]; subst.
        destruct (He _ _ _ Hx _ _ Hy) as [-> ->]. destruct (IH _ _ _ _ _ Hxs Hys) as [-> ->]. auto. }
    destruct A as [-> ->]. rewrite Hp in Kp. injection Kp as -> ->. auto.
Qed.
Lemma cg_sem_iff e c st v st' : or_safe e -> cg_cexp kind e renv = Some c -> sem e st v st' <-> evc c st = (v, st').
Proof.
  intros S E. pose proof (cg_sem e S c st E) as H. split.
  - intros H'. destruct (sem_fun e _ _ _ H _ _ H') as [-> ->]. now destruct (evc c st).
  - intros X. rewrite X in H. exact H.
Qed.
Lemma quiet_safe e : quiet primsem e -> or_safe e.
Proof.
  induction e using exp_ind2; intros Q; cbn [or_safe]; auto.
  - inversion Q; subst. auto.
  - inversion Q as [| |? ? ? Qp Ql]; subst. clear Q Qp. induction H as [|e l He Hf IH]; [exact I|]. split; [exact (He (Forall_inv Ql))|exact (IH (Forall_inv_tail Ql))].
Qed.
End Cond.

Lemma gcsafe_no_alloc : forall e, cg_gcsafe_cexp e = true -> no_alloc e.
Proof.
  intros e. induction e using exp_ind2; cbn [cg_gcsafe_cexp]; intros G; try discriminate G.
  - constructor.
  - apply andb_prop in G. destruct G as [G G3]. apply andb_prop in G. destruct G as [G1 G2]. constructor; auto.
  - destruct (p_type p); [|discriminate G]. apply andb_prop in G. destruct G as [G1 G2].
    constructor; try (intros ->; discriminate G1).
    rewrite forallb_forall in G2. rewrite Forall_forall in *. auto.
Qed.
Lemma args_no_alloc : forall kind rands renv ts cs renv', cg_prim_args kind rands renv = Some (ts, cs, renv') ->
  forall i e, nth_error rands i = Some e -> (exists n rv, In (n, e, rv) ts /\ nth_error cs i = Some (CReg n)) \/ no_alloc e.
Proof.
  intros kind rands. induction rands as [|a rands IH]; intros renv ts cs renv' H i e N; [destruct i; discriminate N|].
  cbn [cg_prim_args] in H. destruct (cg_gcsafe_cexp a) eqn:Ga.
  - destruct (cg_cexp kind a renv) as [c|]; [|discriminate H]. destruct (cg_prim_args kind rands renv) as [[[ts1 cs1] r1]|] eqn:E; [|discriminate H].
    injection H as <- <- <-. destruct i as [|i]; cbn [nth_error] in *.
    + injection N as ->. right. now apply gcsafe_no_alloc.
    + exact (IH _ _ _ _ E i e N).
  - destruct (cg_prim_args kind rands (STmp :: renv)) as [[[ts1 cs1] r1]|] eqn:E; [|discriminate H].
    injection H as <- <- <-. destruct i as [|i]; cbn [nth_error] in *.
    + injection N as ->. left. exists (length renv), renv. split; [now left|reflexivity].
    + destruct (IH _ _ _ _ E i e N) as [[n [rv [I J]]]|]; [left|now right]. exists n, rv. split; [now right|exact J].
Qed.
