(** C53: values that C holds when memory is collected, /repo/7.sf:185-205 (cg-prim-args), 321-335, 430-502 (cg-cexp?, cg-cexp). *)
From Coq Require Import ZArith String List Bool Lia Permutation.
From Verif Require Import Base Model_Lit Model_Core Model_Beta Model_CodeGen Spec_Sem Spec_Free Spec_Scope Spec_Fold Spec_Lift Spec_CodeGen Spec_Collect Proofs_CStr Proofs_Core Proofs_Free Proofs_Collect.
Import ListNotations.
Open Scope Z_scope.

(** Operations that are statements, closures, and calls of labels and of closures never get values from before a collection. *)
Theorem C53_operands order collects ls lams b prog t p lab sh l : any_order order -> honest collects (EFix ls lams b) -> code_generate (EFix ls lams b) = Some prog ->
  (statement_of (KPrim t p l) prog -> ~ stale order collects (KPrim t p l)) /\ (statement_of (KClo t lab l) prog -> ~ stale order collects (KClo t lab l)) /\
  (statement_of (KGoto sh lab l) prog -> ~ stale order collects (KGoto sh lab l)) /\ (statement_of (KJump sh l) prog -> ~ stale order collects (KJump sh l)).
Proof. intros A H G. assert (F := prog_fine order collects False ls lams b prog A H (fun f => match f with end) G). split; [|split; [|split]]; intros S; exact (F _ S). Qed.
(** No statement does, if operations written as C expressions have one operand, or operands that do not allocate. *)
Theorem C53_tame_partial order collects ls lams b prog s : any_order order -> honest collects (EFix ls lams b) -> tame (EFix ls lams b) -> code_generate (EFix ls lams b) = Some prog ->
  statement_of s prog -> ~ stale order collects s.
Proof. intros A H T G S. assert (F := prog_fine order collects True ls lams b prog A H (fun _ => T) G s S). destruct s; try exact F; exact (F Logic.I). Qed.

Local Definition v (z : Z) : id := mkid z XNone.
Local Definition gs : id := mkid (-1) XNone.
Local Definition gf : id := mkid (-2) XNone.
(** 0.sf:1510, 1746, 1785 *)
Local Definition sym_string : prim := codes "obj(hpushstr($live, newstring(symbolname(getsymbol(obj_from_$arg)))))".
Local Definition open_out : prim := codes "obj(mkoport($live, cxm_cknull(fopen(stringchars(obj_from_$arg), ""w""), ""fopen"")))".
Local Definition write_str : prim := codes "void(fputs(stringchars(obj_from_$arg), oportdata(obj_from_$arg)))".
(** 0.sf:1202-1207; it takes the second field first *)
Local Definition cons : prim := codes "{ /* cons */ 
    hreserve(hbsz(3), $live); /* $live live regs */
    *--hp = obj_from_$arg;
    *--hp = obj_from_$arg;
    *--hp = obj_from_size(PAIR_BTAG); 
    $return obj(hendblk(3)); }".
Local Definition collects (p : prim) : bool := if zlist_dec p sym_string then true else if zlist_dec p open_out then true else if zlist_dec p cons then true else false.
Local Definition string_of := EPrim EAl sym_string [EVar gs].
Local Definition port := EPrim EAny open_out [EVar gf].
(** (begin (write-string (symbol->string s) (open-output-file f)) (halt s)) *)
Local Definition bad : exp := let_exp [v 1] [EPrim EObAct write_str [string_of; port]] (EPrim EAny the_halt_prim [EVar gs]).
(** (halt (cons (open-output-file f) (symbol->string s))) *)
Local Definition good : exp := EPrim EAny the_halt_prim [EPrim EAl cons [string_of; port]].
Local Definition left (l : list cexp) : list nat := seq 0 (length l).
Local Lemma left_ok : any_order left.
Proof. intros l. apply Permutation_refl. Qed.
Local Fixpoint prims (e : exp) : list (effect * prim * list exp) :=
  match e with
  | EVar _ => []
  | ESet _ e => prims e
  | EIf a b c => prims a ++ prims b ++ prims c
  | EPrim ef p l => (ef, p, l) :: flat_map prims l
  | EApp f l => prims f ++ flat_map prims l
  | ELam _ b => prims b
  | EFix _ ls b => flat_map (fun l => prims (snd l)) ls ++ prims b
  | ELetcc _ b => prims b
  | EWithcc k e => prims k ++ prims e
  end.
Local Lemma prims_part e ys e1 d : In (ys, e1) (parts e) -> In d (prims e1) -> In d (prims e).
Proof.
  intros I J. destruct e as [x|x e|a b c0|ef p l|f l|xs b|xs fs b|x b|k e]; cbn [parts] in I; cbn [prims In]; rewrite ?in_app_iff, ?in_flat_map.
  - easy.
  - destruct I as [[= <- <-]|[]]. assumption.
  - destruct I as [[= <- <-]|[[= <- <-]|[[= <- <-]|[]]]]; auto.
  - apply in_map_iff in I. destruct I as (y & [= <- <-] & I). eauto.
  - destruct I as [[= <- <-]|I]; [auto|]. apply in_map_iff in I. destruct I as (y & [= <- <-] & I). eauto.
  - destruct I as [[= <- <-]|[]]. assumption.
  - destruct I as [[= <- <-]|I]; [auto|]. apply in_map_iff in I. destruct I as (y & [= <- <-] & I). eauto.
  - destruct I as [[= <- <-]|[]]. assumption.
  - destruct I as [[= <- <-]|[[= <- <-]|[]]]; auto.
Qed.
Local Lemma prims_ok ef p l e : part_of (EPrim ef p l) e -> In (ef, p, l) (prims e).
Proof. remember (EPrim ef p l) as d eqn:E. induction 1 as [|ys e1 e0 I _ IH]; [subst; now left | eapply prims_part; eauto]. Qed.
Local Lemma honest_by e : forallb (fun q => negb (collects (snd (fst q))) || negb (gc_safe_effect (fst (fst q)))) (prims e) = true -> honest collects e.
Proof.
  intros H. split; [reflexivity|]. intros ef p l I C. apply prims_ok in I. rewrite forallb_forall in H. specialize (H _ I). cbn [fst snd] in H. rewrite C in H. cbn in H. now destruct (gc_safe_effect ef).
Qed.
Local Definition program (e : exp) := EFix [] [] e.
Example C53_tame_partial_ex : any_order left /\ honest collects (program good) /\ tame (program good) /\
  code_generate (program good) = Some (mkcprog (KSeq (KSeq (KSet (TReg 0) (XPrim sym_string [XGlob gs])) (KSeq (KSet (TReg 1) (XPrim open_out [XGlob gf])) (KPrim (TReg 0) cons [XReg 0; XReg 1])))
    (KPrim (TReg 0) the_halt_prim [XReg 0])) []).
Proof.
  split; [exact left_ok|]. split; [apply honest_by; vm_compute; reflexivity|]. split; [|vm_compute; reflexivity].
  intros ef p l H C L. apply prims_ok in H. vm_compute in H. exfalso. repeat (destruct H as [H|H]; [injection H as <- <- <-; try (vm_compute in L; lia); vm_compute in C; discriminate|]). destruct H.
Qed.
Example C53_operands_ex : exists prog, any_order left /\ honest collects (program good) /\ code_generate (program good) = Some prog /\ statement_of (KPrim (TReg 0) cons [XReg 0; XReg 1]) prog.
Proof.
  eexists. split; [exact left_ok|]. split; [apply C53_tame_partial_ex|]. split; [apply C53_tame_partial_ex|]. left. cbn [main]. apply wi_first, wi_second, wi_second, wi_here.
Qed.
(** Without this, C expressions contain calls that allocate beside values that C already holds: fputs gets the characters of a
    string that nothing refers to when the port is made. *)
Theorem C53_refuted : exists order collects ls lams b prog s, any_order order /\ honest collects (EFix ls lams b) /\ closed (EFix ls lams b) /\ code_generate (EFix ls lams b) = Some prog /\
  statement_of s prog /\ stale order collects s.
Proof.
  exists left, collects, [], [], bad. eexists. exists (KSet TVoid (XPrim write_str [XPrim sym_string [XGlob gs]; XPrim open_out [XGlob gf]])).
  split; [exact left_ok|]. split; [apply honest_by; vm_compute; reflexivity|].
  split; [intros x F; apply free_vars_free in F; vm_compute in F; repeat (destruct F as [<-|F]; [reflexivity|]); destruct F|].
  split; [vm_compute; reflexivity|]. split; [left; cbn [main]; apply wi_first, wi_here|].
  apply sl_set with O. apply ck_old with [1%nat; 2%nat] 2%nat 1%nat; [|now left | discriminate].
  assert (Q : forall p x n, collects p = true -> clocked left collects (XPrim p [XGlob x]) n (Some (S n, S n))).
  { intros p x n C. replace (S n) with (after collects p n) by (unfold after; now rewrite C). apply ck_prim with [n]; [|repeat constructor]. eapply ea_cons; [reflexivity | apply ck_glob | apply ea_nil]. }
  eapply ea_cons; [reflexivity | apply Q; reflexivity|]. eapply ea_cons; [reflexivity | apply Q; reflexivity | apply ea_nil].
Qed.
Print Assumptions C53_operands.
Print Assumptions C53_tame_partial.
Print Assumptions C53_refuted.
