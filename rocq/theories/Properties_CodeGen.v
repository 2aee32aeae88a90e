(** C52: the code generator, /repo/7.sf:53-78, 126-518, 520-702. *)
From Coq Require Import ZArith String List Bool Lia Permutation.
From Verif Require Import Base Model_Lit Model_Core Model_Beta Model_CodeGen Spec_Sem Spec_Free Spec_Scope Spec_Fold Spec_Cps Spec_Lift Spec_Unbox Spec_CodeGen
  Proofs_CStr Proofs_Core Proofs_Free Proofs_CodeGenRun Proofs_CodeGenSome.
Import ListNotations.
Open Scope Z_scope.

(** The C program does what the lifted program does, in whatever order the C compiler computes operands, and whatever is in
    registers and C variables at first: registers are not overwritten too early when labels and closures are entered, C variables
    are set before they are read, closures find their code and hold what it needs, constants are called as what they hold. *)
Theorem C52_meaning_preserved P order junk dot ls lams b n prog : any_order order -> conversions P -> makes_void P ->
  distinct n (EFix ls lams b) -> closed (EFix ls lams b) -> ready dot ls lams b -> code_generate (EFix ls lams b) = Some prog ->
  implements P order junk dot (explicit (EFix ls lams b)) prog.
Proof. intros A C V D Cl R G. exact (code_ok P order junk dot A C V ls lams b n prog D Cl R G). Qed.
Local Definition v (z : Z) : id := mkid z XNone.
Local Definition t (z : Z) : id := mkid z XTrue.
Local Definition flo : list Z := codes "flonum".
Local Definition c (z : Z) : id := mkid z (XC flo).
Local Definition g : id := mkid (-1) XTrue.
Local Definition plus : prim := codes "flonum($live, flonum_from_$arg + flonum_from_$arg)".
Local Definition one : prim := codes "flonum($live, 1.0)".
Local Definition read : prim := codes "obj(read())".
Local Definition write : prim := codes "void(write($arg))".
Local Definition is_conv (p : prim) : bool := if zlist_dec (firstn 6 p) (codes "unbox ") then true else false.
Local Definition P (p : prim) : script :=
  if is_conv p then STest (AReg 0) (fun s => match s with ShC (CFlo _) => SRet (AReg 0) | _ => SFail end)
  else if zlist_dec p the_void_prim then SRet (AConst CVoid)
  else if zlist_dec p plus then STest (AReg 0) (fun s => STest (AReg 1) (fun t => match s, t with ShC (CFlo a), ShC (CFlo b) => SRet (AConst (CFlo (a + b))) | _, _ => SFail end))
  else if zlist_dec p one then SRet (AConst (CFlo 1))
  else if zlist_dec p read then SInput (SRet (AReg 0))
  else if zlist_dec p write then SEmit (AReg 0) (SRet (AConst CVoid))
  else SFail.
Local Lemma P_conv : conversions P.
Proof.
  intros ty x w r. unfold P. assert (is_conv (conv ty) = true) as -> by reflexivity. cbn [run atom_val nth_error].
  destruct (shape_of x) as [[]| |]; cbn; try discriminate. now intros [= <-].
Qed.
Local Lemma P_void : makes_void P.
Proof. intros w. reflexivity. Qed.
(** operands from the last to the first *)
Local Definition back (l : list cexp) : list nat := rev (seq 0 (length l)).
Local Lemma back_ok : any_order back.
Proof. intros l. apply Permutation_sym, Permutation_rev. Qed.
Ltac closed := intros x F; apply free_vars_free in F; vm_compute in F; repeat (destruct F as [<-|F]; [reflexivity|]); destruct F.
Local Notation V z := (EVar (v z)).
Local Notation C z := (EVar (c z)).
(** the second parameter of continuations is ignored, and so is not passed on by the code that enters the closure *)
Local Definition dot (x : id) : bool := id_eqb x (v 12).
Local Definition ls := [t 1; t 2].
(** (t1 k x): (begin (write x) (k k x)); (t2 k _ y): (halt y) *)
Local Definition lams : list (list id * exp) :=
  [([v 3; v 4], let_exp [v 5] [EPrim EAny write [V 4]] (EApp (V 3) [V 3; V 4]));
   ([v 6; v 7; v 8], EPrim EAny the_halt_prim [V 8])].
(** (begin (set! g (lambda (k x) (t1 k x))) (let ((y (read)) (z 1.0)) (g (lambda (k _) (t2 k _ y)) (fl+ z z)))), z is a C variable *)
Local Definition mainx : exp :=
  let_exp [v 16] [ESet g (ELam [v 9; v 10] (EApp (EVar (t 1)) [V 9; V 10]))]
    (let_exp [v 13; c 14] [EPrim EAny read []; EPrim ENo one []]
      (EApp (EVar g) [ELam [v 11; v 12] (EApp (EVar (t 2)) [V 11; V 12; V 13]); EPrim ENo plus [C 14; C 14]])).
Local Fixpoint subs (e : exp) : list exp :=
  e :: match e with
       | EVar _ => []
       | ESet _ e => subs e
       | EIf a b c => subs a ++ subs b ++ subs c
       | EPrim _ _ l => flat_map subs l
       | EApp f l => subs f ++ flat_map subs l
       | ELam _ b => subs b
       | EFix _ ls b => flat_map (fun l => subs (snd l)) ls ++ subs b
       | ELetcc _ b => subs b
       | EWithcc k e => subs k ++ subs e
       end.
Local Lemma subs_here e : In e (subs e).
Proof. destruct e; now left. Qed.
Local Lemma subs_part e ys e1 d : In (ys, e1) (parts e) -> In d (subs e1) -> In d (subs e).
Proof.
  intros I J. destruct e as [x|x e|a b c0|ef p l|f l|xs b|xs fs b|x b|k e]; cbn [parts] in I; right; rewrite ?in_app_iff, ?in_flat_map.
  - easy.
  - destruct I as [[= <- <-]|[]]. assumption.
  - destruct I as [[= <- <-]|[[= <- <-]|[[= <- <-]|[]]]]; auto.
  - apply in_map_iff in I. destruct I as (y & [= <- <-] & I). eauto.
  - destruct I as [[= <- <-]|I]; [auto|]. apply in_map_iff in I. destruct I as (y & [= <- <-] & I). eauto.
  - destruct I as [[= <- <-]|[]]. assumption.
  - destruct I as [[= <- <-]|I]; [auto|]. apply in_map_iff in I. destruct I as (y & [= <- <-] & I). eauto.
  - destruct I as [[= <- <-]|[]]. assumption.
  - destruct I as [[= <- <-]|[[= <- <-]|[]]]; auto.
Qed.
Local Lemma subs_ok d e : part_of d e -> In d (subs e).
Proof. induction 1 as [|ys e1 e0 I _ IH]; [apply subs_here | eapply subs_part; eauto]. Qed.
Local Lemma lifted_main : lifted ls mainx.
Proof.
  apply li_let; [reflexivity | repeat constructor | |].
  - constructor; [|constructor]. apply li_set. apply (li_wrap ls [v 9; v 10] (t 1) []); [now left | repeat constructor | constructor | easy].
  - apply li_let; [reflexivity | repeat constructor | repeat constructor|]. apply li_app; [constructor | discriminate|]. constructor; [|repeat constructor].
    apply (li_wrap ls [v 11; v 12] (t 2) [v 13]); [right; now left | repeat constructor | constructor; [split; [reflexivity | discriminate] | constructor] | intros z [<-|[]]; split; cbn; intuition discriminate].
Qed.
Local Lemma is_ready : ready dot ls lams mainx.
Proof.
  split.
  - reflexivity.
  - repeat constructor.
  - repeat (constructor; try (intros; discriminate)).
  - split; [|exact lifted_main]. constructor; [|constructor; [|constructor]]; cbn [snd].
    + apply li_let; [reflexivity | repeat constructor | repeat constructor|]. apply li_app; [constructor | discriminate | repeat constructor].
    + repeat constructor.
  - split; [constructor; [|constructor; [|constructor]] |]; cbn; repeat split; discriminate.
  - intros x d d' _ A B. apply subs_ok in A, B. cbn in A, B. repeat (destruct A as [A|A]; try discriminate); try easy. repeat (destruct B as [B|B]; try discriminate); try easy. congruence.
  - intros x y u zs I D i ps b0 p El Ec Ep. apply subs_ok in I. cbn in I. repeat (destruct I as [I|I]; try discriminate); try easy; injection I as <- <- <- <-; try discriminate D.
    destruct i as [|[|i]]; [discriminate El | | now destruct i]. injection Ec as <- <-. injection Ep as <-. intros F. apply Proofs_Free.referenced_free in F. discriminate F.
Qed.
Local Definition prog : cprog :=
  mkcprog (KSeq (KStatic g (t 1))
            (KSeq (KSet (TReg 0) (XPrim read []))
              (KBlock (c 14) (KSeq (KSet (TCvar (c 14) flo) (XPrim one []))
                (KSeq (KClo (TReg 1) (t 2) [XReg 0])
                  (KGoto (Some 2%nat) (t 1) [XReg 1; XPrim plus [XCvar (c 14); XCvar (c 14)]]))))))
    [(t 1, mkproc (Some ([v 9; v 10], 0%nat)) (KSeq (KSet TVoid (XPrim write [XReg 1])) (KJump (Some 2%nat) [XReg 0; XReg 0; XReg 1])));
     (t 2, mkproc (Some ([v 11; v 12], 1%nat)) (KPrim (TReg 3) the_halt_prim [XReg 2]))].
Example C52_meaning_preserved_ex : any_order back /\ conversions P /\ makes_void P /\ distinct 20 (EFix ls lams mainx) /\
  closed (EFix ls lams mainx) /\ ready dot ls lams mainx /\ code_generate (EFix ls lams mainx) = Some prog.
Proof.
  split; [exact back_ok|]. split; [exact P_conv|]. split; [exact P_void|]. split; [|split; [|split; [exact is_ready | vm_compute; reflexivity]]].
  - split; [repeat constructor; cbn; intuition discriminate | intros x; cbn; intuition (subst; cbn; lia)].
  - closed.
Qed.
(** 5 is read and kept in a closure, 2.0 is passed and written, the closure is entered, the program ends with 5 *)
Example C52_meaning_preserved_run : exists w, mstar P back (fun _ => VC (CInt 99)) dot prog
  (MAt None (fun _ => VC (CInt 77)) (mkst [] (fun _ => VC CVoid) [] [CInt 5])) (MHalt (VC (CInt 5)) w) /\ out w = [ShC (CFlo 2)].
Proof.
  eexists. split.
  - eapply mr_step; [eapply ms_goto; [reflexivity | vm_compute; reflexivity]|].
    eapply mr_step; [eapply ms_jump; [reflexivity | vm_compute; reflexivity |]|].
    + eapply (en_dot _ _ _ _ (t 2) [VC (CInt 5)]); vm_compute; [reflexivity | reflexivity | reflexivity | reflexivity | lia].
    + eapply mr_step; [eapply ms_halt; [reflexivity | vm_compute; reflexivity] | apply mr_refl].
  - reflexivity.
Qed.
Print Assumptions C52_meaning_preserved.

(** Programs of this form are compiled. *)
Theorem C52_succeeds W ls lams b n : distinct n (EFix ls lams b) -> closed (EFix ls lams b) -> compiles W ls lams b -> exists prog, code_generate (EFix ls lams b) = Some prog.
Proof.
  intros (N & _) Cl [Le La (F1 & F2) One]. apply (some_ok ls lams b W); try assumption. cbn in N. eapply Proofs_LetrecFix.nodup_l. exact N.
Qed.
Example C52_succeeds_ex : distinct 20 (EFix ls lams mainx) /\ closed (EFix ls lams mainx) /\ compiles (fun _ => 2%nat) ls lams mainx.
Proof.
  split; [apply C52_meaning_preserved_ex|]. split; [apply C52_meaning_preserved_ex|]. split.
  - reflexivity.
  - repeat constructor.
  - split; [constructor; [|constructor; [|constructor]]; cbn [snd] |].
    + apply ft_let; [reflexivity | repeat constructor |]. apply ft_call; [discriminate | repeat constructor | repeat constructor].
    + repeat constructor.
    + apply ft_let; [reflexivity | |].
      * constructor; [|constructor]. apply ft_set; [reflexivity|]. apply (ft_wrap _ _ [v 9; v 10] (t 1) []); [now left | reflexivity | constructor | easy].
      * apply ft_let; [reflexivity | repeat constructor |]. apply ft_call; [discriminate | now constructor |]. constructor; [|repeat constructor].
        apply (ft_wrap _ _ [v 11; v 12] (t 2) [v 13]); [right; now left | reflexivity | repeat constructor | intros z [<-|[]]; cbn; intuition discriminate].
  - intros x x' u ys ys' _ _ A B. apply subs_ok in A, B. cbn in A, B. repeat (destruct A as [A|A]; try discriminate); try easy. repeat (destruct B as [B|B]; try discriminate); try easy. congruence.
Qed.
Print Assumptions C52_succeeds.
