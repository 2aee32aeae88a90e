(** Binding occurrences. *)
From Coq Require Import ZArith List Bool.
From Verif Require Import Model_Core Spec_Sem Spec_Free.
Import ListNotations.
Open Scope Z_scope.

(** all binding occurrences of an expression *)
Fixpoint binders (e : exp) : list id :=
  match e with
  | EVar _ => []
  | ESet _ e => binders e
  | EIf a b c => binders a ++ binders b ++ binders c
  | EPrim _ _ l => flat_map binders l
  | EApp f l => binders f ++ flat_map binders l
  | ELam xs b => xs ++ binders b
  | EFix xs lams b => xs ++ flat_map (fun l => fst l ++ binders (snd l)) lams ++ binders b
  | ELetcc x b => x :: binders b
  | EWithcc k e => binders k ++ binders e
  end.
(** every variable is bound at one place; [n] is the last number given out.  This is what parse-program (3.sf:667-765)
    and the passes maintain by making new identifiers for all bound variables. *)
Definition distinct (n : Z) (e : exp) : Prop :=
  NoDup (binders e) /\ forall x, In x (binders e) -> 0 <= ts x <= n.
(** only variables of lambda and letcc are assigned *)
Fixpoint assignable (e : exp) : Prop :=
  match e with
  | EVar _ => True
  | ESet _ e => assignable e
  | EIf a b c => assignable a /\ assignable b /\ assignable c
  | EPrim _ _ l => fold_right (fun e p => assignable e /\ p) True l
  | EApp f l => assignable f /\ fold_right (fun e p => assignable e /\ p) True l
  | ELam _ b => assignable b
  | EFix xs lams b =>
    fold_right (fun l p => assignable (snd l) /\ p) True lams /\ assignable b /\
    forall x, In x xs -> ~ assigned_in x b /\ forall l, In l lams -> ~ In x (fst l) -> ~ assigned_in x (snd l)
  | ELetcc _ b => assignable b
  | EWithcc k e => assignable k /\ assignable e
  end.
(** no assignment to a local variable is left *)
Fixpoint no_local_set (e : exp) : Prop :=
  match e with
  | EVar _ => True
  | ESet x e => global_id x = true /\ no_local_set e
  | EIf a b c => no_local_set a /\ no_local_set b /\ no_local_set c
  | EPrim _ _ l => fold_right (fun e p => no_local_set e /\ p) True l
  | EApp f l => no_local_set f /\ fold_right (fun e p => no_local_set e /\ p) True l
  | ELam _ b => no_local_set b
  | EFix _ lams b => fold_right (fun l p => no_local_set (snd l) /\ p) True lams /\ no_local_set b
  | ELetcc _ b => no_local_set b
  | EWithcc k e => no_local_set k /\ no_local_set e
  end.
(** every primitive operation keeps to its declared effect; leaving the program counts as an action *)
Fixpoint honest (P : prim -> script) (e : exp) : Prop :=
  match e with
  | EVar _ => True
  | ESet _ e => honest P e
  | EIf a b c => honest P a /\ honest P b /\ honest P c
  | EPrim ef p l => (if zlist_dec p the_halt_prim then may_act ef else honours ef (P p)) /\ fold_right (fun e q => honest P e /\ q) True l
  | EApp f l => honest P f /\ fold_right (fun e q => honest P e /\ q) True l
  | ELam _ b => honest P b
  | EFix _ lams b => fold_right (fun l q => honest P (snd l) /\ q) True lams /\ honest P b
  | ELetcc _ b => honest P b
  | EWithcc k e => honest P k /\ honest P e
  end.
