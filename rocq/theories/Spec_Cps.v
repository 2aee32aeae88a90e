(** What conversion to continuation-passing style must provide. *)
From Coq Require Import ZArith List Bool.
From Verif Require Import Model_Core Spec_Sem.
Import ListNotations.

(** [tails true e]: every call in [e] is in tail position, and in every procedure made by [e] too; [e] itself ends in a
    call or leaves the program.  [tails false e]: [e] makes no call at all; the procedures that it makes are as before.
    [let] (a call of a lambda expression on the spot) is not a call. *)
Fixpoint tails (t : bool) (e : exp) {struct e} : Prop :=
  match e with
  | EVar _ => t = false
  | ESet _ e1 => t = false /\ tails false e1
  | EIf a b c => tails false a /\ tails t b /\ tails t c
  | EPrim _ p l => (t = true -> p = the_halt_prim) /\ fold_right (fun e q => tails false e /\ q) True l
  | ELam _ b => t = false /\ tails true b
  | EFix _ lams b => fold_right (fun l q => tails true (snd l) /\ q) True lams /\ tails t b
  | EApp (ELam xs b) l =>
    (if Nat.eqb (length xs) (length l) then tails t b else t = true /\ tails true b) /\ fold_right (fun e q => tails false e /\ q) True l
  | EApp f l => t = true /\ tails false f /\ fold_right (fun e q => tails false e /\ q) True l
  | ELetcc _ _ | EWithcc _ _ => False
  end.

(** no procedure is called while the expression is evaluated, and continuations are neither taken nor used *)
Fixpoint quiet (e : exp) : bool :=
  match e with
  | EVar _ => true
  | ESet _ e1 => quiet e1
  | EIf a b c => quiet a && quiet b && quiet c
  | EPrim _ _ l => forallb quiet l
  | ELam _ _ => true
  | EFix _ _ b => quiet b
  | EApp (ELam xs b) l => Nat.eqb (length xs) (length l) && forallb quiet l && quiet b
  | EApp _ _ => false
  | ELetcc _ _ | EWithcc _ _ => false
  end.
(** The continuation expression of withcc is a local variable, a procedure, or a constant (such as ktrap), or it calls
    something.  All uses of withcc in the library are such (0.sf:208-225, lib/libl.sf:4233-4260). *)
Definition plain_cont (P : prim -> script) (k : exp) : Prop :=
  match k with
  | EVar x => global_id x = false
  | ELam _ _ => True
  | EPrim _ p [] => p <> the_halt_prim /\ exists c, P p = SRet (AConst c)
  | _ => quiet k = false
  end.
Fixpoint tame (P : prim -> script) (e : exp) : Prop :=
  match e with
  | EVar _ => True
  | ESet _ e => tame P e
  | EIf a b c => tame P a /\ tame P b /\ tame P c
  | EPrim _ _ l => fold_right (fun e q => tame P e /\ q) True l
  | EApp f l => tame P f /\ fold_right (fun e q => tame P e /\ q) True l
  | ELam _ b => tame P b
  | EFix _ lams b => fold_right (fun l q => tame P (snd l) /\ q) True lams /\ tame P b
  | ELetcc _ b => tame P b
  | EWithcc k e => plain_cont P k /\ tame P k /\ tame P e
  end.

(** the operations that are waiting for an operand *)
Definition pending (s : state) : list frame := match s with Ev _ _ k _ | Args _ _ _ k _ | Ret _ k _ => k | Halted _ _ => [] end.
(** how deeply the text of an expression is nested *)
Fixpoint height (e : exp) : nat :=
  match e with
  | EVar _ => S O
  | ESet _ e | ELam _ e | ELetcc _ e => S (height e)
  | EIf a b c => S (Nat.max (height a) (Nat.max (height b) (height c)))
  | EPrim _ _ l => S (fold_right (fun e n => Nat.max (height e) n) O l)
  | EApp f l => S (fold_right (fun e n => Nat.max (height e) n) (height f) l)
  | EFix _ lams b => S (fold_right (fun l n => Nat.max (height (snd l)) n) (height b) lams)
  | EWithcc k e => S (Nat.max (height k) (height e))
  end.
