(** The n-ary fixnum macros of /repo/0.sf:432-516, applied to operands that are
    already evaluated (the expansion of the macros, with every operand a fixnum). *)
From Coq Require Import ZArith List Bool.
From Verif Require Import Base Model_Imm.
Import ListNotations.
Open Scope Z_scope.

(** the common shape of fx+, fx*, fxlogand, fxlogor and fxlogxor:
    [(_)] is [unit], [(_ x)] is [x], [(_ x y z ...)] is [(op x (_ y z ...))] *)
Fixpoint fx_nary (op : Z -> Z -> res Z) (u : Z) (l : list Z) : res Z :=
  match l with
  | [] => Val u
  | [x] => Val x
  | x :: l' => rbind (fx_nary op u l') (fun r => op x r)
  end.
Definition fx_plus := fx_nary fxadd 0.       (* 0.sf:432-437 *)
Definition fx_times := fx_nary fxmul 1.      (* 0.sf:445-450 *)
Definition fx_logand := fx_nary fxlogand (-1). (* 0.sf:460-465 *)
Definition fx_logor := fx_nary fxlogor 0.    (* 0.sf:467-472 *)
Definition fx_logxor := fx_nary fxlogxor 0.  (* 0.sf:474-479 *)

(** 0.sf:439-443: [(fx- x y z ...)] is [(fx- x (fx+ y z ...))] *)
Definition fx_minus (x : Z) (l : list Z) : res Z :=
  match l with
  | [] => fxneg x
  | [y] => fxsub x y
  | _ => rbind (fx_plus l) (fun s => fxsub x s)
  end.

(** 0.sf:493-516: [(fx<? x y z ...)] is [(let ([t y]) (and (fx<? x t) (fx<? t z ...)))];
    [x] and [y] are the first two operands *)
Fixpoint fx_chain (cmp : Z -> Z -> bool) (x y : Z) (l : list Z) : bool :=
  match l with
  | [] => cmp x y
  | z :: l' => cmp x y && fx_chain cmp y z l'
  end.
Definition fx_eq := fx_chain Z.eqb.                        (* 0.sf:493-496 *)
Definition fx_lt := fx_chain fxlt.                         (* 0.sf:498-501 *)
Definition fx_gt := fx_chain (fun x y => y <? x).          (* 0.sf:503-506 *)
Definition fx_le := fx_chain Z.leb.                        (* 0.sf:508-511 *)
Definition fx_ge := fx_chain (fun x y => y <=? x).         (* 0.sf:513-516 *)
