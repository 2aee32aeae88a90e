(** What calls with variable numbers of arguments should deliver. *)
From Coq Require Import ZArith List Bool.
From Verif Require Import Model_Apply.
Import ListNotations.
Open Scope Z_scope.

(** the first [rc] registers are [l] *)
Definition holds (r : list obj) (rc : nat) (l : list obj) : Prop := exists junk, r = l ++ junk /\ rc = length l.
(** a proper list and its items *)
Inductive list_of (h : heap) : obj -> list obj -> Prop :=
| lo_nil : list_of h ONull []
| lo_cons a x y l : blk h a = Some (BPair x y) -> list_of h y l -> list_of h (OPtr a) (x :: l).
(** nothing that existed is changed *)
Definition extends (h h' : heap) : Prop := (free h <= free h')%nat /\ forall a, (a < free h)%nat -> blk h' a = blk h a.
Definition wf_heap (h : heap) : Prop := forall a, (free h <= a)%nat -> blk h a = None.

Definition accepts (f : formals) (argc : nat) : Prop := if rest f then (req f <= argc)%nat else argc = req f.
(** the values of the parameters of a procedure called with [args] *)
Definition bound (f : formals) (h : heap) (args vals : list obj) : Prop :=
  if rest f then exists l, vals = firstn (req f) args ++ [l] /\ list_of h l (skipn (req f) args) else vals = args.
(** a procedure of some other host *)
Definition plain (h : heap) (p : obj) (z : Z) : Prop := exists a s, p = OPtr a /\ blk h a = Some (BProc (CExt z) s).
Definition is_apply (h : heap) (p : obj) : Prop := exists a s, p = OPtr a /\ blk h a = Some (BProc (CApp 0) s).

(** the clause of a case-lambda that handles [argc] arguments *)
Inductive chosen (argc : nat) : list (formals * obj) -> formals -> obj -> Prop :=
| ch_here f p cs : accepts f argc -> chosen argc ((f, p) :: cs) f p
| ch_later f p cs f' p' : ~ accepts f argc -> chosen argc cs f' p' -> chosen argc ((f, p) :: cs) f' p'.

(** the call ends in the procedure [p] (with entry point [z]), its parameters bound to [args] *)
Definition outcome (f : formals) (p k : obj) (args : list obj) (h : heap) (x : ares exitst) (z : Z) : Prop :=
  exists r' rc' h' vals, x = AOk (CExt z, r', rc', h') /\ holds r' rc' (p :: k :: vals) /\ bound f h' args vals /\ extends h h'.
