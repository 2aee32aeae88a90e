(** What the C code must not do when memory is collected: an operation must not get an object that C has read or computed
    before a collection.  Collections happen inside operations that allocate; then objects move (6.sf:563-640), and objects
    that are neither in registers nor in globals are freed.  A C program may compute the operands of an operation in any order. *)
From Coq Require Import ZArith String List Bool.
From Verif Require Import Base Model_Lit Model_Core Spec_Free Spec_Fold Spec_Scope Model_CodeGen Spec_CodeGen.
Import ListNotations.

Section Collect.
Variable order : list cexp -> list nat.
(** the operations in which a collection happens *)
Variable collects : prim -> bool.
Definition after (p : prim) (n : nat) : nat := if collects p then S n else n.
(** [clocked c n (Some (t, m))]: [n] collections have happened before [c] is computed, [m] after it, and its value has been made
    when there had been [t]; [None]: an operation got a value from before a collection *)
Inductive clocked : cexp -> nat -> option (nat * nat) -> Prop :=
| ck_reg i n : clocked (XReg i) n (Some (n, n))
| ck_glob x n : clocked (XGlob x) n (Some (n, n))
| ck_cvar x n : clocked (XCvar x) n (Some (n, n))
| ck_test a b c n : clocked a n None -> clocked (XIf a b c) n None
| ck_then a b c n t m o : clocked a n (Some (t, m)) -> clocked b m o -> clocked (XIf a b c) n o
| ck_else a b c n t m o : clocked a n (Some (t, m)) -> clocked c m o -> clocked (XIf a b c) n o
| ck_prim p l n ts m : each (order l) l n (Some (ts, m)) -> Forall (eq m) ts -> clocked (XPrim p l) n (Some (after p m, after p m))
| ck_old p l n ts m t : each (order l) l n (Some (ts, m)) -> In t ts -> t <> m -> clocked (XPrim p l) n None
| ck_rand p l n : each (order l) l n None -> clocked (XPrim p l) n None
with each : list nat -> list cexp -> nat -> option (list nat * nat) -> Prop :=
| ea_nil l n : each [] l n (Some ([], n))
| ea_cons i o l c n t m ts q : nth_error l i = Some c -> clocked c n (Some (t, m)) -> each o l m (Some (ts, q)) -> each (i :: o) l n (Some (t :: ts, q))
| ea_here i o l c n : nth_error l i = Some c -> clocked c n None -> each (i :: o) l n None
| ea_later i o l c n t m : nth_error l i = Some c -> clocked c n (Some (t, m)) -> each o l m None -> each (i :: o) l n None.
Inductive stale_operands (l : list cexp) : Prop :=
| so_inside n : each (order l) l n None -> stale_operands l
| so_old n ts m t : each (order l) l n (Some (ts, m)) -> In t ts -> t <> m -> stale_operands l.
(** one statement uses an old value *)
Inductive stale : code -> Prop :=
| sl_set t c n : clocked c n None -> stale (KSet t c)
| sl_if c a b n : clocked c n None -> stale (KIf c a b)
| sl_prim t p l : stale_operands l -> stale (KPrim t p l)
| sl_clo t lab l : stale_operands l -> stale (KClo t lab l)
| sl_goto s lab l : stale_operands l -> stale (KGoto s lab l)
| sl_jump s l : stale_operands l -> stale (KJump s l).
End Collect.
(** statements of code and of programs *)
Inductive within (s : code) : code -> Prop :=
| wi_here : within s s
| wi_first a b : within s a -> within s (KSeq a b)
| wi_second a b : within s b -> within s (KSeq a b)
| wi_block x a : within s a -> within s (KBlock x a)
| wi_then c a b : within s a -> within s (KIf c a b)
| wi_else c a b : within s b -> within s (KIf c a b).
Definition statement_of (s : code) (p : cprog) : Prop := within s (main p) \/ exists lab q, In (lab, q) (labelled p) /\ within s (text q).
(** effects tell where collections may happen *)
Definition honest (collects : prim -> bool) (e : exp) : Prop :=
  collects the_void_prim = false /\ forall ef p l, part_of (EPrim ef p l) e -> collects p = true -> gc_safe_effect ef = false.
(** operations written as C expressions have at most one operand, or operands that do not allocate *)
Definition tame (e : exp) : Prop :=
  forall ef p l, part_of (EPrim ef p l) e -> Model_Beta.prim_cexp p = true -> (2 <= length l)%nat ->
  forall d ef' p' l', In d l -> part_of (EPrim ef' p' l') d -> gc_safe_effect ef' = true.
