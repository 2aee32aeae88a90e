(** What unboxing of values may rely on, and what it must provide. *)
From Coq Require Import ZArith String List Bool.
From Verif Require Import Base Model_Lit Model_Core Spec_Sem Spec_Free Spec_Scope Spec_Fold.
Import ListNotations.
Open Scope Z_scope.

(** ** Typed variables
    A local variable of C type [t] is given its value through the macro t_from_obj (6.sf:556-586), which is written here as
    an operation of its own. *)
Definition conv (t : list Z) : prim := codes "unbox " ++ t.
Fixpoint wraps (xs : list id) (l : list exp) : list exp :=
  match xs, l with
  | x :: xs', e :: l' => match xt x with XC t => EPrim ENo (conv t) [e] | _ => e end :: wraps xs' l'
  | _, _ => l
  end.
(** the program with all these operations *)
Fixpoint explicit (e : exp) : exp :=
  match e with
  | EVar x => EVar x
  | ESet x e => ESet x (explicit e)
  | EIf a b c => EIf (explicit a) (explicit b) (explicit c)
  | EPrim ef p l => EPrim ef p (map explicit l)
  | EApp f l => EApp (explicit f) (wraps match f with ELam xs _ => xs | _ => [] end (map explicit l))
  | ELam xs b => ELam xs (explicit b)
  | EFix xs ls b => EFix xs (map (fun l => (fst l, explicit (snd l))) ls) (explicit b)
  | ELetcc x b => ELetcc x (explicit b)
  | EWithcc k e => EWithcc (explicit k) (explicit e)
  end.

(** ** Uses of variables *)
Definition unboxed (t : list Z) : Prop := telling t /\ t <> codes "objptr".
Definition bare (e e' : exp) : Prop := match e, e' with EPrim _ _ _, EVar _ => True | _, _ => False end.
(** [x] is used in [e]: as an operand of a primitive that takes it at the C type [t], or otherwise *)
Inductive use_in (x : id) : exp -> option (list Z) -> Prop :=
| us_ref : use_in x (EVar x) None
| us_set e : use_in x (ESet x e) None
| us_operand ef p l i : nth_error l i = Some (EVar x) -> use_in x (EPrim ef p l) (c_argref_ctype p i)
| us_part e ys e' t : In (ys, e') (parts e) -> ~ In x ys -> ~ bare e e' -> use_in x e' t -> use_in x e t.
Definition only_at (t : list Z) (x : id) (e : exp) : Prop := unboxed t /\ forall u, use_in x e u -> u = Some t.
(** [x] is used more than once, each time at the C type [t] *)
Definition worth (t : list Z) (x : id) (e : exp) : Prop := only_at t x e /\ exists k, occurs any_use x e k /\ (1 < k)%nat.

(** ** What primitives promise.  [of t s] as in Spec_Fold; [fits t s]: t_from_obj can be applied to values of shape [s]. *)
Record unboxing (P : prim -> script) (of fits : list Z -> shape -> bool) : Prop := {
  ub_types : c_types P of;
  ub_fits : forall t s, telling t -> of t s = true -> fits t s = true;
  ub_use : forall p i t vs w v w' u, c_argref_ctype p i = Some t -> unboxed t -> run (P p) vs w = Some (v, w') -> nth_error vs i = Some u ->
    fits t (shape_of u) = true;
  ub_conv : forall t v w, name t -> run (P (conv t)) [v] w = if fits t (shape_of v) then Some (v, w) else None;
  ub_check : forall t p u w v w', check_text t p -> run (P p) [u] w = Some (v, w') -> w' = w }.

(** ** Programs *)
(** the value of a straight expression is there after finitely many steps, or something goes wrong *)
Fixpoint straight (e : exp) : Prop :=
  match e with
  | EVar _ | ELam _ _ => True
  | ESet x e => straight e
  | EIf a b c => straight a /\ straight b /\ straight c
  | EPrim _ p l => p <> the_halt_prim /\ fold_right (fun e q => straight e /\ q) True l
  | EApp (ELam ids b) l => length ids = length l /\ straight b /\ fold_right (fun e q => straight e /\ q) True l
  | EFix _ _ b => straight b
  | _ => False
  end.
(** [e] can always come to a use of [x] at the C type [t] *)
Inductive sure (x : id) (t : list Z) : exp -> Prop :=
| su_use ef p l i : p <> the_halt_prim -> nth_error l i = Some (EVar x) -> c_argref_ctype p i = Some t -> (forall e, In e l -> straight e) -> sure x t (EPrim ef p l)
| su_operand e o l e' : decomp e = Some (o, l) -> In e' l -> sure x t e' -> sure x t e
| su_branches a b c : straight a -> sure x t b -> sure x t c -> sure x t (EIf a b c)
| su_body ids b l : length ids = length l -> (forall e, In e l -> straight e) -> ~ In x ids -> sure x t b -> sure x t (let_exp ids l b)
| su_fix ids lams b : ~ In x ids -> sure x t b -> sure x t (EFix ids lams b).
(** the procedures of a program, but for the operators of lets *)
Fixpoint procs (e : exp) : list (list id * exp) :=
  match e with
  | EVar _ => []
  | ESet _ e => procs e
  | EIf a b c => procs a ++ procs b ++ procs c
  | EPrim _ _ l => flat_map procs l
  | EApp f l => match f with ELam ids b => if Nat.eqb (length ids) (length l) then procs b else procs f | _ => procs f end ++ flat_map procs l
  | ELam xs b => (xs, b) :: procs b
  | EFix _ ls b => flat_map (fun l => (fst l, snd l) :: procs (snd l)) ls ++ procs b
  | ELetcc _ b => procs b
  | EWithcc k e => procs k ++ procs e
  end.
(** the parameters that are worth a type are sure to be used *)
Definition gentle (e : exp) : Prop := forall xs b x t, In (xs, b) (procs e) -> In x xs -> worth t x b -> sure x t b.
(** the variables whose type is tested, for a branch where that is worth it, are local *)
Definition local_tests (e : exp) : Prop :=
  forall ef p x b c t, part_of (EIf (EPrim ef p [EVar x]) b c) e -> check_text t p -> worth t x b -> global_id x = false.
(** tests of types take their operands as they are *)
Definition plain_tests (e : exp) : Prop := forall ef p x t, part_of (EPrim ef p [EVar x]) e -> check_text t p -> c_argref_ctype p 0 = None.

(** no variable of the program has a C type yet *)
Definition untyped (e : exp) : Prop := forall y t, In y (binders e) -> xt y <> XC t.
(** no operator is a let that binds nothing or gives what it binds *)
Definition neat (e : exp) : Prop :=
  forall f l, part_of (EApp f l) e -> (forall b, f <> let_exp [] [] b) /\ (forall x a, f <> let_exp [x] [a] (EVar x)).

(** what is left when the pass runs: no letcc, no withcc and no assignments to local variables *)
Definition late (e : exp) : Prop :=
  forall e1, part_of e1 e -> match e1 with ELetcc _ _ | EWithcc _ _ => False | ESet x _ => global_id x = true | _ => True end.

(** all variables of a program that have a C type are used at this type only *)
Definition typed_uses (e : exp) : Prop :=
  forall ys b e1 x t u, part_of e1 e -> In (ys, b) (parts e1) -> In x ys -> xt x = XC t -> use_in x b u -> u = Some t.
