(** Occurrences of variables in expressions. *)
From Coq Require Import ZArith List Bool.
From Verif Require Import Model_Core Spec_Sem.
Import ListNotations.

(** the immediate parts of an expression, each with the variables that are bound there *)
Definition parts (e : exp) : list (list id * exp) :=
  match e with
  | EVar _ => []
  | ESet _ e => [([], e)]
  | EIf a b c => [([], a); ([], b); ([], c)]
  | EPrim _ _ l => map (pair []) l
  | EApp f l => ([], f) :: map (pair []) l
  | ELam xs b => [(xs, b)]
  | EFix xs ls b => (xs, b) :: map (fun l => (xs ++ fst l, snd l)) ls
  | ELetcc x b => [([x], b)]
  | EWithcc k e => [([], k); ([], e)]
  end.
(** the variable is named by the expression itself, in a reference or in an assignment *)
Inductive named (x : id) : exp -> Prop := nm_ref : named x (EVar x) | nm_set e : named x (ESet x e).
Inductive free_in (x : id) (e : exp) : Prop :=
| free_here : named x e -> free_in x e
| free_part ys e' : In (ys, e') (parts e) -> ~ In x ys -> free_in x e' -> free_in x e.
(** the variable is assigned *)
Inductive assigned_in (x : id) (e : exp) : Prop :=
| asg_here e' : e = ESet x e' -> assigned_in x e
| asg_part ys e' : In (ys, e') (parts e) -> ~ In x ys -> assigned_in x e' -> assigned_in x e.

(** [occurs h x e n]: there are [n] free occurrences of [x] in [e] where [h] holds *)
Inductive occurs (h : id -> exp -> bool) (x : id) (e : exp) : nat -> Prop :=
| occ ns : Forall2 (fun p n => In x (fst p) /\ n = O \/ ~ In x (fst p) /\ occurs h x (snd p) n) (parts e) ns ->
    occurs h x e ((if h x e then 1 else 0) + list_sum ns).
Definition any_use (x : id) (e : exp) : bool := match e with EVar y | ESet y _ => id_eqb x y | _ => false end.
Definition assignment (x : id) (e : exp) : bool := match e with ESet y _ => id_eqb x y | _ => false end.
