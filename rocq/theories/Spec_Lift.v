(** What lambda lifting must provide. *)
From Coq Require Import ZArith List Bool.
From Verif Require Import Model_Core Spec_Sem Spec_Free.
Import ListNotations.
Open Scope Z_scope.

(** In the group of procedures [ids], defined by [lams], the [i]-th procedure needs the local variable [x] of the
    surroundings: it refers to [x], or to a procedure of the group that needs [x]. *)
Inductive needs (ids : list id) (lams : list (list id * exp)) : nat -> id -> Prop :=
| nd_own i ps b x : nth_error lams i = Some (ps, b) -> free_in x (ELam ps b) -> global_id x = false -> ~ In x ids -> needs ids lams i x
| nd_call i ps b j y x : nth_error lams i = Some (ps, b) -> free_in y (ELam ps b) -> nth_error ids j = Some y -> needs ids lams j x -> needs ids lams i x.

(** Use of variables that does not count what is bound by a [let] to a procedure that the body does not use: such
    bindings are dropped by the next pass. *)
Definition is_let (e : exp) : Prop := exists ids b l, e = let_exp ids l b /\ length ids = length l.
Inductive used_in : id -> exp -> Prop :=
| us_here x e : named x e -> used_in x e
| us_part x e ys e' : ~ is_let e -> In (ys, e') (parts e) -> ~ In x ys -> used_in x e' -> used_in x e
| us_body x ids b l : length ids = length l -> ~ In x ids -> used_in x b -> used_in x (let_exp ids l b)
| us_bind x ids b l i y e : length ids = length l -> nth_error ids i = Some y -> nth_error l i = Some e -> used_in y b -> used_in x e -> used_in x (let_exp ids l b)
| us_value x ids b l e : length ids = length l -> In e l -> (forall ps c, e <> ELam ps c) -> used_in x e -> used_in x (let_exp ids l b).
(** the program has no [letcc] and [withcc], and as many procedures as names in every [fix] *)
Fixpoint direct (e : exp) : Prop :=
  match e with
  | EVar _ => True
  | ESet _ e => direct e
  | EIf a b c => direct a /\ direct b /\ direct c
  | EPrim _ _ l => fold_right (fun e p => direct e /\ p) True l
  | EApp f l => direct f /\ fold_right (fun e p => direct e /\ p) True l
  | ELam _ b => direct b
  | EFix xs lams b => length xs = length lams /\ fold_right (fun l p => direct (snd l) /\ p) True lams /\ direct b
  | ELetcc _ _ | EWithcc _ _ => False
  end.
(** the program mentions no variables but globals and its own *)
Definition closed (e : exp) : Prop := forall x, free_in x e -> global_id x = true.
(** apart from the operators of [let]s, the only procedures made inside are wrappers that call one of the labels [L] *)
Inductive flat (L : list id) : exp -> Prop :=
| fl_var x : flat L (EVar x)
| fl_set x e : flat L e -> flat L (ESet x e)
| fl_if a b c : flat L a -> flat L b -> flat L c -> flat L (EIf a b c)
| fl_prim ef p l : Forall (flat L) l -> flat L (EPrim ef p l)
| fl_app f l : flat L f -> Forall (flat L) l -> flat L (EApp f l)
| fl_let ids l b : length ids = length l -> Forall (flat L) l -> flat L b -> flat L (let_exp ids l b)
| fl_wrap ys t zs : In t L -> flat L (ELam ys (EApp (EVar t) (map EVar zs))).
