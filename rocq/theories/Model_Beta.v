(** Beta substitution: beta-substitute of /repo/4.sf:738-905, and the expression patterns it uses.

    Simplifications: the association list of substitutions holds pairs of an expression and an optional second one (in the
    source a list of two or three elements).  Recursion has fuel: [None] stands for running out of it, and for the error of
    variant-case on an assignment to a local variable (4.sf:832-903 has no clause for it). *)
From Coq Require Import ZArith String List Bool.
From Verif Require Import Base Model_Lit Model_CStr Model_Core Model_Fold.
Import ListNotations.
Open Scope Z_scope.

(** 6.sf:134-136 prim-cexp? *)
Definition prim_cexp (p : prim) : bool :=
  negb (val_or false (string_contains p (codes "$return"))) && match primexp_ctype p with Some _ => true | None => false end.

(** 4.sf:740-750 *)
Definition bs_zero_cost (e : exp) : bool :=
  match e with
  | EVar x => negb (global_id x) || global_id_constant x
  | EPrim ef p rands => ref_transparent_effect ef && match rands with [] => true | _ => false end && prim_cexp p
  | _ => false
  end.
(** 4.sf:752-766 *)
Fixpoint bs_ref_transparent (e : exp) : bool :=
  match e with
  | EVar x => negb (global_id x) || global_id_constant x
  | EIf a b c => bs_ref_transparent a && bs_ref_transparent b && bs_ref_transparent c
  | EPrim ef p rands => ref_transparent_effect ef && forallb bs_ref_transparent rands
  | ELam ids b => true
  | EApp (ELam ids b) rands => Nat.eqb (length ids) (length rands) && (forallb bs_ref_transparent rands && bs_ref_transparent b)
  | _ => false
  end.
(** 4.sf:768-784 *)
Fixpoint bs_removable_if_dead (e : exp) : bool :=
  match e with
  | EVar x => true
  | EIf a b c => bs_removable_if_dead a && bs_removable_if_dead b && bs_removable_if_dead c
  | EPrim ef p rands => removable_if_dead_effect ef && forallb bs_removable_if_dead rands
  | ELam ids b => true
  | EApp (ELam ids b) rands => Nat.eqb (length ids) (length rands) && (forallb bs_removable_if_dead rands && bs_removable_if_dead b)
  | ELetcc x b => bs_removable_if_dead b
  | EWithcc k e1 => bs_removable_if_dead k && bs_removable_if_dead e1
  | _ => false
  end.
(** 4.sf:786-797 *)
Definition id_one_of (x : id) (e : exp) : bool := match e with EVar y => id_eqb x y | _ => false end.
Definition bs_arg_of_application (x : id) (body : exp) : bool :=
  match body with
  | EPrim ef p rands => forallb bs_ref_transparent rands && existsb (id_one_of x) rands
  | EApp rator rands =>
    bs_ref_transparent rator && forallb bs_ref_transparent rands && (id_one_of x rator || existsb (id_one_of x) rands)
  | _ => false
  end.
(** 4.sf:799-805 *)
Definition bs_cheap_ref_transparent (e : exp) : bool :=
  match e with
  | EPrim ef p rands => ref_transparent_effect ef && Nat.leb (length rands) 2 && forallb bs_zero_cost rands
  | _ => false
  end.
(** 4.sf:807-817 *)
Definition bs_cheap_lambda (e : exp) : bool :=
  match e with
  | ELam ids (EPrim ef p rands) => forallb bs_zero_cost rands
  | ELam ids (EApp rator rands) => bs_zero_cost rator && forallb bs_zero_cost rands
  | _ => false
  end.
(** 3.sf:446-487 labelapp-exp?, curry-exp? *)
Fixpoint curry_args (ids : list id) (rands : list exp) : bool :=
  match ids, rands with
  | [], _ => true
  | x :: ids', EVar y :: rands' => id_eqb y x && curry_args ids' rands'
  | _, _ => false
  end.
Definition curry_expp (e : exp) : bool :=
  match e with ELam ids (EApp (EVar f) rands) => label_id f && curry_args ids rands | _ => false end.

Notation bsubsts := (list (id * (exp * option exp))).
(** 4.sf:858-891: what becomes of a variable of a let *)
Inductive bs_choice := CDrop | CPass | CSubst | CPartial.
Definition bs_choose (hold_cps hold_lifting : bool) (x : id) (rand body : exp) : bs_choice :=
  let refc := var_reference_count x body in
  if Nat.eqb refc 0 then if bs_removable_if_dead rand then CDrop else CPass
  else if Nat.eqb refc 1 then if bs_ref_transparent rand || (negb hold_cps && bs_arg_of_application x body) then CSubst else CPass
  else if Nat.eqb refc 2 && negb hold_cps && bs_cheap_ref_transparent rand then CSubst
  else if (if hold_lifting then curry_expp rand else bs_cheap_lambda rand) then
    if var_only_applied_in_exp x body then CSubst else CPartial
  else if bs_zero_cost rand then CSubst else CPass.
(** 4.sf:840-891: the loop over the variables of a let *)
Fixpoint bs_loop (hc hl : bool) (body : exp) (ids : list id) (rands : list exp) (oids : list id) (orands : list exp) (s : bsubsts)
  : list id * list exp * bsubsts :=
  match ids, rands with
  | x :: ids', rand :: rands' =>
    match bs_choose hc hl x rand body with
    | CDrop => bs_loop hc hl body ids' rands' oids orands s
    | CPass => bs_loop hc hl body ids' rands' (x :: oids) (rand :: orands) s
    | CSubst => bs_loop hc hl body ids' rands' oids orands ((x, (rand, None)) :: s)
    | CPartial => bs_loop hc hl body ids' rands' (x :: oids) (rand :: orands) ((x, (EVar x, Some rand)) :: s)
    end
  | _, _ => (oids, orands, s)
  end.
Fixpoint mapo {A B} (f : A -> option B) (l : list A) : option (list B) :=
  match l with
  | [] => Some []
  | x :: l' => match f x, mapo f l' with Some y, Some m => Some (y :: m) | _, _ => None end
  end.
(** 4.sf:821-830 bs-head, for the function [bs] *)
Definition bs_head (bs : exp -> option exp) (s : bsubsts) (rator : exp) : option exp :=
  match rator with
  | EVar x => Some (match assq x s with Some (t, None) => t | Some (_, Some h) => h | None => rator end)
  | _ => bs rator
  end.
(** 4.sf:819-903 beta-subst and its bs *)
Fixpoint beta_subst (hc hl : bool) (fuel : nat) (e : exp) (s : bsubsts) : option exp :=
  match fuel with
  | O => None
  | S f =>
    let bs e := beta_subst hc hl f e s in
    match e with
    | EVar x => Some (match assq x s with Some (t, _) => t | None => e end)
    | ESet x e1 => if global_id x then option_map (ESet x) (bs e1) else None
    | EIf a b c => match bs a, bs b, bs c with Some a', Some b', Some c' => Some (EIf a' b' c') | _, _, _ => None end
    | EPrim ef p rands => option_map (EPrim ef p) (mapo bs rands)
    | EApp rator rands =>
      match degenerate_let e with
      | Some b => bs b
      | None =>
        match let_view e with
        | Some (ids, rands, body) =>
          match mapo bs rands with
          | Some rands' =>
            match bs_loop hc hl body ids rands' [] [] s with
            | ([], _, s') => beta_subst hc hl f body s'
            | (oids, orands, s') => option_map (let_exp oids orands) (beta_subst hc hl f body s')
            end
          | None => None
          end
        | None =>
          match bs_head bs s rator, mapo bs rands with
          | Some rator', Some rands' =>
            match let_view (EApp rator' rands') with
            | Some _ => bs (EApp rator' rands')
            | None => Some (EApp rator' rands')
            end
          | _, _ => None
          end
        end
      end
    | EFix ids lams b =>
      match mapo (fun l => option_map (pair (fst l)) (bs (snd l))) lams, bs b with
      | Some lams', Some b' => Some (EFix ids lams' b')
      | _, _ => None
      end
    | ELam ids b => option_map (ELam ids) (bs b)
    | ELetcc x b => option_map (ELetcc x) (bs b)
    | EWithcc k e1 => match bs k, bs e1 with Some k', Some e1' => Some (EWithcc k' e1') | _, _ => None end
    end
  end.
(** 4.sf:738, 905 beta-substitute *)
Definition beta_substitute (hold_cps hold_lifting : bool) (fuel : nat) (e : exp) : option exp := beta_subst hold_cps hold_lifting fuel e [].
