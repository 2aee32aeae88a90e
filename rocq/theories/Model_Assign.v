(** Assignment conversion.  Source: /repo/4.sf:291-412.

    Failure (c-error "boxing error???") is [None].  New names are numbered from left to right; the symbols of names are
    left out, so nothing depends on the order. *)
From Coq Require Import ZArith String List Bool.
From Verif Require Import Model_Lit Model_Core.
Import ListNotations.
Open Scope Z_scope.

(** 4.sf:294-346 *)
Definition the_box_prim : prim := codes
"hreserve(hbsz(1), $live); /* $live live regs */
    *--hp = obj_from_$arg;
    $return obj(hendblk(1));".
Definition box_exp (e : exp) : exp := EPrim EAny the_box_prim [e].
Definition the_boxref_prim : prim := codes "obj(objptr_from_$arg[0])".
Definition boxref_exp (e : exp) : exp := EPrim EOb the_boxref_prim [e].
Definition the_boxset_prim : prim := codes "obj(objptr_from_$arg[0] = obj_from_$arg)".
Definition boxset_exp (b e : exp) : exp := EPrim EAct the_boxset_prim [b; e].

Notation substs := (list (id * id)).            (** variable, name of its box *)
(** 4.sf:383-397, the loop over the parameters *)
Fixpoint box_params (ids : list id) (body : exp) (n : Z) : substs * Z :=
  match ids with
  | [] => ([], n)
  | x :: ids' =>
    if var_assigned_in_exp x body
    then let (b, n1) := fresh XNone n in let (l, n2) := box_params ids' body n1 in ((x, b) :: l, n2)
    else box_params ids' body n
  end.
Definition let_boxes (bs : substs) (body : exp) : exp :=
  let_exp (map snd bs) (map (fun xb => box_exp (EVar (fst xb))) bs) body.
(** 4.sf:357-410 *)
Fixpoint box (s : substs) (e : exp) (n : Z) {struct e} : option (exp * Z) :=
  let box_list := fix go (l : list exp) (n : Z) : option (list exp * Z) :=
    match l with
    | [] => Some ([], n)
    | e :: l' =>
      match box s e n with
      | Some (e', n1) => match go l' n1 with Some (l1, n2) => Some (e' :: l1, n2) | None => None end
      | None => None
      end
    end in
  let box_lam (xs : list id) (b : exp) (n : Z) : option ((list id * exp) * Z) :=
    let (bs, n1) := box_params xs b n in
    match box (rev bs ++ s) b n1 with Some (b', n2) => Some ((xs, let_boxes bs b'), n2) | None => None end in
  match e with
  | EVar x => Some (match assq x s with Some b => boxref_exp (EVar b) | None => e end, n)
  | ESet x e =>
    if global_id x then match box s e n with Some (e', n1) => Some (ESet x e', n1) | None => None end
    else match assq x s with
         | Some b => match box s e n with Some (e', n1) => Some (boxset_exp (EVar b) e', n1) | None => None end
         | None => None
         end
  | EIf a b c =>
    match box s a n with
    | Some (a', n1) =>
      match box s b n1 with
      | Some (b', n2) => match box s c n2 with Some (c', n3) => Some (EIf a' b' c', n3) | None => None end
      | None => None
      end
    | None => None
    end
  | EPrim ef p l => match box_list l n with Some (l', n1) => Some (EPrim ef p l', n1) | None => None end
  | EApp f l =>
    let general :=
      match box s f n with
      | Some (f', n1) => match box_list l n1 with Some (l', n2) => Some (EApp f' l', n2) | None => None end
      | None => None
      end in
    match f, l with
    | ELam [] b, [] => box s b n                                            (** degenerate-let-exp, 3.sf:366-377 *)
    | ELam [x] (EVar y), [e1] => if id_eqb x y then box s e1 n else general
    | _, _ => general
    end
  | EFix xs lams b =>
    match (fix go (l : list (list id * exp)) (n : Z) : option (list (list id * exp) * Z) :=
             match l with
             | [] => Some ([], n)
             | (ys, e) :: l' =>
               match box_lam ys e n with
               | Some (y, n1) => match go l' n1 with Some (l1, n2) => Some (y :: l1, n2) | None => None end
               | None => None
               end
             end) lams n with
    | Some (lams', n1) => match box s b n1 with Some (b', n2) => Some (EFix xs lams' b', n2) | None => None end
    | None => None
    end
  | ELam xs b => match box_lam xs b n with Some ((_, b'), n1) => Some (ELam xs b', n1) | None => None end
  | ELetcc x b =>
    if var_assigned_in_exp x b
    then let (bx, n1) := fresh XNone n in
         match box ((x, bx) :: s) b n1 with Some (b', n2) => Some (ELetcc x (let_boxes [(x, bx)] b'), n2) | None => None end
    else match box s b n with Some (b', n1) => Some (ELetcc x b', n1) | None => None end
  | EWithcc k e =>
    match box s k n with
    | Some (k', n1) => match box s e n1 with Some (e', n2) => Some (EWithcc k' e', n2) | None => None end
    | None => None
    end
  end.
(** 4.sf:357,412 *)
Definition remove_assignments (e : exp) (n : Z) : option (exp * Z) := box [] e n.
