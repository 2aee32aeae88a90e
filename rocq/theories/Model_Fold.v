(** Constant folding: tests of types that are known are replaced by the branch taken.
    Source: /repo/4.sf:656-731, the types of expressions 3.sf:865-880, the types in the texts of primitives 6.sf:119-152.

    The folder calls itself on what it has made (4.sf:719-721), so it has fuel; C34_total says how much is enough.
    [None]: out of fuel, or variant-case finds no clause (assignments to local variables are gone when this pass runs).
    The symbols of new names are left out; [map] goes from left to right. *)
From Coq Require Import ZArith String List Bool.
From Verif Require Import Base Model_Lit Model_CStr Model_Core.
Import ListNotations.
Open Scope Z_scope.

Notation ctype := (list Z).
(** 6.sf:119-124, 137-141, 147-151: the whole text if all its characters belong to a name *)
Definition name_only (s : ctype) : option ctype := if Nat.eqb (length s) (word_span s) then Some s else None.
(** 6.sf:119-124 *)
Definition primexp_ctype (p : prim) : option ctype :=
  match val_or None (substring_before p (codes "(")) with Some s => name_only s | None => None end.
(** 6.sf:126-130 *)
Definition prim_ctype (p : prim) : option ctype :=
  match
    match val_or None (substring_after p (codes "$return")) with
    | Some s => primexp_ctype (val_or [] (substring_after_span s (codes " ")))
    | None => None
    end
  with
  | Some t => Some t
  | None => primexp_ctype p
  end.
(** 6.sf:136-142, 144-152 *)
Definition ctype_between (a z : list Z) (p : prim) : option ctype :=
  match val_or None (substring_after p a) with
  | Some s => match val_or None (substring_before_suffix s z) with Some s' => name_only s' | None => None end
  | None => None
  end.
Definition typecheck_prim_ctype : prim -> option ctype := ctype_between (codes "bool(is_") (codes "_$arg)").
Definition typeassert_prim_ctype : prim -> option ctype := ctype_between (codes "void(assert(is_") (codes "_$arg))").
(** 4.sf:670-671, 682-683: the types that say nothing *)
Definition dull (t : ctype) : bool :=
  (if zlist_dec t (codes "obj") then true else false) || (if zlist_dec t (codes "void") then true else false).

(** an association list from identifiers to C types or #f *)
Notation tenv := (list (id * option ctype)).
(** 3.sf:865-880 *)
Fixpoint exp_ctype (e : exp) (env : tenv) : option ctype :=
  match e with
  | EVar x => match assq x env with Some t => t | None => None end
  | EIf _ h c =>
    match exp_ctype h env, exp_ctype c env with
    | Some t, Some u => if zlist_dec t u then Some t else None
    | _, _ => None
    end
  | EApp (ELam ids b) rands =>
    if Nat.eqb (length ids) (length rands) then exp_ctype b (combine ids (map (fun r => exp_ctype r env) rands) ++ env) else None
  | EPrim _ p _ => prim_ctype p
  | _ => None
  end.
(** 4.sf:660-675 fold-typecheck-ctype: which branch, if that is known *)
Fixpoint fold_typecheck (e : exp) (env : tenv) : option bool :=
  match e with
  | EApp (ELam ids b) rands =>
    if Nat.eqb (length ids) (length rands) then fold_typecheck b (combine ids (map (fun r => exp_ctype r env) rands) ++ env) else None
  | EPrim _ p [rand] =>
    match typecheck_prim_ctype p, exp_ctype rand env with
    | Some t, Some u => if negb (dull t) && negb (dull u) then Some (if zlist_dec t u then true else false) else None
    | _, _ => None
    end
  | _ => None
  end.
(** 4.sf:677-686 fold-typeassert-ctype *)
Definition fold_typeassert (e : exp) (env : tenv) : option tenv :=
  match e with
  | EPrim _ p [EVar x] =>
    match typeassert_prim_ctype p with
    | Some t =>
      if negb (dull t) && match exp_ctype (EVar x) env with Some u => dull u | None => true end
      then Some ((x, Some t) :: env) else None
    | None => None
    end
  | _ => None
  end.

Section Maps.
Variable cf : exp -> Z -> option (exp * Z).
(** map cf over expressions and over lambda-expressions *)
Fixpoint cf_list (l : list exp) (n : Z) : option (list exp * Z) :=
  match l with
  | [] => Some ([], n)
  | e :: l' =>
    match cf e n with
    | Some (e', n1) => match cf_list l' n1 with Some (l2, n2) => Some (e' :: l2, n2) | None => None end
    | None => None
    end
  end.
Fixpoint cf_lams (l : list (list id * exp)) (n : Z) : option (list (list id * exp) * Z) :=
  match l with
  | [] => Some ([], n)
  | (ids, b) :: l' =>
    match cf b n with
    | Some (b', n1) => match cf_lams l' n1 with Some (l2, n2) => Some ((ids, b') :: l2, n2) | None => None end
    | None => None
    end
  end.
End Maps.

(** 4.sf:689-729 const-fold and its cf, with the counter of timestamps *)
Fixpoint const_fold (fuel : nat) (e : exp) (env : tenv) (n : Z) : option (exp * Z) :=
  match fuel with
  | O => None
  | S f =>
    let cf e n := const_fold f e env n in
    match e with
    | EVar x => Some (e, n)
    | ESet x e1 =>
      if global_id x then match cf e1 n with Some (e1', n1) => Some (ESet x e1', n1) | None => None end else None
    | EIf a b c =>
      match cf a n with
      | Some (t, n1) =>
        match cf b n1 with
        | Some (h, n2) =>
          match cf c n2 with
          | Some (c', n3) =>
            match fold_typecheck t env with
            | Some k => Some (begin_exp t (if k then h else c') n3)
            | None => Some (EIf t h c', n3)
            end
          | None => None
          end
        | None => None
        end
      | None => None
      end
    | EPrim ef p l => match cf_list cf l n with Some (l', n1) => Some (EPrim ef p l', n1) | None => None end
    | EApp rator rands =>
      match degenerate_let e with
      | Some b => cf b n
      | None =>
        match begin_view e with
        | Some (e1, e2) =>
          match cf e1 n with
          | Some (f1, n1) =>
            match const_fold f e2 (match fold_typeassert f1 env with Some env2 => env2 | None => env end) n1 with
            | Some (f2, n2) => Some (begin_exp f1 f2 n2)
            | None => None
            end
          | None => None
          end
        | None =>
          match let_view e with
          | Some (ids, rands, body) =>
            match cf_list cf rands n with
            | Some (frands, n1) =>
              match const_fold f body (combine ids (map (fun r => exp_ctype r env) frands) ++ env) n1 with
              | Some (body', n2) => Some (let_exp ids frands body', n2)
              | None => None
              end
            | None => None
            end
          | None =>
            match cf rator n with
            | Some (rator', n1) =>
              match cf_list cf rands n1 with
              | Some (rands', n2) =>
                match let_view (EApp rator' rands') with
                | Some _ => cf (EApp rator' rands') n2
                | None => Some (EApp rator' rands', n2)
                end
              | None => None
              end
            | None => None
            end
          end
        end
      end
    | EFix ids lams b =>
      match cf_lams cf lams n with
      | Some (lams', n1) => match cf b n1 with Some (b', n2) => Some (EFix ids lams' b', n2) | None => None end
      | None => None
      end
    | ELam ids b => match cf b n with Some (b', n1) => Some (ELam ids b', n1) | None => None end
    | ELetcc x b => match cf b n with Some (b', n1) => Some (ELetcc x b', n1) | None => None end
    | EWithcc k e1 =>
      match cf k n with
      | Some (k', n1) => match cf e1 n1 with Some (e1', n2) => Some (EWithcc k' e1', n2) | None => None end
      | None => None
      end
    end
  end.
(** 4.sf:658, 731 constant-fold *)
Definition constant_fold (fuel : nat) (e : exp) (n : Z) : option (exp * Z) := const_fold fuel e [] n.
