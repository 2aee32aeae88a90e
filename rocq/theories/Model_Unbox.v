(** Unboxing of values: variables that are only ever used at one C type get that type.
    Source: /repo/5.sf:273-360, the uses of variables 3.sf:832-846.

    [None]: out of fuel, or variant-case finds no clause (letcc, withcc and assignments to local variables are gone when
    this pass runs).  The symbols of new names are left out; [map] goes from left to right. *)
From Coq Require Import ZArith String List Bool.
From Verif Require Import Base Model_Lit Model_Core Model_Fold Model_Letrec.
Import ListNotations.
Open Scope Z_scope.

(** 3.sf:832-836 *)
Definition var_use_unboxed_ctype (u : var_use) : option ctype :=
  match ref_ctype u with
  | Some t => if dull t || (if zlist_dec t (codes "objptr") then true else false) then None else Some t
  | None => None
  end.
(** 3.sf:838-846; [acc] is the type found so far *)
Fixpoint unboxed_loop (us : list var_use) (acc : option ctype) : option ctype :=
  match us with
  | [] => acc
  | u :: us' =>
    match var_use_unboxed_ctype u with
    | Some t => if match acc with None => true | Some t0 => if zlist_dec t t0 then true else false end then unboxed_loop us' (Some t) else None
    | None => None
    end
  end.
Definition var_unboxed_ctype_in_exp (x : id) (e : exp) : option ctype := unboxed_loop (var_uses_in_exp x e) None.
(** 5.sf:276-288 unbox-ctype-test: what [k] is called with *)
Definition unbox_ctype_test (test thn : exp) : option (id * ctype) :=
  match test with
  | EPrim _ p [EVar x] =>
    match var_unboxed_ctype_in_exp x thn, typecheck_prim_ctype p with
    | Some t, Some u =>
      if negb (dull t) && (1 <? var_reference_count x thn)%nat && (if zlist_dec t u then true else false) then Some (x, t) else None
    | _, _ => None
    end
  | _ => None
  end.
(** 5.sf:290-297 *)
Definition var_unboxed_ctype (x : id) (body rand : exp) : option ctype :=
  match var_unboxed_ctype_in_exp x body, exp_ctype rand [] with
  | Some t, Some u => if negb (dull t) && negb (dull u) && (if zlist_dec t u then true else false) then Some u else None
  | _, _ => None
  end.
(** identifiers and the variables that stand for them *)
Notation substs := (list (id * id)).
(** 5.sf:326-340: the loop over the variables of a let; gives out-ids, out-rands and substs *)
Fixpoint let_loop (body : exp) (in_ids : list id) (in_rands : list exp) (out_ids : list id) (out_rands : list exp) (sb : substs) (n : Z)
    : list id * list exp * substs * Z :=
  match in_ids, in_rands with
  | x :: ids, rand :: rands =>
    match var_unboxed_ctype x body rand with
    | Some t => let (c, n1) := fresh (XC t) n in let_loop body ids rands (c :: out_ids) (rand :: out_rands) ((x, c) :: sb) n1
    | None => let_loop body ids rands (x :: out_ids) (rand :: out_rands) sb n
    end
  | _, _ => (out_ids, out_rands, sb, n)
  end.
(** 5.sf:347-360: the loop over the parameters of a procedure *)
Fixpoint lam_loop (body : exp) (in_ids : list id) (out_ids : list id) (out_rands : list exp) (sb : substs) (n : Z)
    : list id * list exp * substs * Z :=
  match in_ids with
  | x :: ids =>
    match (if (1 <? var_reference_count x body)%nat then var_unboxed_ctype_in_exp x body else None) with
    | Some t => let (c, n1) := fresh (XC t) n in lam_loop body ids (c :: out_ids) (EVar x :: out_rands) ((x, c) :: sb) n1
    | None => lam_loop body ids out_ids out_rands sb n
    end
  | [] => (out_ids, out_rands, sb, n)
  end.
(** 5.sf:345-360 the clause of lambda-exp; [ub] unboxes the body *)
Definition unbox_lam (ub : exp -> substs -> Z -> made) (xs : list id) (b : exp) (sb : substs) (n : Z) : option (list id * exp * Z) :=
  match lam_loop b xs [] [] sb n with
  | (out_ids, out_rands, sb1, n1) =>
    match ub b sb1 n1 with
    | Some (b', n2) => Some (xs, match out_ids with [] => b' | _ => let_exp out_ids out_rands b' end, n2)
    | None => None
    end
  end.
Fixpoint each_lam (ul : list id -> exp -> Z -> option (list id * exp * Z)) (l : list (list id * exp)) (n : Z) : option (list (list id * exp) * Z) :=
  match l with
  | [] => Some ([], n)
  | (xs, b) :: l' =>
    match ul xs b n with
    | Some (xs', b', n1) => match each_lam ul l' n1 with Some (r, n2) => Some ((xs', b') :: r, n2) | None => None end
    | None => None
    end
  end.
(** 5.sf:300-361 unbox-vals and uv *)
Fixpoint unbox_vals (fuel : nat) (e : exp) (sb : substs) (n : Z) : made :=
  match fuel with
  | O => None
  | S f =>
    let uv := fun e n => unbox_vals f e sb n in
    match e with
    | EVar x => Some (EVar match assq x sb with Some c => c | None => x end, n)
    | ESet x e1 => if global_id x then match uv e1 n with Some (e', n1) => Some (ESet x e', n1) | None => None end else None
    | EIf a b c =>
      match unbox_ctype_test a b with
      | Some (x, t) =>
        match uv a n with
        | Some (a', n1) =>
          let (cv, n2) := fresh (XC t) n1 in
          match unbox_vals f b ((x, cv) :: sb) n2 with
          | Some (b', n3) =>
            match uv c n3 with Some (c', n4) => Some (EIf a' (let_exp [cv] [EVar x] b') c', n4) | None => None end
          | None => None
          end
        | None => None
        end
      | None => match each uv [a; b; c] n with Some ([a'; b'; c'], n1) => Some (EIf a' b' c', n1) | _ => None end
      end
    | EPrim ef p l => match each uv l n with Some (l', n1) => Some (EPrim ef p l', n1) | None => None end
    | EApp g l =>
      match degenerate_let e with
      | Some b => uv b n
      | None =>
        match let_view e with
        | Some (ids, rands, body) =>
          match each uv rands n with
          | Some (rands', n1) =>
            match let_loop body ids rands' [] [] sb n1 with
            | (out_ids, out_rands, sb1, n2) =>
              match unbox_vals f body sb1 n2 with Some (b', n3) => Some (let_exp out_ids out_rands b', n3) | None => None end
            end
          | None => None
          end
        | None => match each uv (g :: l) n with Some (g' :: l', n1) => Some (EApp g' l', n1) | _ => None end
        end
      end
    | EFix ids lams b =>
      match each_lam (fun xs b n => unbox_lam (unbox_vals f) xs b sb n) lams n with
      | Some (lams', n1) => match uv b n1 with Some (b', n2) => Some (EFix ids lams' b', n2) | None => None end
      | None => None
      end
    | ELam xs b => match unbox_lam (unbox_vals f) xs b sb n with Some (xs', b', n1) => Some (ELam xs' b', n1) | None => None end
    | ELetcc _ _ | EWithcc _ _ => None
    end
  end.
(** 5.sf:273, 363; [n] is the last number given out *)
Definition unbox_values (e : exp) (n : Z) : made := unbox_vals (exp_depth e) e [] n.
