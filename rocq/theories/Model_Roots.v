(** The parts of a module that are written beside its code: the declarations of its global variables and the table of those
    that the collector must update.  Source: /repo/7.sf:113-124 (global-vars), 541-552 (static-roots), 704-745 (compile-globals,
    main-module?, compile-roots).  Left out: the order of the variables (they are sorted for debugging), their C names (C23). *)
From Coq Require Import ZArith String List Bool Arith.
From Verif Require Import Base Model_Lit Model_Core Model_CodeGen.
Import ListNotations.

(** 7.sf:113-124; not sorted *)
Definition global_vars (e : exp) : list id := exp_free_vars e.
(** 7.sf:628-632 *)
Definition collected (e : exp) : list found :=
  match e with EFix _ lams b => flat_map (fun l => collect (snd l)) lams ++ collect b | _ => [] end.
(** 7.sf:544, 548-550 *)
Definition static_roots (e : exp) : list (id * id) :=
  rev (flat_map (fun f => match f with FStatic x lb => [(x, lb)] | _ => [] end) (collected e)).
(** 7.sf:704-713 *)
Inductive decl := DStatic | DHere | DExtern.
Definition declare (e : exp) (x : id) : decl :=
  if var_assigned_in_exp x e then if global_id_private_constant x then DStatic else DHere else DExtern.
Definition compile_globals (e : exp) : list (id * decl) := map (fun x => (x, declare e x)) (global_vars e).
(** 7.sf:721-734 *)
Definition live_roots (e : exp) : list id :=
  filter (fun x =>
    let ac := var_assignment_count x e in
    if Nat.eqb ac 0 then false
    else if match assq x (static_roots e) with Some _ => false | None => true end then true
    else if Nat.ltb 1 ac then true
    else false) (global_vars e).
