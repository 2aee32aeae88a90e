(** Where beta substitution is safe. *)
From Coq Require Import ZArith List Bool.
From Verif Require Import Model_Core Model_Beta Spec_Sem Spec_Free.
Import ListNotations.
Open Scope Z_scope.

Inductive every (Q : exp -> Prop) (e : exp) : Prop :=
| ev_all : Q e -> (forall ys e', In (ys, e') (parts e) -> every Q e') -> every Q e.
(** every procedure binds distinct local identifiers *)
Definition binds_ok (e : exp) : Prop := match e with ELam xs _ => NoDup xs /\ forall x, In x xs -> global_id x = false | _ => True end.
Notation well_bound := (every binds_ok).
(** only globals that are not declared constant are assigned, and primitive operations keep to their declared effects *)
Definition node_ok (P : prim -> script) (e : exp) : Prop :=
  match e with
  | ESet x _ => global_id x = true /\ global_id_constant x = false
  | EPrim ef p _ => if zlist_dec p the_halt_prim then may_act ef else honours ef (P p)
  | _ => True
  end.
Definition fine (P : prim -> script) : exp -> Prop := every (node_ok P).

(** the expression does nothing but allocate and look, and returns at most once: no control transfers *)
Fixpoint quiet (e : exp) : bool :=
  match e with
  | EVar x => true
  | EIf a b c => quiet a && quiet b && quiet c
  | EPrim ef p rands => removable_if_dead_effect ef && forallb quiet rands
  | ELam ids b => true
  | EApp (ELam ids b) rands => Nat.eqb (length ids) (length rands) && (forallb quiet rands && quiet b)
  | ELetcc x b => quiet b
  | _ => false
  end.

(** evaluating the expression always gives the same value and touches nothing *)
Definition steady (P : prim -> script) (e : exp) : Prop :=
  match e with
  | EVar x => global_id x = false \/ global_id_constant x = true
  | ELam xs b => True
  | EPrim ENo p [] => forall w, run (P p) [] w <> None
  | _ => False
  end.

(** ** Careful runs
    [careful tot hc hl fuel e s] follows the run of beta substitution on [e] under the substitutions [s] and is true if the run
    - never takes a substitution under a binder that binds the substituted variable or a variable of what is put in its place,
    - drops only operands that do nothing but allocate and look,
    - puts an operand that may have effects in the place of a variable only if it is the only operand of the let that is not dropped,
      and everything else in the primitive operation or call that it is put into always gives the same value.
    [tot] says which primitive operations without operands always succeed. *)
Definition clear (xs : list id) (t : exp) : bool := negb (existsb (fun x => var_referenced_in_exp x t) xs).
Definition clear_all (xs : list id) (s : bsubsts) : bool :=
  forallb (fun d => negb (memq (fst d) xs) && clear xs (fst (snd d)) && match snd (snd d) with Some h => clear xs h | None => true end) s.
Fixpoint proper (xs : list id) : bool := match xs with [] => true | x :: xs' => negb (global_id x) && negb (memq x xs') && proper xs' end.
Definition steadyb (tot : prim -> bool) (e : exp) : bool :=
  match e with
  | EVar x => negb (global_id x) || global_id_constant x
  | ELam xs b => true
  | EPrim ENo p [] => tot p
  | _ => false
  end.
(** the operand is treated in a way that is safe by itself *)
Definition safe_op (hc hl : bool) (ids : list id) (body : exp) (d : id * exp) : bool :=
  match bs_choose hc hl (fst d) (snd d) body with
  | CDrop => quiet (snd d)
  | CPass => true
  | CSubst | CPartial => bs_ref_transparent (snd d) && clear ids (snd d)
  end.
Definition is_lam (e : exp) : bool := match e with ELam _ _ => true | _ => false end.
(** the operands around the one that is the variable [x] *)
Fixpoint cut (x : id) (l : list exp) : option (list exp * list exp) :=
  match l with
  | [] => None
  | a :: l' => if id_one_of x a then Some ([], l') else match cut x l' with Some (l1, l2) => Some (a :: l1, l2) | None => None end
  end.
Fixpoint careful (tot : prim -> bool) (hc hl : bool) (fuel : nat) (e : exp) (s : bsubsts) : bool :=
  match fuel with
  | O => false
  | S f =>
    let ok e := careful tot hc hl f e s in
    let bs e := beta_subst hc hl f e s in
    match e with
    | EVar _ => true
    | ESet _ e1 => ok e1
    | EIf a b c => ok a && ok b && ok c
    | EPrim _ _ rands => forallb ok rands
    | ELam ids b => clear_all ids s && ok b
    | EFix ids lams b => clear_all ids s && ok b && forallb (fun l => clear_all (fst l) s && ok (snd l)) lams
    | ELetcc x b => clear_all [x] s && ok b
    | EWithcc k e1 => ok k && ok e1
    | EApp rator rands =>
      match degenerate_let e with
      | Some b => match rator with ELam ids _ => proper ids | _ => true end && ok b
      | None =>
        match let_view e with
        | Some (ids, rands, body) =>
          forallb ok rands && proper ids && clear_all ids s &&
          match mapo bs rands with
          | Some rands' =>
            let '(oids, _, s') := bs_loop hc hl body ids rands' [] [] s in
            match filter (fun d => negb (safe_op hc hl ids body d)) (combine ids rands') with
            | [] => careful tot hc hl f body s'
            | [(x, rand)] =>
              match bs_choose hc hl x rand body, oids, f with
              | CSubst, [], S f' =>
                let same a := negb (var_referenced_in_exp x a) && careful tot hc hl f' a s' in
                let still a := match beta_subst hc hl f' a s' with Some a' => steadyb tot a' | None => false end in
                let all l := match cut x l with Some (l1, l2) => forallb (fun a => same a && still a) (l1 ++ l2) | None => false end in
                clear ids rand && negb (bs_ref_transparent rand) &&
                match body with
                | EPrim _ _ l => all l
                | EApp f0 l =>
                  negb (is_lam f0) &&
                  (if id_one_of x f0 then forallb (fun a => same a && still a) l
                   else same f0 && match bs_head (fun a => beta_subst hc hl f' a s') s' f0 with Some h => steadyb tot h && negb (is_lam h) | None => false end && all l)
                | _ => false
                end
              | _, _, _ => false
              end
            | _ => false
            end
          | None => false
          end
        | None =>
          match rator with EVar _ => true | _ => ok rator end && forallb ok rands &&
          match bs_head bs s rator, mapo bs rands with
          | Some rator', Some rands' =>
            match let_view (EApp rator' rands') with Some _ => ok (EApp rator' rands') | None => true end
          | _, _ => false
          end
        end
      end
    end
  end.
