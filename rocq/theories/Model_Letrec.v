(** Turning letrec and letrec* into fix.  Source: /repo/4.sf:14-281.

    The symbols of new names are left out; their numbers are taken in the order of evaluation, arguments from left to right.
    [UB]: car of the empty list, which the compiler's own code does not check (0.sf:1216). *)
From Coq Require Import ZArith String List Bool.
From Verif Require Import Base Model_Lit Model_Core.
Import ListNotations.
Open Scope Z_scope.

(** 4.sf:20-28 varassign*-exp: first the new variables (4.sf:21), then the assignments from the last to the first *)
Fixpoint fresh_list {A} (l : list A) (n : Z) : list id * Z :=
  match l with
  | [] => ([], n)
  | _ :: l' => let (x, n1) := fresh XNone n in let (xs, n2) := fresh_list l' n1 in (x :: xs, n2)
  end.
Fixpoint assign_each (ids tmps : list id) (n : Z) : exp * Z :=
  match ids, tmps with
  | x :: ids', t :: tmps' => let (e, n1) := assign_each ids' tmps' n in begin_exp (ESet x (EVar t)) e n1
  | _, _ => (void_exp, n)
  end.
Definition varassigns_exp (ids : list id) (rands : list exp) (n : Z) : exp * Z :=
  let (tmps, n1) := fresh_list ids n in
  let (b, n2) := assign_each ids tmps n1 in
  (let_exp tmps rands b, n2).
(** 4.sf:30-45 varassign*-exp? and 4.sf:47-53 varassign*-exp->ids: the variables assigned.  When the new variables are used
    up and another assignment from a variable follows, car of the empty list is taken. *)
Fixpoint assignees (fuel : nat) (all tmps : list id) (body : exp) : res (option (list id)) :=
  match fuel with
  | O => Val None
  | S f =>
    if match tmps with [] => void_expp body | _ => false end then Val (Some [])
    else match begin_view body with
         | Some (ESet x (EVar y), e2) =>
           match tmps with
           | [] => UB
           | t :: tmps' =>
             if id_eqb y t && negb (memq x all) then
               match assignees f all tmps' e2 with
               | Val (Some l) => Val (Some (x :: l))
               | r => r
               end
             else Val None
           end
         | _ => Val None
         end
  end.
(** 4.sf:30-56, the parts of a varassign*-exp.  The walk takes one variable at each step, hence the fuel. *)
Definition varassigns_view (e : exp) : res (option (list id * list exp)) :=
  match let_view e with
  | Some (ids, rands, body) =>
    match assignees (S (List.length ids)) ids ids body with
    | Val (Some l) => Val (Some (l, rands))
    | Val None => Val None
    | UB => UB
    end
  | None => Val None
  end.

Definition ids_eqb (a b : list id) : bool := if list_eq_dec id_dec a b then true else false.
(** 4.sf:67-84 letrec-exp? and its parts *)
Definition letrec_view (e : exp) : res (option (list id * list exp * exp)) :=
  match let_view e with
  | Some (x :: ids, rands, body) =>
    if forallb void_expp rands then
      match begin_view body with
      | Some (e1, e2) =>
        match varassigns_view e1 with
        | Val (Some (ids', rands')) => Val (if ids_eqb (x :: ids) ids' then Some (x :: ids, rands', e2) else None)
        | Val None => Val None
        | UB => UB
        end
      | None => Val None
      end
    else Val None
  | _ => Val None
  end.
(** 4.sf:100-133 letrec*-exp? and its parts *)
Fixpoint inits (ids : list id) (body : exp) : option (list exp * exp) :=
  match ids with
  | [] => Some ([], body)
  | x :: ids' =>
    match begin_view body with
    | Some (ESet y e, e2) =>
      if id_eqb y x then match inits ids' e2 with Some (l, b) => Some (e :: l, b) | None => None end else None
    | _ => None
    end
  end.
Definition letrecs_view (e : exp) : option (list id * list exp * exp) :=
  match let_view e with
  | Some (x :: ids, rands, body) =>
    if forallb void_expp rands then
      match inits (x :: ids) body with Some (l, b) => Some (x :: ids, l, b) | None => None end
    else None
  | _ => None
  end.

(** 4.sf:156-169 fl-simple? *)
Fixpoint fl_simple (e : exp) : bool :=
  match e with
  | EVar _ => true
  | EIf a b c => fl_simple a && fl_simple b && fl_simple c
  | EPrim ef _ l => ref_transparent_effect ef && forallb fl_simple l
  | ELam _ _ => true
  | EApp f l =>
    match f with
    | ELam ids b => if Nat.eqb (List.length ids) (List.length l) then forallb fl_simple l && fl_simple b else false
    | _ => false
    end
  | EWithcc k e => fl_simple k && fl_simple e
  | _ => false
  end.
(** 4.sf:171-179 *)
Inductive kind := KU | KS | KL | KC.
Definition kind_eqb (a b : kind) : bool := match a, b with KU, KU | KS, KS | KL, KL | KC, KC => true | _, _ => false end.
Record bnd := mkbnd { b_kind : kind; b_id : id; b_exp : exp }.
Definition of_kind (k : kind) (l : list bnd) : list bnd := filter (fun b => kind_eqb (b_kind b) k) l.
Definition in_vinfo (vi : vinfo) (x : id) : bool := existsb (fun iv => id_eqb x (fst iv)) vi.
Definition is_lam (e : exp) : bool := match e with ELam _ _ => true | _ => false end.
(** 4.sf:181-201 *)
Definition classify (ids : list id) (vi : vinfo) (x : id) (e : exp) : bnd :=
  let uses := map snd (filter (fun iv => id_eqb (fst iv) x) vi) in
  mkbnd
    (match uses with
     | [] => KU
     | _ =>
       if existsb assignment_to uses then KC
       else if fl_simple e && forallb (fun y => negb (in_vinfo (exp_vinfo e) y)) ids then KS
       else if is_lam e then KL
       else KC
     end) x e.
Fixpoint map2 {A B C} (f : A -> B -> C) (l : list A) (l' : list B) : list C :=
  match l, l' with a :: l, b :: l' => f a b :: map2 f l l' | _, _ => [] end.
Definition classify_bindings (ids : list id) (rands : list exp) (body : exp) : list bnd :=
  map2 (classify ids (flat_map exp_vinfo rands ++ exp_vinfo body)) ids rands.

(** 4.sf:264-281 reclassify-lambda-bindings and refix.  Every round but the last binds a variable, hence the fuel; a fix
    has lambda-expressions only. *)
Definition lam_parts (e : exp) : option (list id * exp) := match e with ELam xs b => Some (xs, b) | _ => None end.
Fixpoint all_lams (l : list exp) : option (list (list id * exp)) :=
  match l with
  | [] => Some []
  | e :: l' => match lam_parts e, all_lams l' with Some p, Some ps => Some (p :: ps) | _, _ => None end
  end.
Definition free_of (ids : list id) (e : exp) : bool := forallb (fun y => negb (in_vinfo (exp_vinfo e) y)) ids.
Fixpoint refix (fuel : nat) (ids : list id) (lams : list exp) (body : exp) : option exp :=
  match fuel with
  | O => None
  | S f =>
    let bs := map2 (fun x e => mkbnd (if free_of ids e then KS else KL) x e) ids lams in
    let sb := of_kind KS bs in
    let lb := of_kind KL bs in
    match sb, lb with
    | [], [] => Some body
    | [], _ => match all_lams lams with Some ls => Some (EFix ids ls body) | None => None end
    | _, _ =>
      match refix f (map b_id lb) (map b_exp lb) body with
      | Some b => Some (let_exp (map b_id sb) (map b_exp sb) b)
      | None => None
      end
    end
  end.

(** fix applied from left to right *)
Notation made := (option (exp * Z)).
Fixpoint each (fx : exp -> Z -> made) (l : list exp) (n : Z) : option (list exp * Z) :=
  match l with
  | [] => Some ([], n)
  | e :: l' =>
    match fx e n with
    | Some (e', n1) => match each fx l' n1 with Some (r, n2) => Some (e' :: r, n2) | None => None end
    | None => None
    end
  end.
(** 4.sf:249-256, complex and unreferenced bindings of a letrec* in their order *)
Fixpoint in_order (fx : exp -> Z -> made) (l : list bnd) (body : exp) (n : Z) : made :=
  match l with
  | [] => fx body n
  | b :: l' =>
    match fx (b_exp b) n with
    | Some (e', n1) =>
      match in_order fx l' body n1 with
      | Some (r, n2) => Some (begin_exp (if kind_eqb (b_kind b) KC then ESet (b_id b) e' else e') r n2)
      | None => None
      end
    | None => None
    end
  end.
(** 3.sf:93-99 reduce-right/right-seed with begin-exp *)
Fixpoint begins (l : list exp) (e : exp) (n : Z) : exp * Z :=
  match l with
  | [] => (e, n)
  | a :: l' => let (r, n1) := begins l' e n in begin_exp a r n1
  end.
(** 4.sf:219-231, what follows the bindings of a letrec *)
Definition letrec_rest (fx : exp -> Z -> made) (cb ub : list bnd) (body : exp) (n : Z) : made :=
  let seed :=
    match cb with
    | [] => fx body n
    | _ =>
      match each fx (map b_exp cb) n with
      | Some (rands, n1) =>
        let (e1, n2) := varassigns_exp (map b_id cb) rands n1 in
        match fx body n2 with Some (b, n3) => Some (begin_exp e1 b n3) | None => None end
      | None => None
      end
    end in
  match seed with
  | Some (s, n1) => match each fx (map b_exp ub) n1 with Some (us, n2) => Some (begins us s n2) | None => None end
  | None => None
  end.
(** 4.sf:210-218 and 238-248, the bindings that come first *)
Definition bind_first (fx : exp -> Z -> made) (bs : list bnd) (rest : Z -> made) (n : Z) : made :=
  let sb := of_kind KS bs in
  let cb := of_kind KC bs in
  let lb := of_kind KL bs in
  match each fx (map b_exp sb) n with
  | Some (ss, n1) =>
    match each fx (map b_exp lb) n1 with
    | Some (ls, n2) =>
      match rest n2 with
      | Some (r, n3) =>
        match refix (S (List.length lb)) (map b_id lb) ls r with
        | Some b => Some (let_exp (map b_id sb ++ map b_id cb) (ss ++ map (fun _ => void_exp) cb) b, n3)
        | None => None
        end
      | None => None
      end
    | None => None
    end
  | None => None
  end.
(** 4.sf:203-262 fix.  There is no clause for fix-exp, which only this pass makes. *)
Fixpoint fixl (fuel : nat) (e : exp) (n : Z) : made :=
  match fuel with
  | O => None
  | S f =>
    let fx := fixl f in
    let one (mk : exp -> exp) (r : made) := match r with Some (e', n1) => Some (mk e', n1) | None => None end in
    match e with
    | EVar x => Some (EVar x, n)
    | ESet x e1 => one (ESet x) (fx e1 n)
    | EIf a b c =>
      match each fx [a; b; c] n with Some ([a'; b'; c'], n1) => Some (EIf a' b' c', n1) | _ => None end
    | _ =>
      match degenerate_let e with
      | Some b => fx b n
      | None =>
        match letrec_view e with
        | UB => None
        | Val (Some (ids, rands, body)) =>
          let bs := classify_bindings ids rands body in
          bind_first fx bs (letrec_rest fx (of_kind KC bs) (of_kind KU bs) body) n
        | Val None =>
          match letrecs_view e with
          | Some (ids, rands, body) =>
            let bs := classify_bindings ids rands body in
            bind_first fx bs (in_order fx (filter (fun b => kind_eqb (b_kind b) KC || kind_eqb (b_kind b) KU) bs) body) n
          | None =>
            match e with
            | EPrim ef p l => match each fx l n with Some (l', n1) => Some (EPrim ef p l', n1) | None => None end
            | EApp g l => match each fx (g :: l) n with Some (g' :: l', n1) => Some (EApp g' l', n1) | _ => None end
            | ELam xs b => one (ELam xs) (fx b n)
            | ELetcc x b => one (ELetcc x) (fx b n)
            | EWithcc k e1 => match each fx [k; e1] n with Some ([k'; e'], n1) => Some (EWithcc k' e', n1) | _ => None end
            | _ => None
            end
          end
        end
      end
    end
  end.
(** what every recursive call takes away from *)
Fixpoint exp_depth (e : exp) : nat :=
  match e with
  | EVar _ => 1
  | ESet _ e | ELam _ e | ELetcc _ e => S (exp_depth e)
  | EIf a b c => S (Nat.max (exp_depth a) (Nat.max (exp_depth b) (exp_depth c)))
  | EPrim _ _ l => S (fold_right (fun e d => Nat.max (exp_depth e) d) O l)
  | EApp f l => S (Nat.max (exp_depth f) (fold_right (fun e d => Nat.max (exp_depth e) d) O l))
  | EFix _ ls b => S (Nat.max (exp_depth b) (fold_right (fun l d => Nat.max (exp_depth (snd l)) d) O ls))
  | EWithcc k e => S (Nat.max (exp_depth k) (exp_depth e))
  end.
(** 4.sf:154, 281 fix-letrecs; [n] is the last number given out *)
Definition fix_letrecs (e : exp) (n : Z) : made := fixl (exp_depth e) e n.
