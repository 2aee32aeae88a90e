(** Analysis of global variables: inlining of definitions and detection of functions for the C stack.
    Source: /repo/4.sf:418-650. *)
From Coq Require Import ZArith String List Bool.
From Verif Require Import Model_Lit Model_Core.
Import ListNotations.
Open Scope Z_scope.

(** 4.sf:421-433 ag-simple?.  (The clause for degenerate lets comes to the same as the clause for applications.) *)
Fixpoint ag_simple (e : exp) : bool :=
  match e with
  | EVar _ => true
  | EPrim _ _ l => forallb ag_simple l
  | EApp f l => ag_simple f && forallb ag_simple l
  | ELam _ b => ag_simple b
  | _ => false
  end.
(** 4.sf:435-440 ag-constant? *)
Fixpoint ag_constant (e : exp) : bool :=
  match e with EPrim ef _ l => ref_transparent_effect ef && forallb ag_constant l | _ => true end.
(** 4.sf:442-447 ag-lookup *)
Fixpoint ag_lookup (e : exp) (s : list (id * exp)) : exp :=
  match s with
  | [] => e
  | (y, e') :: s' => match e with EVar x => if id_eqb x y then ag_lookup e' s' else ag_lookup e s' | _ => e end
  end.
(** 4.sf:449-459 ag-inlineable-app-rands?.  The result of the andmap in line 453 is thrown away; the "identifier" of an
    operand that is not a variable (and not constant, so it is a primitive operation) is its effect, which is none of the
    parameters. *)
Fixpoint distinct_params (l : list exp) (ids : list id) : bool :=
  match l with
  | [] => true
  | e :: l' =>
    match e with
    | EVar x => memq x ids && negb (existsb (fun e' => match e' with EVar y => id_eqb x y | _ => false end) l') && distinct_params l' ids
    | _ => false
    end
  end.
Definition ag_inlineable_rands (rands : list exp) (s : list (id * exp)) (ids : list id) : bool :=
  distinct_params (filter (fun e => negb (ag_constant e)) (map (fun e => ag_lookup e s) rands)) ids.
(** 4.sf:468-475: the body of a lambda-expression *)
Fixpoint inlineable_body (ids : list id) (b : exp) (s : list (id * exp)) : bool :=
  match b with
  | EApp f rands =>
    match f with
    | ELam xs c =>
      match xs, rands with
      | [], [] => inlineable_body ids c s
      | [x], [r] =>
        match c with
        | EVar y => if id_eqb x y then inlineable_body ids r s else inlineable_body ids c [(x, r)]
        | _ => inlineable_body ids c [(x, r)]
        end
      | _, _ => if Nat.eqb (length xs) (length rands) then inlineable_body ids c (combine xs rands) else false
      end
    | _ => false
    end
  | EPrim _ _ rands => ag_inlineable_rands rands s ids
  | _ => false
  end.
(** 4.sf:461-476 ag-inlineable? *)
Fixpoint ag_inlineable (e : exp) : bool :=
  match e with
  | EApp f rands =>
    match f, rands with
    | ELam [] b, [] => ag_inlineable b
    | ELam [x] (EVar y), [r] => if id_eqb x y then ag_inlineable r else false
    | _, _ => false
    end
  | EPrim ef _ l => ref_transparent_effect ef && match l with [] => true | _ => false end
  | ELam ids b => inlineable_body ids b []
  | _ => false
  end.

(** ** Functions for the C stack, 4.sf:478-540.  Of the substitutions, only the variable and what it is replaced with
    matter; [None]: the variable is local.  The test can go on for ever: [None] as result means the fuel is used up. *)
Notation known := (list (id * option exp)).
(** 4.sf:482-485 *)
Definition subst_locals (ids : list id) (s : known) : known := rev (map (fun x => (x, None)) ids) ++ s.
Fixpoint andmap (f : exp -> option bool) (l : list exp) : option bool :=
  match l with
  | [] => Some true
  | e :: l' => match f e with Some true => andmap f l' | r => r end
  end.
Definition and_then (a b : option bool) : option bool := match a with Some true => b | r => r end.
(** 3.sf:414-424 *)
Definition rec_view (e : exp) : option (id * (list id * exp)) :=
  match e with EFix [x] (l :: _) (EVar y) => if id_eqb x y then Some (x, l) else None | _ => None end.
(** 4.sf:488-539 *)
Fixpoint stack_fn (fuel : nat) (self : id) (e : exp) (s : known) (labels : list id) (tail : bool) : option bool :=
  match fuel with
  | O => None
  | S fuel' =>
    let nt e := stack_fn fuel' self e s labels false in
    let sfn e := stack_fn fuel' self e s labels tail in
    match e with
    | EVar x =>
      match assq x s with
      | Some None => Some true
      | Some (Some e') =>
        match e' with EVar y => if id_eqb x y then Some true else sfn e' | _ => sfn e' end
      | None => Some false
      end
    | EIf a b c => and_then (nt a) (and_then (sfn b) (sfn c))
    | EPrim ef _ l => if gc_safe_effect ef then andmap nt l else Some false
    | EFix ids lams b =>
      let labels' := ids ++ labels in
      and_then (stack_fn fuel' self b s labels' tail)
        (andmap (fun l => match l with ELam xs c => stack_fn fuel' self c (subst_locals xs s) labels' true | _ => Some false end)
                (map (fun l => ELam (fst l) (snd l)) lams))
    | EApp f rands =>
      match let_view e with
      | Some (xs, _, b) => and_then (andmap nt rands) (stack_fn fuel' self b (subst_locals xs s) labels tail)
      | None =>
        match rec_view f with
        | Some (x, l) => sfn (EFix [x] [l] (EApp (EVar x) rands))
        | None =>
          match f with
          | EVar x =>
            if id_eqb x self then andmap nt rands
            else if tail && memq x labels then andmap nt rands
            else match assq x s with
                 | Some (Some e') =>
                   match e' with
                   | EVar y => if id_eqb x y then Some false else sfn (EApp e' rands)
                   | _ => sfn (EApp e' rands)
                   end
                 | _ => Some false
                 end
          | _ => Some false
          end
        end
      end
    | _ => Some false
    end
  end.
(** 4.sf:480-540 ag-stack-function? *)
Fixpoint ag_stack_function (fuel : nat) (e : exp) (self : id) (s : known) : option bool :=
  match e with
  | EApp f rands =>
    match f, rands with
    | ELam [] b, [] => ag_stack_function fuel b self s
    | ELam [x] (EVar y), [r] => if id_eqb x y then ag_stack_function fuel r self s else Some false
    | _, _ => Some false
    end
  | ELam ids b => stack_fn fuel self b (subst_locals ids s) [] true
  | _ => Some false
  end.

(** ** Substitution, 4.sf:542-573.  An entry of the list of substitutions: the variable, the variable of the same name
    that is marked constant, the replacement, and what is put for the assignment. *)
Record entry := mkent { e_id : id; e_cid : id; e_exp : exp; e_set : option exp }.
Definition find_entry (x : id) (s : list entry) : option entry := find (fun t => id_eqb x (e_id t)) s.
(** There is no clause for assignments to local variables; none are left at this point. *)
Fixpoint ag_subst (s : list entry) (e : exp) : exp :=
  match e with
  | EVar x => match find_entry x s with Some t => e_exp t | None => e end
  | ESet x e1 =>
    if global_id x then
      match find_entry x s with
      | Some t => match e_set t with None => ESet (e_cid t) (ag_subst s e1) | Some a => a end
      | None => ESet x (ag_subst s e1)
      end
    else e
  | EIf a b c => EIf (ag_subst s a) (ag_subst s b) (ag_subst s c)
  | EPrim ef p l => EPrim ef p (map (ag_subst s) l)
  | EApp f l =>
    match f, l with
    | ELam [] b, [] => ag_subst s b
    | ELam [x] (EVar y), [r] => if id_eqb x y then ag_subst s r else EApp (ag_subst s f) (map (ag_subst s) l)
    | _, _ => EApp (ag_subst s f) (map (ag_subst s) l)
    end
  | EFix xs lams b => EFix xs (map (fun l => (fst l, ag_subst s (snd l))) lams) (ag_subst s b)
  | ELam xs b => ELam xs (ag_subst s b)
  | ELetcc x b => ELetcc x (ag_subst s b)
  | EWithcc k e => EWithcc (ag_subst s k) (ag_subst s e)
  end.

(** ** Definitions, 4.sf:575-600 global-substs: variable, constant variable, value.  [top] is the whole program, [n] the
    last timestamp. *)
Notation defs := (list (id * id * exp)).
Section Global_substs.
Variable top : exp.
Fixpoint gls (e : exp) (n : Z) (s : defs) : defs * Z :=
  let gls_all := fix gls_all (l : list exp) (n : Z) (s : defs) : defs * Z :=
    match l with [] => (s, n) | e :: l' => let (s', n') := gls e n s in gls_all l' n' s' end in
  match e with
  | EVar _ => (s, n)
  | ESet x e1 =>
    if global_id x then
      if global_id_private_constant x then let (s', n') := gls e1 n s in ((x, x, e1) :: s', n')
      else if Nat.eqb (var_assignment_count x top) 1 then
        let c := mkid (- (n + 1)) XTrue in
        let (s', n') := gls e1 (n + 1) s in ((x, c, e1) :: s', n')
      else gls e1 n s
    else gls e1 n s
  | EIf a _ _ => gls a n s
  | EPrim _ _ l => gls_all l n s
  | EApp f l =>
    match f with
    | ELam xs b => if Nat.eqb (length xs) (length l) then let (s', n') := gls b n s in gls_all l n' s' else gls_all l n s
    | _ => let (s', n') := gls f n s in gls_all l n' s'
    end
  | EFix _ _ b => gls b n s
  | ELam _ _ => (s, n)
  | ELetcc _ b => gls b n s
  | EWithcc k e => let (s', n') := gls k n s in gls e n' s'
  end.
End Global_substs.

(** ** Replacements, 4.sf:602-647 finalize-substs.  [nm]: the C name made of the symbol of an identifier. *)
Section Finalize.
Variable nm : id -> list Z.
Variable fuel : nat.
Definition know (s : list entry) : known := map (fun t => (e_id t, Some (e_exp t))) s.
(** 4.sf:626-632 *)
Fixpoint arg_list (n : nat) : list Z :=
  match n with O => [] | S O => codes "obj_from_$arg" | S n' => codes "obj_from_$arg, " ++ arg_list n' end.
Definition stack_prim (x : id) (n : nat) : prim := codes "obj(" ++ nm x ++ codes "(" ++ arg_list n ++ codes "))".
(** 4.sf:615-643: the definition is not of the form [rec]; the candidates found so far are [sf] *)
Definition finalize_plain (x c : id) (e : exp) (s : list entry) (sf : list (id * exp)) : option (entry * list (id * exp)) :=
  if ag_simple e && ag_inlineable (ag_subst s e) then
    Some (mkent x c (ag_subst s e) (if global_id_private_constant c then Some void_exp else None), sf)
  else
    match ag_stack_function fuel e x (know s) with
    | None => None
    | Some true =>
      let e' := ag_subst s e in
      let ids := match e' with ELam ids _ => ids | _ => [] end in
      let lam := ELam ids (EPrim EObAct (stack_prim x (length ids)) (map EVar ids)) in
      Some (mkent x c lam (Some (if global_id_private_constant c then void_exp else ESet c lam)), (x, e') :: sf)
    | Some false => Some (mkent x c (EVar c) None, sf)
    end.
(** 4.sf:604-643 *)
Definition finalize (x c : id) (e : exp) (s : list entry) (sf : list (id * exp)) : option (entry * list (id * exp)) :=
  match rec_view e with
  | Some (y, l) =>
    match finalize_plain x c (ag_subst [mkent y c (EVar c) None] (ELam (fst l) (snd l))) s sf with
    | None => None
    | Some (t, sf') => Some (match e_set t with None => mkent x c (EVar c) None | Some _ => t end, sf')
    end
  | None => finalize_plain x c e s sf
  end.
Fixpoint finalize_all (l : defs) (s : list entry) (sf : list (id * exp)) : option (list entry * list (id * exp)) :=
  match l with
  | [] => Some (s, sf)
  | (x, c, e) :: l' =>
    match finalize x c e s sf with
    | None => None
    | Some (t, sf') => finalize_all l' (t :: s) sf'
    end
  end.
(** 4.sf:418-650 analyze-globals: the new program and the stack functions.  [n]: the last timestamp. *)
Definition analyze_globals (e : exp) (n : Z) : option (exp * list (id * exp) * Z) :=
  let (l, n') := gls e e n [] in
  match finalize_all l [] [] with
  | None => None
  | Some (s, sf) => Some (ag_subst s e, rev sf, n')
  end.
End Finalize.
(** 4.sf:582: a constant variable is made with the symbol of the variable it stands for *)
Definition same_symbol (e : exp) (n : Z) : list (id * id) := map (fun d => (snd (fst d), fst (fst d))) (fst (gls e e n [])).
