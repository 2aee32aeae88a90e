(** C functions that run on the C stack, /repo/6.sf:641-868 stack-function-code-generate.

    The generated text is modelled as an abstract C program.  Left out: layout and comments, the names made for variables, labels
    and functions (an identifier stands for its name; C50 and C54 treat names), and the conversions around operands (C57 treats
    formats).  The table of labels (663-682) is changed in place in the source; here it is passed down, which is the same as long as
    code mentions only labels in scope.  Expressions that no clause of variant-case covers make the compiler stop: [None]. *)
From Coq Require Import ZArith List Bool.
From Verif Require Import Base Model_Lit Model_Core Model_Globals Model_Beta.
Import ListNotations.
Open Scope Z_scope.

(** C expressions as 720-741 writes them: variables, [a ? b : c], calls of the C function for [f], primitives *)
Inductive cx := XVar (x : id) | XIf (a b c : cx) | XCall (f : id) (l : list cx) | XPrim (p : prim) (l : list cx).
(** what the code does with its value, the argument tgt: "return", "name =", "(void)" *)
Inductive target := TReturn | TVar (x : id) | TVoid.
(** C statements as 757-845 writes them *)
Inductive st :=
| SSet (t : target) (c : cx)                        (* tgt c; *)
| SPrim (t : target) (p : prim) (l : list cx)       (* a primitive that is a statement, which uses tgt for its result *)
| SIf (c : cx) (a b : st)
| SSeq (l : list st)                                (* statements one after another *)
| SGoto (f : id) (l : list (id * cx))               (* name = c; ... goto label of f; *)
| SLetrec (b : st) (done : bool) (labs : list (id * option st)). (* b; [goto done;] label: s; [goto done;] ... [done: ;], [None]: dead code *)
Definition is_return (t : target) : bool := match t with TReturn => true | _ => false end.

Section MapX.
Context {A B : Type}.
Variable f : A -> option B.
(** map of a function that may stop the compiler *)
Fixpoint mapx (l : list A) : option (list B) :=
  match l with
  | [] => Some []
  | x :: l' => match f x, mapx l' with Some y, Some m => Some (y :: m) | _, _ => None end
  end.
End MapX.

Section Gen.
Variable self : id.

(** 684-700 cg-cexp? *)
Fixpoint cexpp (e : exp) : bool :=
  match e with
  | EVar _ => true
  | EIf a b c => cexpp a && cexpp b && cexpp c
  | EApp (ELam [] b) [] => cexpp b
  | EApp (ELam [x] (EVar y)) [e'] => if id_eqb x y then cexpp e' else false
  | EApp (EVar f) l => id_eqb f self && forallb cexpp l
  | EPrim _ p l => prim_cexp p && forallb cexpp l
  | _ => false
  end.
(** 702-718 cg-contains-tail-call? *)
Fixpoint tail_call (f : id) (e : exp) : bool :=
  match e with
  | EIf _ b c => tail_call f b || tail_call f c
  | EApp (ELam [] b) [] => tail_call f b
  | EApp (ELam [x] (EVar y)) [e'] => if id_eqb x y then tail_call f e' else false
  | EApp (ELam ids b) l => if Nat.eqb (length ids) (length l) then tail_call f b else false
  | EFix _ lams b => tail_call f b || existsb (fun l => tail_call f (snd l)) lams
  | EApp (EVar g) _ => id_eqb g f
  | _ => false
  end.
(** 720-741 cg-cexp *)
Fixpoint cexp (e : exp) : option cx :=
  match e with
  | EVar x => Some (XVar x)
  | EIf a b c => match cexp a, cexp b, cexp c with Some a', Some b', Some c' => Some (XIf a' b' c') | _, _, _ => None end
  | EApp (ELam [] b) [] => cexp b
  | EApp (ELam [x] (EVar y)) [e'] => if id_eqb x y then cexp e' else None
  | EApp (EVar f) l => option_map (XCall f) (mapx cexp l)
  | EPrim _ p l => option_map (XPrim p) (mapx cexp l)
  | _ => None
  end.

(** 746-756 cg-let: operands that become variables; the list of bindings is in reverse order *)
Fixpoint split_rands (wrap : bool) (rands : list exp) (n : Z) (out : list exp) (ids : list id) (exps : list exp) : list exp * list id * list exp * Z :=
  match rands with
  | [] => (rev out, ids, exps, n)
  | e :: rands' =>
    if negb wrap && cexpp e then split_rands wrap rands' n (e :: out) ids exps
    else let (x, n') := fresh XNone n in split_rands wrap rands' n' (EVar x :: out) (x :: ids) (e :: exps)
  end.
Definition is_var (e : exp) : bool := match e with EVar _ => true | _ => false end.
Definition var_ids (l : list exp) : list id := flat_map (fun e => match e with EVar x => [x] | _ => [] end) l.
(** 778-783: the variables whose values are C expressions *)
Definition decls (l : list (id * exp)) : option (list st) :=
  mapx (fun xe => option_map (SSet (TVar (fst xe))) (cexp (snd xe))) (filter (fun xe => cexpp (snd xe)) l).

Definition labels := list (id * list id).
(** the body of a loop of map that generates code, which passes the counter on *)
Fixpoint gen_all {A B} (f : A -> Z -> option (B * Z)) (l : list A) (n : Z) : option (list B * Z) :=
  match l with
  | [] => Some ([], n)
  | a :: l' => match f a n with
               | Some (b, n1) => match gen_all f l' n1 with Some (bs, n2) => Some (b :: bs, n2) | None => None end
               | None => None
               end
  end.
(** 758-845 cg-body.  [None] for a lack of fuel. *)
Fixpoint cg (fuel : nat) (L : labels) (e : exp) (t : target) (n : Z) : option (st * Z) :=
  match fuel with
  | O => None
  | S fuel' =>
    if cexpp e && negb (tail_call self e) then option_map (fun c => (SSet t c, n)) (cexp e)
    else
    match degenerate_let e with
    | Some b => cg fuel' L b t n
    | None =>
    match begin_view e with
    | Some (e1, e2) =>
      match cg fuel' L e1 TVoid n with
      | Some (s1, n1) => match cg fuel' L e2 t n1 with Some (s2, n2) => Some (SSeq [s1; s2], n2) | None => None end
      | None => None
      end
    | None =>
    match let_view e with
    | Some (ids, rands, b) =>
      match decls (combine ids rands),
            gen_all (fun xe => cg fuel' L (snd xe) (TVar (fst xe))) (filter (fun xe => negb (cexpp (snd xe))) (combine ids rands)) n with
      | Some ds, Some (is, n1) =>
        match cg fuel' L b t n1 with Some (s, n2) => Some (SSeq (ds ++ is ++ [s]), n2) | None => None end
      | _, _ => None
      end
    | None =>
    match e with
    | EIf a b c =>
      if cexpp a then
        match cexp a, cg fuel' L b t n with
        | Some a', Some (s1, n1) => match cg fuel' L c t n1 with Some (s2, n2) => Some (SIf a' s1 s2, n2) | None => None end
        | _, _ => None
        end
      else let (x, n') := fresh XNone n in cg fuel' L (let_exp [x] [a] (EIf (EVar x) b c)) t n'
    | EFix ids lams b =>
      let L' := combine ids (map fst lams) ++ L in
      let n0 := if is_return t then n else n + 1 in
      match cg fuel' L' b t n0 with
      | Some (s, n1) =>
        match gen_all (fun xl m => if tail_call (fst xl) e
                                   then match cg fuel' L' (snd (snd xl)) t m with Some (s', m') => Some ((fst xl, Some s'), m') | None => None end
                                   else Some ((fst xl, None), m)) (combine ids lams) n1 with
        | Some (labs, n2) => Some (SLetrec s (negb (is_return t)) labs, n2)
        | None => None
        end
      | None => None
      end
    | EPrim ef p rands =>
      if forallb cexpp rands then
        option_map (fun cs => ((if prim_cexp p then SSet t (XPrim p cs) else SPrim t p cs), n)) (mapx cexp rands)
      else match split_rands false rands n [] [] [] with (out, ids, exps, n') => cg fuel' L (let_exp ids exps (EPrim ef p out)) t n' end
    | EApp f rands =>
      match rec_view f with
      | Some (x, lam) => cg fuel' L (EFix [x] [lam] (EApp (EVar x) rands)) t n
      | None =>
      match f with
      | EVar x =>
        match assq x L with
        | None => None
        | Some ps =>
          if forallb is_var rands && match intersectionq (var_ids rands) ps with [] => true | _ => false end then
            match mapx cexp rands with
            | None => None
            | Some cs => Some ((if is_return t then SGoto x (combine ps cs) else SSet t (XCall x cs)), n)
            end
          else match split_rands true rands n [] [] [] with (out, ids, exps, n') => cg fuel' L (let_exp ids exps (EApp f out)) t n' end
        end
      | _ => None
      end
      end
    | _ => None
    end
    end
    end
    end
  end.

(** 847-868: parameters, whether the label of the function itself is written, and the body *)
Record cfun := mkcfun { cf_params : list id; cf_label : bool; cf_body : st }.
Definition gen_lam (fuel : nat) (ids : list id) (b : exp) (n : Z) : option cfun :=
  option_map (fun r => mkcfun ids (tail_call self b) (fst r)) (cg fuel [(self, ids)] b TReturn n).
Fixpoint gen_function (fuel : nat) (e : exp) (n : Z) : option cfun :=
  match e with
  | EApp (ELam [] b) [] => gen_function fuel b n
  | EApp (ELam [x] (EVar y)) [e'] => if id_eqb x y then gen_function fuel e' n else None
  | ELam ids b => gen_lam fuel ids b n
  | _ => None
  end.
End Gen.
