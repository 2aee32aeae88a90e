(** The expression part of the main code generator, /repo/7.sf:121-520: operands as C expressions,
    operands computed into temporaries, and the register moves of a jump.
    Generated C text is represented by the structure of the C expression it is. *)
From Coq Require Import ZArith List Bool.
Import ListNotations.
Open Scope Z_scope.

(** 3.sf:150-166 effects *)
Inductive effect := NoE | StarE | ObsE | PutE | ObsPutE | StarObsE | StarPutE | AnyE.
Definition gc_safe (e : effect) : bool :=
  match e with NoE | ObsE | PutE | ObsPutE => true | _ => false end.
(** C types of expressions by number; [t_bool] and [t_obj] are the names "bool" and "obj" *)
Definition ctype := Z.
Definition t_bool : ctype := 0.
Definition t_obj : ctype := 1.
(** A primitive is its text; all that matters here is which text it is and what [primexp-ctype] and
    [prim-cexp?] (6.sf:122-139) say: [Some t] if it is a C expression of type [t] *)
Record prim := mkprim { p_text : Z; p_type : option ctype }.
(** the text "bool(0)" *)
Definition p_false : prim := mkprim 0 (Some t_bool).

(** 3.sf:210-240: what an identifier is *)
Inductive idkind := KLocal | KGlobal | KCvar (t : ctype) | KLabel.
Definition id := Z.

(** 3.sf:255-266, after lambda lifting (5.sf): let, label application and closure creation are the
    patterns of 3.sf:283-400 *)
Inductive exp :=
| EVar (x : id)
| EGassign (x : id) (e : exp)
| EIf (e1 e2 e3 : exp)
| EPrim (f : effect) (p : prim) (l : list exp)
| ELet (xs : list id) (l : list exp) (b : exp)
| ECurry (x : id) (xs : list id) (l : list exp)
| ELabelApp (x : id) (l : list exp)
| EApp (e : exp) (l : list exp).

(** C expressions: r[n]; a global; a C variable; a call of a primitive's text; the three shapes of
    conditionals *)
Inductive cexp :=
| CReg (n : nat)
| CGlob (x : id)
| CVar (x : id) (t : ctype)
| CCall (p : prim) (l : list cexp)
| CCond (t : ctype) (a b c : cexp)
| CAnd (a b : cexp)
| COr (a b : cexp).

(** 6.sf:122-127 primexp-ctype of generated code; [None] only for a primitive that is not an
    expression *)
Definition ctype_of (c : cexp) : option ctype :=
  match c with
  | CReg _ | CGlob _ => Some t_obj
  | CVar _ t => Some t
  | CCall p _ => p_type p
  | CCond t _ _ _ => Some t
  | CAnd _ _ | COr _ _ => Some t_bool
  end.
Definition prim_eqb (p q : prim) : bool :=
  (p_text p =? p_text q) && match p_type p, p_type q with Some a, Some b => a =? b | None, None => true | _, _ => false end.
(** [string=?] on generated code *)
Fixpoint cexp_eqb (c d : cexp) {struct c} : bool :=
  match c, d with
  | CReg n, CReg m => (n =? m)%nat
  | CGlob x, CGlob y => x =? y
  | CVar x t, CVar y u => (x =? y) && (t =? u)
  | CCall p l, CCall q k =>
    prim_eqb p q && (fix eqs (l k : list cexp) {struct l} : bool :=
      match l, k with [], [] => true | a :: l', b :: k' => cexp_eqb a b && eqs l' k' | _, _ => false end) l k
  | CCond t a b c, CCond u a' b' c' => (t =? u) && cexp_eqb a a' && cexp_eqb b b' && cexp_eqb c c'
  | CAnd a b, CAnd a' b' => cexp_eqb a a' && cexp_eqb b b'
  | COr a b, COr a' b' => cexp_eqb a a' && cexp_eqb b b'
  | _, _ => false
  end.

(** A register environment, latest register first; numbers stand for temporaries *)
Inductive slot := SId (x : id) | STmp.
Fixpoint posq (x : id) (l : list slot) : option nat :=
  match l with
  | [] => None
  | SId y :: l' => if x =? y then Some 0%nat else option_map S (posq x l')
  | STmp :: l' => option_map S (posq x l')
  end.

Section CG.
Variable kind : id -> idkind.

(** 7.sf:128-144 cg-tgt-rval of a variable: [(- (length renv) (posq id renv) 1)]; [None] when the
    compiler stops with an error *)
Definition cg_var (x : id) (renv : list slot) : option cexp :=
  match kind x with
  | KGlobal => Some (CGlob x)
  | KCvar t => Some (CVar x t)
  | KLabel => None
  | KLocal => match posq x renv with Some p => Some (CReg (length renv - p - 1)) | None => None end
  end.

(** 7.sf:430-444, 446-459 *)
Fixpoint cg_gcsafe_cexp (e : exp) : bool :=
  match e with
  | EVar _ => true
  | EIf a b c => cg_gcsafe_cexp a && cg_gcsafe_cexp b && cg_gcsafe_cexp c
  | EPrim f p l => match p_type p with Some _ => gc_safe f && forallb cg_gcsafe_cexp l | None => false end
  | _ => false
  end.

(** 7.sf:467-494: the code for a conditional from the codes of its parts *)
Definition cg_if (test thn els : cexp) : cexp :=
  let ty := match ctype_of thn, ctype_of els with
            | Some t, Some u => if t =? u then t else t_obj
            | _, _ => t_obj
            end in
  if (ty =? t_bool) && cexp_eqb els (CCall p_false []) then CAnd test thn
  else if (ty =? t_bool) && cexp_eqb test thn then COr test els
  else CCond ty test thn els.

(** 7.sf:461-502 cg-cexp *)
Fixpoint cg_cexp (e : exp) (renv : list slot) : option cexp :=
  match e with
  | EVar x => cg_var x renv
  | EIf a b c =>
    match cg_cexp a renv, cg_cexp b renv, cg_cexp c renv with
    | Some a', Some b', Some c' => Some (cg_if a' b' c')
    | _, _, _ => None
    end
  | EPrim f p l =>
    match (fix all (l : list exp) : option (list cexp) :=
             match l with
             | [] => Some []
             | e :: l' => match cg_cexp e renv, all l' with Some c, Some r => Some (c :: r) | _, _ => None end
             end) l with
    | Some r => Some (CCall p r)
    | None => None
    end
  | _ => None
  end.

(** 7.sf:184-205 cg-prim-args: operands that are gc-safe C expressions stay expressions, the others
    are computed into new registers first.  Result: the computations (target, expression,
    environment), the operand codes, the new environment. *)
Definition temp := (nat * exp * list slot)%type.
Fixpoint cg_prim_args (l : list exp) (renv : list slot) : option (list temp * list cexp * list slot) :=
  match l with
  | [] => Some ([], [], renv)
  | e :: l' =>
    if cg_gcsafe_cexp e then
      match cg_cexp e renv, cg_prim_args l' renv with
      | Some c, Some (ts, cs, renv') => Some (ts, c :: cs, renv')
      | _, _ => None
      end
    else
      match cg_prim_args l' (STmp :: renv) with
      | Some (ts, cs, renv') => Some ((length renv, e, renv) :: ts, CReg (length renv) :: cs, renv')
      | None => None
      end
  end.

(** 7.sf:240-259 cg-depends-on? *)
Fixpoint depends (sp : list id) (e : exp) : bool :=
  match e with
  | EVar x => existsb (Z.eqb x) sp
  | EGassign _ e1 => depends sp e1
  | EIf a b c => depends sp a || depends sp b || depends sp c
  | ELet _ l b => existsb (depends sp) l || depends sp b
  | ECurry _ _ l => existsb (depends sp) l
  | ELabelApp _ l => existsb (depends sp) l
  | EApp f l => depends sp f || existsb (depends sp) l
  | EPrim _ _ l => existsb (depends sp) l
  end.

(** 7.sf:261-270 cg-fast-goto?; [regs] is [(reverse renv)] *)
Fixpoint fast_loop (rands : list exp) (regs : list slot) (sp : list id) : bool :=
  match rands with
  | [] => true
  | e :: rands' =>
    match regs with
    | [] => false
    | STmp :: _ => false
    | SId x :: regs' =>
      if match sp with [] => true | _ => negb (depends sp e) end then fast_loop rands' regs' (x :: sp) else false
    end
  end.
Definition cg_fast_goto (renv : list slot) (rands : list exp) : bool := fast_loop rands (rev renv) [].

(** 7.sf:363-411: the jump.  [JFast]: [r[k] = operand k] for k = 0, 1, ...; [JSlow live]: the same
    into [r[live+k]], then [r += live] *)
Inductive jump := JFast (ts : list temp) (cs : list cexp) | JSlow (live : nat) (ts : list temp) (cs : list cexp).
Definition cg_jump (rands : list exp) (renv : list slot) : option jump :=
  match cg_prim_args rands renv with
  | None => None
  | Some (ts, cs, renv') =>
    Some (if cg_fast_goto renv rands then JFast ts cs else JSlow (length renv') ts cs)
  end.

(** ** Running generated code *)
Variable val store : Type.
Variable truth : val -> bool.
Variable vbool : bool -> val.
Variable primsem : prim -> list val -> store -> val * store.
Variable gread : id -> store -> val.
Variable cvar : id -> val.
Definition regs := nat -> val.

Section EvalList.
  Context {A : Type} (f : A -> store -> val * store).
  Fixpoint eval_list (l : list A) (st : store) : list val * store :=
    match l with
    | [] => ([], st)
    | a :: l' => let (v, st1) := f a st in let (vs, st2) := eval_list l' st1 in (v :: vs, st2)
    end.
End EvalList.

(** C expressions, operands from left to right (C leaves the order open) *)
Fixpoint evalc (r : regs) (c : cexp) (st : store) : val * store :=
  match c with
  | CReg n => (r n, st)
  | CGlob x => (gread x st, st)
  | CVar x _ => (cvar x, st)
  | CCall p l => let (vs, st') := eval_list (evalc r) l st in primsem p vs st'
  | CCond _ a b c => let (v, st') := evalc r a st in if truth v then evalc r b st' else evalc r c st'
  | CAnd a b => let (v, st') := evalc r a st in
      if truth v then let (w, st2) := evalc r b st' in (vbool (truth w), st2) else (vbool false, st')
  | COr a b => let (v, st') := evalc r a st in
      if truth v then (vbool true, st') else let (w, st2) := evalc r b st' in (vbool (truth w), st2)
  end.

(** moves into registers from [base] on, one after the other *)
Definition setreg (r : regs) (n : nat) (v : val) : regs := fun m => if (m =? n)%nat then v else r m.
Fixpoint moves (base : nat) (cs : list cexp) (r : regs) (st : store) : regs * store :=
  match cs with
  | [] => (r, st)
  | c :: cs' => let (v, st') := evalc r c st in moves (S base) cs' (setreg r base v) st'
  end.
(** the code computing an operand into a register: any code *)
Variable compute : temp -> regs -> store -> regs * store.
Fixpoint run_temps (ts : list temp) (r : regs) (st : store) : regs * store :=
  match ts with [] => (r, st) | t :: ts' => let (r', st') := compute t r st in run_temps ts' r' st' end.
(** the register window at the label *)
Definition run_jump (j : jump) (r : regs) (st : store) : regs * store :=
  match j with
  | JFast ts cs => let (r1, st1) := run_temps ts r st in moves 0 cs r1 st1
  | JSlow live ts cs => let (r1, st1) := run_temps ts r st in
      let (r2, st2) := moves live cs r1 st1 in (fun n => r2 (live + n)%nat, st2)
  end.
End CG.
