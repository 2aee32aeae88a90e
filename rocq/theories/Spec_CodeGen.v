(** What generated code does when it runs, and what it must provide. *)
From Coq Require Import ZArith List Bool Permutation.
From Verif Require Import Base Model_Lit Model_Core Model_CodeGen Spec_Sem Spec_Free Spec_Scope Spec_Fold Spec_Cps Spec_Lift Spec_Unbox.
Import ListNotations.
Open Scope Z_scope.

(** ** The machine.  It runs C code on registers, C variables, and the heap, globals and streams of Spec_Sem.
    Registers and C variables are not limited in number (the code that makes room for them is the subject of C09), and
    the heap is not moved (C08).  A closure block is a procedure value: the label of its code and the values it holds. *)
Definition clo (t : id) (us : list val) : val := VClo [] (EVar t) (map (pair t) us).
Record mach := mkmach { regs : nat -> val; cvs : list (id * val); world : st }.
Definition upd (r : nat -> val) (i : nat) (v : val) : nat -> val := fun j => if Nat.eqb j i then v else r j.
Definition shifted (r : nat -> val) (n : nat) : nat -> val := fun j => r (n + j)%nat.
(** the innermost variable of that name is set *)
Fixpoint set_cv (c : list (id * val)) (x : id) (v : val) : option (list (id * val)) :=
  match c with
  | [] => None
  | (y, u) :: c' => if id_eqb x y then Some ((y, v) :: c') else option_map (cons (y, u)) (set_cv c' x v)
  end.
Definition set_world (m : mach) (w : st) : mach := mkmach (regs m) (cvs m) w.

Section Machine.
Variable P : prim -> script.
(** the operands of a C operator or of a function are computed one after the other, in an order that depends on the
    text only *)
Variable order : list cexp -> list nat.
(** what a C variable holds before it is set *)
Variable junk : id -> val.
(** the parameter that takes what is ignored, 7.sf:659-661: its symbol is begin-id-symbol *)
Variable dot : id -> bool.

Fixpoint in_order (o : list nat) (fs : list (st -> option (val * st))) (acc : list (option val)) (w : st) : option (list val * st) :=
  match o with
  | [] => option_map (fun vs => (vs, w)) (all_some acc)
  | i :: o' =>
    match nth_error fs i with
    | Some f =>
      match f w with
      | Some (v, w') => match list_set acc i (Some v) with Some acc' => in_order o' fs acc' w' | None => None end
      | None => None
      end
    | None => None
    end
  end.
(** [None]: the behaviour is not defined *)
Fixpoint xeval (r : nat -> val) (cv : list (id * val)) (c : cexp) (w : st) {struct c} : option (val * st) :=
  match c with
  | XReg i => Some (r i, w)
  | XGlob x => Some (gl w x, w)
  | XCvar x => option_map (fun v => (v, w)) (assq x cv)
  | XIf a b c =>
    match xeval r cv a w with
    | Some (v, w') => if is_true v then xeval r cv b w' else xeval r cv c w'
    | None => None
    end
  | XPrim p l =>
    match in_order (order l) (map (xeval r cv) l) (map (fun _ => None) l) w with
    | Some (vs, w') => run (P p) vs w'
    | None => None
    end
  end.
Definition xevals (r : nat -> val) (cv : list (id * val)) (l : list cexp) (w : st) : option (list val * st) :=
  in_order (order l) (map (xeval r cv) l) (map (fun _ => None) l) w.
(** one statement after the other *)
Fixpoint xseq (r : nat -> val) (cv : list (id * val)) (l : list cexp) (w : st) : option (list val * st) :=
  match l with
  | [] => Some ([], w)
  | c :: l' =>
    match xeval r cv c w with
    | Some (v, w') => match xseq r cv l' w' with Some (vs, w'') => Some (v :: vs, w'') | None => None end
    | None => None
    end
  end.
(** r[i] = ...; r[i+1] = ...; *)
Fixpoint assign (i : nat) (l : list cexp) (r : nat -> val) (cv : list (id * val)) (w : st) : option ((nat -> val) * st) :=
  match l with
  | [] => Some (r, w)
  | c :: l' =>
    match xeval r cv c w with
    | Some (v, w') => assign (S i) l' (upd r i v) cv w'
    | None => None
    end
  end.
Definition moves (shift : option nat) (l : list cexp) (m : mach) : option ((nat -> val) * st) :=
  match shift with
  | None => assign O l (regs m) (cvs m) (world m)
  | Some n => match assign n l (regs m) (cvs m) (world m) with Some (r, w) => Some (shifted r n, w) | None => None end
  end.
Definition store (t : tgt) (v : val) (m : mach) : option mach :=
  match t with
  | TVoid => Some m
  | TReg i => Some (mkmach (upd (regs m) i v) (cvs m) (world m))
  | TGlob x => Some (mkmach (regs m) (cvs m) (set_gl (world m) x v))
  | TCvar x t =>
    match run (P (conv t)) [v] (world m) with
    | Some (v', w) => match set_cv (cvs m) x v' with Some c => Some (mkmach (regs m) c w) | None => None end
    | None => None
    end
  end.
(** how the code of a label ends; the number of operands of a goto is not used *)
Inductive result :=
| RGo (m : mach)
| RHalt (v : val) (w : st)
| RGoto (lab : id) (n : nat) (r : nat -> val) (w : st)
| RJump (n : nat) (r : nat -> val) (w : st)
| RFail.
Definition go (o : option mach) : result := match o with Some m => RGo m | None => RFail end.
Definition is_halt (p : prim) : bool := if list_eq_dec Z.eq_dec p the_halt_prim then true else false.
Fixpoint exec (c : code) (m : mach) : result :=
  match c with
  | KSet t c => match xeval (regs m) (cvs m) c (world m) with Some (v, w) => go (store t v (set_world m w)) | None => RFail end
  | KPrim t p l =>
    match xevals (regs m) (cvs m) l (world m) with
    | Some (vs, w) =>
      if is_halt p then match vs with [v] => RHalt v w | _ => RFail end
      else match run (P p) vs w with Some (v, w') => go (store t v (set_world m w')) | None => RFail end
    | None => RFail
    end
  | KClo t lab l =>
    match xseq (regs m) (cvs m) l (world m) with
    | Some (vs, w) => go (store t (clo lab (rev vs)) (set_world m w))
    | None => RFail
    end
  | KStatic x lab => RGo (set_world m (set_gl (world m) x (clo lab [])))
  | KSeq a b => match exec a m with RGo m' => exec b m' | r => r end
  | KBlock x a =>
    match exec a (mkmach (regs m) ((x, junk x) :: cvs m) (world m)) with
    | RGo m' => RGo (mkmach (regs m') (tl (cvs m')) (world m'))
    | r => r
    end
  | KIf c a b =>
    match xeval (regs m) (cvs m) c (world m) with
    | Some (v, w) => exec (if is_true v then a else b) (set_world m w)
    | None => RFail
    end
  | KGoto s lab l => match moves s l m with Some (r, w) => RGoto lab (length l) r w | None => RFail end
  | KJump s l => match moves s l m with Some (r, w) => RJump (length l) r w | None => RFail end
  end.

(** ** Programs: one step runs the code of a label *)
Inductive mstate := MAt (lab : option id) (r : nat -> val) (w : st) | MHalt (v : val) (w : st).
Definition mmem (s : mstate) : st := match s with MAt _ _ w | MHalt _ w => w end.
Definition code_at (p : cprog) (lab : option id) : option code :=
  match lab with None => Some (main p) | Some t => option_map text (assq t (labelled p)) end.
(** 7.sf:634-668: the entry of a closure that is in r[0], with [rc] values there *)
Fixpoint copy (i : nat) (us : list val) (r : nat -> val) : nat -> val :=
  match us with [] => r | u :: us' => copy (S i) us' (upd r i u) end.
Definition ignores (ids : list id) : bool := match ids with [_; y] => dot y | _ => false end.
Inductive enters (p : cprog) (rc : nat) (r : nat -> val) : id -> (nat -> val) -> Prop :=
| en_clo t us q ids : r O = clo t us -> assq t (labelled p) = Some q -> entry q = Some (ids, length us) -> ignores ids = false ->
    rc = S (length ids) -> enters p rc r t (shifted (copy rc us r) 1)
| en_dot t us q ids : r O = clo t us -> assq t (labelled p) = Some q -> entry q = Some (ids, length us) -> ignores ids = true ->
    (2 <= rc)%nat -> enters p rc r t (shifted (copy 3 us (upd r 2 (VC CVoid))) 1).
Inductive mstep (p : cprog) : mstate -> mstate -> Prop :=
| ms_halt lab c r w v w' : code_at p lab = Some c -> exec c (mkmach r [] w) = RHalt v w' -> mstep p (MAt lab r w) (MHalt v w')
| ms_goto lab c r w t n r' w' : code_at p lab = Some c -> exec c (mkmach r [] w) = RGoto t n r' w' -> mstep p (MAt lab r w) (MAt (Some t) r' w')
| ms_jump lab c r w n r' w' t r'' : code_at p lab = Some c -> exec c (mkmach r [] w) = RJump n r' w' -> enters p n r' t r'' ->
    mstep p (MAt lab r w) (MAt (Some t) r'' w').
Inductive mstar (p : cprog) : mstate -> mstate -> Prop :=
| mr_refl s : mstar p s s
| mr_step s s' s'' : mstep p s s' -> mstar p s' s'' -> mstar p s s''.
CoInductive mruns (p : cprog) : mstate -> Prop := mruns_step s s' : mstep p s s' -> mruns p s' -> mruns p s.
End Machine.

(** The C program does nothing that the program [e] cannot do; nothing is said if [e] can go wrong.  [r]: what is in the
    registers at the start. *)
Definition implements (P : prim -> script) (order : list cexp -> list nat) (junk : id -> val) (dot : id -> bool) (e : exp) (p : cprog) : Prop :=
  forall g i r,
  let s0 := start e g i in
  let t0 := MAt None r (mkst [] (fun x => VC (g x)) [] i) in
  (forall t, mstar P order junk dot p t0 t -> wrong P MDirect s0 \/ exists s, star P MDirect s0 s /\ out (mem s) = out (mmem t)) /\
  (forall v' w, mstar P order junk dot p t0 (MHalt v' w) ->
     wrong P MDirect s0 \/ exists s v, star P MDirect s0 s /\ ends s v /\ shape_of v = shape_of v' /\ out (mem s) = out w /\
                                       forall x, shape_of (gl (mem s) x) = shape_of (gl w x)) /\
  (forall t, mstar P order junk dot p t0 t -> (exists t', mstep P order junk dot p t t') \/ (exists v w, t = MHalt v w) \/ wrong P MDirect s0) /\
  (mruns P order junk dot p t0 -> runs_on P MDirect s0).

(** ** What the generator may rely on *)
Definition any_order (order : list cexp -> list nat) : Prop := forall l, Permutation (order l) (seq 0 (length l)).
(** the conversion of a value to a C type leaves the value as it is, or fails *)
Definition conversions (P : prim -> script) : Prop := forall t v w r, run (P (conv t)) [v] w = Some r -> r = (v, w).
Definition makes_void (P : prim -> script) : Prop := forall w, run (P the_void_prim) [] w = Some (VC CVoid, w).
Definition local (x : id) : Prop := global_id x = false.
Definition plain (x : id) : Prop := local x /\ forall t, xt x <> XC t.
(** Apart from the operators of [let]s, the only procedures made inside are wrappers that call one of the labels [L] with
    their parameters and with local variables that are held as objects.  Nothing is called but variables and the values of
    operations. *)
Inductive lifted (L : list id) : exp -> Prop :=
| li_var x : lifted L (EVar x)
| li_set x e : lifted L e -> lifted L (ESet x e)
| li_if a b c : lifted L a -> lifted L b -> lifted L c -> lifted L (EIf a b c)
| li_prim ef p l : Forall (lifted L) l -> lifted L (EPrim ef p l)
| li_app f l : lifted L f -> (forall xs b, f <> ELam xs b) -> Forall (lifted L) l -> lifted L (EApp f l)
| li_let ids l b : length ids = length l -> Forall local ids -> Forall (lifted L) l -> lifted L b -> lifted L (let_exp ids l b)
| li_wrap ys t cs : In t L -> Forall local ys -> Forall plain cs -> (forall c, In c cs -> ~ In c ys /\ ~ In c L) ->
    lifted L (ELam ys (EApp (EVar t) (map EVar (ys ++ cs)))).
(** [d] is assigned to [x] somewhere in the program *)
Definition assigns (x : id) (d e : exp) : Prop := part_of (ESet x d) e.
Record ready (dot : id -> bool) (ls : list id) (lams : list (list id * exp)) (b : exp) : Prop := {
  rd_len : length ls = length lams;
  rd_labels : Forall (fun x => label_id x = true) ls;
  rd_params : Forall (fun l => Forall plain (fst l)) lams;
  rd_lifted : Forall (fun l => lifted ls (snd l)) lams /\ lifted ls b;
  rd_tails : Forall (fun l => tails true (snd l)) lams /\ tails true b;
  (** constants are given one value *)
  rd_once : forall x d d', global_id_constant x = true -> assigns x d (EFix ls lams b) -> assigns x d' (EFix ls lams b) -> d = d';
  (** what is ignored is not used *)
  rd_dot : forall x y t zs, part_of (ELam [x; y] (EApp (EVar t) zs)) (EFix ls lams b) -> dot y = true ->
    forall i ps c p, nth_error ls i = Some t -> nth_error lams i = Some (ps, c) -> nth_error ps 1 = Some p -> ~ free_in p c }.

(** ** What can be compiled *)
(** Labels of [L] stand only where they are called, with as many operands as they have parameters, and in wrappers, of which
    those of one label [t] take the same number [W t] of parameters; only globals are assigned. *)
Inductive fit (L : list (id * nat)) (W : id -> nat) : exp -> Prop :=
| ft_var x : label_id x = false -> fit L W (EVar x)
| ft_set x e : global_id x = true -> fit L W e -> fit L W (ESet x e)
| ft_if a b c : fit L W a -> fit L W b -> fit L W c -> fit L W (EIf a b c)
| ft_prim ef p l : Forall (fit L W) l -> fit L W (EPrim ef p l)
| ft_call f l : (forall xs b, f <> ELam xs b) -> fit L W f -> Forall (fit L W) l -> fit L W (EApp f l)
| ft_goto t l : In (t, length l) L -> Forall (fit L W) l -> fit L W (EApp (EVar t) l)
| ft_let ids l b : length ids = length l -> Forall (fit L W) l -> fit L W b -> fit L W (let_exp ids l b)
| ft_wrap ys t cs : In (t, length ys + length cs)%nat L -> W t = length ys -> Forall (fun c => label_id c = false) cs ->
    (forall c, In c cs -> ~ In c ys) -> fit L W (ELam ys (EApp (EVar t) (map EVar (ys ++ cs)))).
Record compiles (W : id -> nat) (ls : list id) (lams : list (list id * exp)) (b : exp) : Prop := {
  cp_len : length ls = length lams;
  cp_labels : Forall (fun x => label_id x = true) ls;
  cp_fit : let L := combine ls (map (fun l => length (fst l)) lams) in Forall (fun l => fit L W (snd l)) lams /\ fit L W b;
  (** two constants do not hold procedures of one label *)
  cp_one : forall x x' t ys ys', global_id_constant x = true -> global_id_constant x' = true ->
    assigns x (ELam ys (EApp (EVar t) (map EVar ys))) (EFix ls lams b) -> assigns x' (ELam ys' (EApp (EVar t) (map EVar ys'))) (EFix ls lams b) -> x = x' }.
