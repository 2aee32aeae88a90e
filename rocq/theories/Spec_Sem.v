(** What core expressions do.

    A machine runs an expression in an environment with a stack of frames.  The operands of a call, a primitive, a
    conditional, ... are evaluated one after the other in any order.  Variables are either cells that can be assigned
    (modes [MCells] and [MStrict]) or plain values (mode [MDirect], where there is no assignment to local variables).
    In mode [MStrict] it is an error to read a local variable that holds the void object.

    Primitives are texts; what a text does is a parameter of the machine: a script that can inspect, allocate, read and
    write blocks, do output and input, or fail.  A script sees procedures only as procedures. *)
From Coq Require Import ZArith String List Bool.
From Verif Require Import Model_Lit Model_Core.
Import ListNotations.
Open Scope Z_scope.

Inductive const := CVoid | CBool (b : bool) | CInt (z : Z) | CChar (z : Z) | CFlo (z : Z) | COther (z : Z).
Definition const_dec (a b : const) : {a = b} + {a <> b}.
Proof. decide equality; try apply Z.eq_dec; apply bool_dec. Defined.

Inductive oper := OIf (b c : exp) | OSet (x : id) | OPrim (ef : effect) (p : prim) | OApp | OWith (e : exp).
Inductive val :=
| VC (c : const)
| VLoc (l : nat)                                             (** a block *)
| VRef (l : nat)                                             (** the cell of a variable; never the value of an expression *)
| VClo (xs : list id) (b : exp) (r : list (id * val))
| VFix (xs : list id) (lams : list (list id * exp)) (i : nat) (r : list (id * val))   (** procedure [i] of a [fix] *)
| VCont (k : list frame)
with slot := SDone (v : val) | STodo (e : exp)
with frame := Fr (o : oper) (a b : list slot) (r : list (id * val)).     (** an operand between [a] and [b] is running *)
Notation env := (list (id * val)).
Notation kont := (list frame).

(** ** Scripts of primitives *)
Inductive shape := ShC (c : const) | ShBlock | ShProc.
Definition shape_of (v : val) : shape := match v with VC c => ShC c | VLoc _ => ShBlock | _ => ShProc end.
(** what a script refers to: an operand or an intermediate result by number, or a constant *)
Inductive atom := AReg (i : nat) | AConst (c : const).
Inductive script :=
| SRet (a : atom)
| SFail
| STest (a : atom) (f : shape -> script)
| SSame (a b : atom) (f : bool -> script)
| SAlloc (l : list atom) (k : script)
| SGet (a : atom) (i : nat) (k : script)
| SPut (a : atom) (i : nat) (b : atom) (k : script)
| SEmit (a : atom) (k : script)
| SInput (k : script).

Record st := mkst { hp : list (list val); gl : id -> val; out : list shape; inp : list const }.
Definition set_hp (s : st) h := mkst h (gl s) (out s) (inp s).
Definition set_gl (s : st) x v := mkst (hp s) (fun y => if id_eqb y x then v else gl s y) (out s) (inp s).

Definition atom_val (a : atom) (rs : list val) : option val :=
  match a with AReg i => nth_error rs i | AConst c => Some (VC c) end.
Fixpoint atom_vals (l : list atom) (rs : list val) : option (list val) :=
  match l with
  | [] => Some []
  | a :: l' => match atom_val a rs, atom_vals l' rs with Some v, Some vs => Some (v :: vs) | _, _ => None end
  end.
Fixpoint list_set {A} (l : list A) (i : nat) (x : A) : option (list A) :=
  match l, i with
  | [], _ => None
  | _ :: l', O => Some (x :: l')
  | y :: l', S i' => option_map (cons y) (list_set l' i' x)
  end.
Definition same (v w : val) : option bool :=
  match v, w with
  | VC a, VC b => Some (if const_dec a b then true else false)
  | VLoc a, VLoc b => Some (Nat.eqb a b)
  | VC _, VLoc _ | VLoc _, VC _ => Some false
  | VC _, _ | VLoc _, _ | _, VC _ | _, VLoc _ => Some false
  | _, _ => None                                            (** procedures are not compared *)
  end.
(** [None]: the script fails *)
Fixpoint run (s : script) (rs : list val) (w : st) : option (val * st) :=
  match s with
  | SRet a => match atom_val a rs with Some v => Some (v, w) | None => None end
  | SFail => None
  | STest a f => match atom_val a rs with Some v => run (f (shape_of v)) rs w | None => None end
  | SSame a b f =>
    match atom_val a rs, atom_val b rs with
    | Some v, Some u => match same v u with Some t => run (f t) rs w | None => None end
    | _, _ => None
    end
  | SAlloc l k =>
    match atom_vals l rs with
    | Some vs => run k (rs ++ [VLoc (length (hp w))]) (set_hp w (hp w ++ [vs]))
    | None => None
    end
  | SGet a i k =>
    match atom_val a rs with
    | Some (VLoc l) =>
      match nth_error (hp w) l with
      | Some b => match nth_error b i with Some v => run k (rs ++ [v]) w | None => None end
      | None => None
      end
    | _ => None
    end
  | SPut a i b k =>
    match atom_val a rs, atom_val b rs with
    | Some (VLoc l), Some v =>
      match nth_error (hp w) l with
      | Some bl =>
        match list_set bl i v with
        | Some bl' => match list_set (hp w) l bl' with Some h => run k rs (set_hp w h) | None => None end
        | None => None
        end
      | None => None
      end
    | _, _ => None
    end
  | SEmit a k =>
    match atom_val a rs with
    | Some v => run k rs (mkst (hp w) (gl w) (out w ++ [shape_of v]) (inp w))
    | None => None
    end
  | SInput k =>
    match inp w with
    | c :: i => run k (rs ++ [VC c]) (mkst (hp w) (gl w) (out w) i)
    | [] => None
    end
  end.

(** what a script may do, by the effect it is declared with: 3.sf:148-155 *)
Definition may_alloc (e : effect) : Prop := match e with EAl | EAlOb | EAlAct | EAny => True | _ => False end.
Definition may_look (e : effect) : Prop := match e with EOb | EObAct | EAlOb | EAny => True | _ => False end.
Definition may_act (e : effect) : Prop := match e with EAct | EObAct | EAlAct | EAny => True | _ => False end.
Fixpoint honours (e : effect) (s : script) : Prop :=
  match s with
  | SRet _ | SFail => True
  | STest _ f => forall x, honours e (f x)
  | SSame _ _ f => forall x, honours e (f x)
  | SAlloc _ k => may_alloc e /\ honours e k
  | SGet _ _ k => may_look e /\ honours e k
  | SPut _ _ _ k | SEmit _ k | SInput k => may_act e /\ honours e k
  end.

(** ** The machine *)
Inductive mode := MStrict | MCells | MDirect.
Inductive state :=
| Ev (e : exp) (r : env) (k : kont) (w : st)
| Args (o : oper) (l : list slot) (r : env) (k : kont) (w : st)
| Ret (v : val) (k : kont) (w : st)
| Halted (v : val) (w : st).

(** the operands of an expression *)
Definition decomp (e : exp) : option (oper * list exp) :=
  match e with
  | ESet x e => Some (OSet x, [e])
  | EIf a b c => Some (OIf b c, [a])
  | EPrim ef p l => Some (OPrim ef p, l)
  | EApp f l => Some (OApp, f :: l)
  | EWithcc k e => Some (OWith e, [k])
  | _ => None
  end.
Definition lookup (r : env) (x : id) : option val := assq x r.
Fixpoint bind (m : mode) (xs : list id) (vs : list val) (r : env) (h : list (list val)) : option (env * list (list val)) :=
  match xs, vs with
  | [], [] => Some (r, h)
  | x :: xs', v :: vs' =>
    match m with
    | MDirect => bind m xs' vs' ((x, v) :: r) h
    | _ => bind m xs' vs' ((x, VRef (length h)) :: r) (h ++ [[v]])
    end
  | _, _ => None
  end.
Fixpoint bind_fix_from (i : nat) (ys xs : list id) (lams : list (list id * exp)) (r0 : env) : env :=
  match ys with
  | [] => r0
  | y :: ys' => (y, VFix xs lams i r0) :: bind_fix_from (S i) ys' xs lams r0
  end.
Definition bind_fix (xs : list id) (lams : list (list id * exp)) (r : env) : env := bind_fix_from O xs xs lams r.
Definition read_var (m : mode) (r : env) (x : id) (w : st) : option val :=
  if global_id x then Some (gl w x)
  else match lookup r x with
       | Some (VRef l) =>
         match nth_error (hp w) l with
         | Some [v] => match m, v with MStrict, VC CVoid => None | _, _ => Some v end
         | _ => None
         end
       | o => o
       end.
(** A continuation given to withcc can also be a procedure: it gets the value, and must not return.  (0.sf:208-225 throw,
    values and receive are made of this.)  Such a continuation is a frame of its own kind; anything else returned to is
    an error.  A continuation that leads to an error in the end may not be captured.
    (throw makes its operands parts of a call of a continuation, and receive and call-with-values return to a proper
    continuation before their body runs.) *)
Definition is_proc (v : val) : bool := match v with VC _ | VLoc _ => false | _ => true end.
Definition recv (v : val) : kont := [Fr (OWith void_exp) [SDone v] [] []].
Definition kont_of (v : val) : kont := match v with VCont k => k | _ => recv v end.
Definition trap : kont := recv (VC CVoid).
Fixpoint capturable (k : kont) : bool :=
  match k with
  | [] => true
  | f :: k' => match f with Fr (OWith _) [SDone v] _ _ => is_proc v | _ => capturable k' end
  end.
Definition is_true (v : val) : bool := match v with VC (CBool false) => false | _ => true end.

Section Machine.
Variable P : prim -> script.
Variable m : mode.

(** what happens when all operands are there; the value of an assignment is what the generated code leaves *)
Inductive fire : oper -> list val -> env -> kont -> st -> state -> Prop :=
| fi_if b c v r k w : fire (OIf b c) [v] r k w (Ev (if is_true v then b else c) r k w)
| fi_gset x v r k w : global_id x = true -> fire (OSet x) [v] r k w (Ret (VC CVoid) k (set_gl w x v))
| fi_set x v r k w l u h : global_id x = false -> lookup r x = Some (VRef l) -> nth_error (hp w) l = Some [u] -> list_set (hp w) l [v] = Some h ->
    fire (OSet x) [v] r k w (Ret v k (set_hp w h))
| fi_prim ef p vs r k w v w' : p <> the_halt_prim -> run (P p) vs w = Some (v, w') ->
    fire (OPrim ef p) vs r k w (Ret v k w')
| fi_halt ef v r k w : fire (OPrim ef the_halt_prim) [v] r k w (Halted v w)
| fi_call xs b r0 vs r k w r' h : bind m xs vs r0 (hp w) = Some (r', h) ->
    fire OApp (VClo xs b r0 :: vs) r k w (Ev b r' k (set_hp w h))
| fi_callfix ys lams i r0 xs b vs r k w r' h : nth_error lams i = Some (xs, b) ->
    bind m xs vs (bind_fix ys lams r0) (hp w) = Some (r', h) ->
    fire OApp (VFix ys lams i r0 :: vs) r k w (Ev b r' k (set_hp w h))
| fi_throw k' v r k w : fire OApp [VCont k'; v] r k w (Ret v k' w)
| fi_throws e p r0 vs r k w : length vs <> 1%nat ->
    fire OApp (VCont [Fr (OWith e) [SDone p] [] r0] :: vs) r k w (Args OApp (map SDone (p :: vs)) [] trap w)
| fi_with e v r k w : fire (OWith e) [v] r k w (Ev e r (kont_of v) w)
| fi_recv e p v r k w : fire (OWith e) [p; v] r k w (Args OApp (map SDone [p; v]) [] trap w).

Inductive step : state -> state -> Prop :=
| st_args e o l r k w : decomp e = Some (o, l) -> step (Ev e r k w) (Args o (map STodo l) r k w)
| st_var x v r k w : read_var m r x w = Some v -> step (Ev (EVar x) r k w) (Ret v k w)
| st_lam xs b r k w : step (Ev (ELam xs b) r k w) (Ret (VClo xs b r) k w)
| st_fix xs lams b r k w : step (Ev (EFix xs lams b) r k w) (Ev b (bind_fix xs lams r) k w)
| st_letcc x b r k w r' h : capturable k = true -> bind m [x] [VCont k] r (hp w) = Some (r', h) ->
    step (Ev (ELetcc x b) r k w) (Ev b r' k (set_hp w h))
| st_pick o a e b r k w : step (Args o (a ++ STodo e :: b) r k w) (Ev e r (Fr o a b r :: k) w)
| st_ret v o a b r k w : step (Ret v (Fr o a b r :: k) w) (Args o (a ++ SDone v :: b) r k w)
| st_fire o vs r k w s : fire o vs r k w s -> step (Args o (map SDone vs) r k w) s.

Inductive star : state -> state -> Prop :=
| star_refl s : star s s
| star_step s s' s'' : step s s' -> star s' s'' -> star s s''.
Inductive plus : state -> state -> Prop := plus_step s s' s'' : step s s' -> star s' s'' -> plus s s''.
(** the run is over, with a value *)
Inductive ends : state -> val -> Prop :=
| end_ret v w : ends (Ret v [] w) v
| end_halt v w : ends (Halted v w) v.
Definition wrong (s : state) : Prop := exists s', star s s' /\ (forall s'', ~ step s' s'') /\ forall v, ~ ends s' v.
(** a run that goes on for ever, or may go wrong after any number of steps *)
CoInductive runs_on : state -> Prop :=
| ro_wrong s : wrong s -> runs_on s
| ro_step s s' : step s s' -> runs_on s' -> runs_on s.
End Machine.

Definition mem (s : state) : st := match s with Ev _ _ _ w | Args _ _ _ _ w | Ret _ _ w | Halted _ w => w end.
Definition start (e : exp) (g : id -> const) (i : list const) : state := Ev e [] [] (mkst [] (fun x => VC (g x)) [] i).

(** The new program [e'] does nothing that the old program [e] cannot do: every output it makes, every answer with the
    globals it leaves, going wrong and running for ever are possible in the old program too; nothing is said if the old
    program can go wrong. *)
Definition simulates (P : prim -> script) (m m' : mode) (s0 t0 : state) : Prop :=
  (forall t, star P m' t0 t -> wrong P m s0 \/ exists s, star P m s0 s /\ out (mem s) = out (mem t)) /\
  (forall t v', star P m' t0 t -> ends t v' ->
     wrong P m s0 \/ exists s v, star P m s0 s /\ ends s v /\ shape_of v = shape_of v' /\ out (mem s) = out (mem t) /\
                                 forall x, shape_of (gl (mem s) x) = shape_of (gl (mem t) x)) /\
  (forall t, star P m' t0 t -> (exists t', step P m' t t') \/ (exists v, ends t v) \/ wrong P m s0) /\
  (runs_on P m' t0 -> runs_on P m s0).
Definition refines (P : prim -> script) (m m' : mode) (e e' : exp) : Prop :=
  forall g i, simulates P m m' (start e g i) (start e' g i).
