(** What the interpreter should do with an expanded form: a grammar of forms, and their meaning with one location for each
    variable. *)
From Coq Require Import ZArith NArith String List Bool.
From Verif Require Import Model_Interp.
Import ListNotations.
Open Scope Z_scope. Open Scope string_scope. Open Scope list_scope.

(** ** Expressions
    [AOnly x]: the variable [x] as the only form of a begin form in operator position *)
Inductive aexp : Type :=
| AVar (x : sym) | AConst (d : datum) | ASet (x : sym) (e : aexp) | ALam (ps : list sym) (rest : bool) (b : aexp)
| AIf (a b c : aexp) | AWhen (a b : aexp) | ALetrec (xs : list sym) (es : list aexp) (b : aexp) | ASeq (a b : aexp)
| AApp (f : aexp) (args : list aexp) | AOnly (x : sym).
Fixpoint dlist (l : list datum) (t : datum) : datum := match l with [] => t | d :: l' => DPair d (dlist l' t) end.
Definition keyword (s : sym) : Prop := In s ["quote"; "set!"; "lambda"; "if"; "letrec"; "begin"; "define"]%string.
Definition atom (d : datum) : Prop := match d with DLit _ | DNil => True | _ => False end.
Definition not_pair (d : datum) : Prop := match d with DPair _ _ => False | _ => True end.
Definition not_keyword (d : datum) : Prop := match d with DSym s => ~ keyword s | _ => True end.
(** lists of parameters, the last one of a dotted list takes the rest *)
Inductive formals : datum -> list sym -> bool -> Prop :=
| f_end : formals DNil [] false
| f_rest x : formals (DSym x) [x] true
| f_cons x d l r : formals d l r -> formals (DPair (DSym x) d) (x :: l) r.
(** how a form is read.  [lax]: an if form may have something after its last part, and the list of bindings of a letrec may end in
    any object, neither of which is in the language *)
Inductive reads (lax : bool) : datum -> aexp -> Prop :=
| r_var x : reads lax (DSym x) (AVar x)
| r_atom d : atom d -> reads lax d (AConst d)
| r_quote d : reads lax (dlist [DSym "quote"; d] DNil) (AConst d)
| r_set x d e : reads lax d e -> reads lax (dlist [DSym "set!"; DSym x; d] DNil) (ASet x e)
| r_lam f ps r d e : formals f ps r -> reads lax d e -> reads lax (dlist [DSym "lambda"; f; d] DNil) (ALam ps r e)
| r_if a b c t ea eb ec : reads lax a ea -> reads lax b eb -> reads lax c ec -> lax = true \/ t = DNil ->
  reads lax (dlist [DSym "if"; a; b; c] t) (AIf ea eb ec)
| r_when a b t ea eb : reads lax a ea -> reads lax b eb -> not_pair t -> lax = true \/ t = DNil -> reads lax (dlist [DSym "if"; a; b] t) (AWhen ea eb)
| r_letrec bs xs es d e : reads_bindings lax bs xs es -> reads lax d e -> reads lax (dlist [DSym "letrec"; bs; d] DNil) (ALetrec xs es e)
| r_begin l e : reads_seq lax l e -> reads lax (DPair (DSym "begin") l) e
(** a definition gives the name as its value *)
| r_define x d e : reads lax d e -> reads lax (dlist [DSym "define"; DSym x; d] DNil) (ASeq (ASet x e) (AConst (DSym x)))
| r_app f l ef es : not_keyword f -> (forall x, ef = AVar x -> f = DSym x) -> reads lax f ef -> reads_list lax l es -> reads lax (DPair f l) (AApp ef es)
| r_only f l x es : f <> DSym x -> reads lax f (AVar x) -> reads_list lax l es -> reads lax (DPair f l) (AApp (AOnly x) es)
with reads_list (lax : bool) : datum -> list aexp -> Prop :=
| rl_nil : reads_list lax DNil []
| rl_cons d l e es : reads lax d e -> reads_list lax l es -> reads_list lax (DPair d l) (e :: es)
with reads_seq (lax : bool) : datum -> aexp -> Prop :=
| rs_last d e : reads lax d e -> reads_seq lax (DPair d DNil) e
| rs_cons d l e e' : reads lax d e -> reads_seq lax l e' -> reads_seq lax (DPair d l) (ASeq e e')
with reads_bindings (lax : bool) : datum -> list sym -> list aexp -> Prop :=
| rb_end t : not_pair t -> lax = true \/ t = DNil -> reads_bindings lax t [] []
| rb_cons x d l e xs es : reads lax d e -> reads_bindings lax l xs es -> reads_bindings lax (DPair (dlist [DSym x; d] DNil) l) (x :: xs) (e :: es).

(** ** Meaning *)
(** a procedure: parameters, body and the locations of its variables *)
Inductive sclo : Type := mkclo (ps : list sym) (rest : bool) (b : aexp) (env : list (sym * nat)).
Definition sval : Type := val sclo.
Section Meaning.
Context {Wd : Type}.
Variable prim : forall C : Type, N -> list (val C) -> Wd -> pres C * Wd.
(** [late n]: a global variable in operator position of a call with [n] operands is read after the operands *)
Variable late : nat -> bool.
(** [hole n]: what the variables of a letrec with [n] bindings have as their value before they get one; [None]: they have no value *)
Variable hole : nat -> option lit.

(** locations of variables ([None]: no value yet), values of global variables, the world *)
Record mem : Type := mkmem { cells : list (option sval); globals : sym -> sval; outside : Wd }.
Inductive sres (A : Type) : Type := SOk (a : A) (m : mem) | SErr (e : error) (m : mem) | SUndef | SMore.
Arguments SOk {A}. Arguments SErr {A}. Arguments SUndef {A}. Arguments SMore {A}.
Definition sbind {A B} (r : sres A) (f : A -> mem -> sres B) : sres B :=
  match r with SOk a m => f a m | SErr e m => SErr e m | SUndef => SUndef | SMore => SMore end.
Fixpoint find (env : list (sym * nat)) (x : sym) : option nat :=
  match env with [] => None | (y, l) :: env' => if String.eqb y x then Some l else find env' x end.
Definition read (env : list (sym * nat)) (x : sym) (m : mem) : sres sval :=
  match find env x with
  | Some l => match nth_error (cells m) l with Some (Some v) => SOk v m | _ => SUndef end
  | None => SOk (globals m x) m
  end.
Fixpoint replace {A} (l : list A) (k : nat) (v : A) : list A :=
  match l, k with [], _ => [] | _ :: l', O => v :: l' | a :: l', S k' => a :: replace l' k' v end.
Definition set_cell (m : mem) (l : nat) (v : sval) : mem := mkmem (replace (cells m) l (Some v)) (globals m) (outside m).
Definition write (env : list (sym * nat)) (x : sym) (v : sval) (m : mem) : mem :=
  match find env x with
  | Some l => set_cell m l v
  | None => mkmem (cells m) (fun y => if String.eqb x y then v else globals m y) (outside m)
  end.
(** new locations for [xs] *)
Definition extend (xs : list sym) (vs : list (option sval)) (env : list (sym * nat)) (m : mem) : list (sym * nat) * mem :=
  (combine xs (seq (List.length (cells m)) (List.length xs)) ++ env, mkmem (cells m ++ vs) (globals m) (outside m)).
(** values of the parameters *)
Fixpoint spread (ps : list sym) (rest : bool) (args : list sval) : option (list sval) :=
  match ps, rest, args with
  | [], _, [] => Some []
  | [p], true, _ => Some [vlist args]
  | _ :: ps', _, a :: args' => option_map (cons a) (spread ps' rest args')
  | _, _, _ => None
  end.
Definition is_var (e : aexp) : option sym := match e with AVar x => Some x | _ => None end.

Fixpoint ev (n : nat) (e : aexp) (env : list (sym * nat)) (m : mem) {struct n} : sres sval :=
  match e with
  | AVar x | AOnly x => read env x m
  | AConst d => SOk (quoted d) m
  | _ =>
    match n with
    | O => SMore
    | S n =>
      let operands := fix operands (l : list aexp) (m : mem) {struct l} : sres (list sval) :=
        match l with
        | [] => SOk [] m
        | e :: l' => sbind (ev n e env m) (fun v m => sbind (operands l' m) (fun vs m => SOk (v :: vs) m))
        end in
      let call (f : sval) (args : list sval) (m : mem) : sres sval :=
        match f with
        | VClo (mkclo ps rest b env') =>
          match spread ps rest args with
          | Some vs => let (env', m) := extend ps (map Some vs) env' m in ev n b env' m
          | None => SErr BadArgc m
          end
        | VPrim p =>
          match prim sclo p args (outside m) with
          | (POk v, w) => SOk v (mkmem (cells m) (globals m) w)
          | (PErr e, w) => SErr (PrimError e) (mkmem (cells m) (globals m) w)
          end
        | _ => SErr BadProc m
        end in
      match e with
      | AVar _ | AOnly _ | AConst _ => SUndef
      | ASet x e => sbind (ev n e env m) (fun v m => SOk (VLit LVoid) (write env x v m))
      | ALam ps rest b => SOk (VClo (mkclo ps rest b env)) m
      | AIf a b c => sbind (ev n a env m) (fun v m => ev n (if falsy v then c else b) env m)
      | AWhen a b => sbind (ev n a env m) (fun v m => if falsy v then SOk VNil m else ev n b env m)
      | ALetrec xs es b =>
        let first := List.length (cells m) in
        let (env', m) := extend xs (repeat (option_map VLit (hole (List.length xs))) (List.length xs)) env m in
        sbind ((fix inits (l : list aexp) (loc : nat) (m : mem) {struct l} : sres unit :=
          match l with
          | [] => SOk tt m
          | e :: l' => sbind (ev n e env' m) (fun v m => inits l' (S loc) (set_cell m loc v))
          end) es first m) (fun _ m => ev n b env' m)
      | ASeq a b => sbind (ev n a env m) (fun _ m => ev n b env m)
      | AApp f args =>
        match is_var f with
        | Some x =>
          if match find env x with None => late (List.length args) | Some _ => false end
          then sbind (operands args m) (fun l m => sbind (read env x m) (fun f m => call f l m))
          else sbind (read env x m) (fun f m => sbind (operands args m) (fun l m => call f l m))
        | None => sbind (ev n f env m) (fun f m => sbind (operands args m) (fun l m => call f l m))
        end
      end
    end
  end.
(** the expressions of a program one by one *)
Fixpoint ev_forms (n : nat) (es : list aexp) (m : mem) : sres sval :=
  match es with
  | [] => SOk (VLit LVoid) m
  | [e] => ev n e [] m
  | e :: es' => sbind (ev n e [] m) (fun _ m => ev_forms n es' m)
  end.
End Meaning.
Arguments SOk {Wd A}. Arguments SErr {Wd A}. Arguments SUndef {Wd A}. Arguments SMore {Wd A}.

(** ** Comparing runs *)
(** values without what is inside of procedures *)
Fixpoint face {C} (v : val C) : val unit :=
  match v with VSym s => VSym s | VLit k => VLit k | VNil => VNil | VPair a b => VPair (face a) (face b) | VClo _ => VClo tt | VPrim p => VPrim p end.
Definition same_globals {Wd} (m : @mem Wd) (s : @state Wd) : Prop := outside m = world s /\ forall x, face (globals m x) = face (get_global x (store s)).
(** the interpreter does what the program means; nothing is said if the program reads a variable that has no value *)
Definition agrees {Wd} (a : @sres Wd sval) (b : @res Wd value) : Prop :=
  match a, b with
  | SUndef, _ => True
  | SOk v m, Ok v' s => face v = face v' /\ same_globals m s
  | SErr e m, Err e' s => e = e' /\ same_globals m s
  | SMore, Timeout => True
  | _, _ => False
  end.
(** primitives do not look into procedures *)
Inductive alike {C D} (R : C -> D -> Prop) : val C -> val D -> Prop :=
| al_sym s : alike R (VSym s) (VSym s)
| al_lit k : alike R (VLit k) (VLit k)
| al_nil : alike R VNil VNil
| al_pair a b a' b' : alike R a a' -> alike R b b' -> alike R (VPair a b) (VPair a' b')
| al_clo c d : R c d -> alike R (VClo c) (VClo d)
| al_prim p : alike R (VPrim p) (VPrim p).
Definition discreet {Wd} (prim : forall C : Type, N -> list (val C) -> Wd -> pres C * Wd) : Prop :=
  forall C D (R : C -> D -> Prop) p l l' w, Forall2 (alike R) l l' ->
  match prim C p l w, prim D p l' w with
  | (POk v, w1), (POk v', w2) => alike R v v' /\ w1 = w2
  | (PErr e, w1), (PErr e', w2) => e = e' /\ w1 = w2
  | _, _ => False
  end.
(** the initial store holds primitives *)
Definition start_with {Wd} (ps : list (sym * N)) (w : Wd) : @state Wd := mkst [] (fold_right (fun '(x, p) vs => set_global x (VPrim p) vs) [] ps) w.
Definition mem_with {Wd} (ps : list (sym * N)) (w : Wd) : @mem Wd :=
  mkmem [] (fold_right (fun '(x, p) g y => if String.eqb x y then VPrim p else g y) VSym ps) w.
(** no letrec without bindings, no call with 1000 operands or more *)
Inductive handy : aexp -> Prop :=
| h_var x : handy (AVar x)
| h_only x : handy (AOnly x)
| h_const d : handy (AConst d)
| h_set x e : handy e -> handy (ASet x e)
| h_lam ps r b : handy b -> handy (ALam ps r b)
| h_if a b c : handy a -> handy b -> handy c -> handy (AIf a b c)
| h_when a b : handy a -> handy b -> handy (AWhen a b)
| h_letrec xs es b : xs <> [] -> Forall handy es -> handy b -> handy (ALetrec xs es b)
| h_seq a b : handy a -> handy b -> handy (ASeq a b)
| h_app f l : (List.length l < 1000)%nat -> handy f -> Forall handy l -> handy (AApp f l).
