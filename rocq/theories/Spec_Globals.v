(** What the analysis of globals must provide. *)
From Coq Require Import ZArith List Bool.
From Verif Require Import Model_Core Spec_Sem Spec_Free.
Import ListNotations.
Open Scope Z_scope.

(** As [simulates] of Spec_Sem, for the globals that can be seen from outside. *)
Definition simulates_on (vis : id -> Prop) (P : prim -> script) (s0 t0 : state) : Prop :=
  (forall t, star P MDirect t0 t -> wrong P MDirect s0 \/ exists s, star P MDirect s0 s /\ out (mem s) = out (mem t)) /\
  (forall t v', star P MDirect t0 t -> ends t v' ->
     wrong P MDirect s0 \/ exists s v, star P MDirect s0 s /\ ends s v /\ shape_of v = shape_of v' /\ out (mem s) = out (mem t) /\
                                 forall x, vis x -> shape_of (gl (mem s) x) = shape_of (gl (mem t) x)) /\
  (forall t, star P MDirect t0 t -> (exists t', step P MDirect t t') \/ (exists v, ends t v) \/ wrong P MDirect s0) /\
  (runs_on P MDirect t0 -> runs_on P MDirect s0).
Definition refines_on (vis : id -> Prop) (P : prim -> script) (e e' : exp) : Prop :=
  forall g i, simulates_on vis P (start e g i) (start e' g i).
(** Private constants are static variables of the C file, all other globals can be seen by other modules: 7.sf:708-711 *)
Definition public (x : id) : Prop := global_id_private_constant x = false.

(** [early x s0 s]: [s] is reached from [s0], and [x] has not been assigned on the way *)
Inductive early (P : prim -> script) (x : id) (s0 : state) : state -> Prop :=
| ea_start : early P x s0 s0
| ea_step s s' : early P x s0 s -> step P MDirect s s' -> (forall vs r k w, s <> Args (OSet x) (map SDone vs) r k w) -> early P x s0 s'.
(** no variable that the program assigns is read before it is assigned *)
Definition careful (P : prim -> script) (e : exp) : Prop :=
  forall g i x s, assigned_in x e -> early P x (start e g i) s -> forall r k w, s <> Ev (EVar x) r k w.

(** there is an assignment of [d] to [x] that is not in a procedure and not in a branch of a conditional *)
Inductive defines (x : id) (d : exp) : exp -> Prop :=
| df_here : defines x d (ESet x d)
| df_set y e : defines x d e -> defines x d (ESet y e)
| df_test a b c : defines x d a -> defines x d (EIf a b c)
| df_operand ef p l e : In e l -> defines x d e -> defines x d (EPrim ef p l)
| df_rator f l : defines x d f -> defines x d (EApp f l)
| df_rand f l e : In e l -> defines x d e -> defines x d (EApp f l)
| df_let ids l b : length ids = length l -> defines x d b -> defines x d (EApp (ELam ids b) l)
| df_fix xs ls b : defines x d b -> defines x d (EFix xs ls b)
| df_letcc y b : defines x d b -> defines x d (ELetcc y b)
| df_cont k e : defines x d k -> defines x d (EWithcc k e)
| df_with k e : defines x d e -> defines x d (EWithcc k e).

(** The private constants of a program come first, each after those that it refers to: 3.sf:735-756.  [qs]: the private
    constants defined so far. *)
Definition private := global_id_private_constant.
Inductive lifted (qs : list id) : exp -> Prop :=
| li_body e : (forall x, free_in x e -> private x = true -> In x qs) -> (forall x, assigned_in x e -> private x = false) -> lifted qs e
| li_const q c y e : private q = true -> ~ In q qs ->
    (forall x, free_in x c -> private x = true -> In x qs) -> (forall x, assigned_in x c -> private x = false) ->
    lifted (q :: qs) e -> lifted qs (EApp (ELam [y] e) [ESet q c]).

(** Variables with the same symbol are the same variable of the C program (7.sf:708-711).  [cs] pairs identifiers with
    those they share the symbol with. *)
Definition name (cs : list (id * id)) (x : id) : id := match assq x cs with Some y => y | None => x end.
Fixpoint storage (cs : list (id * id)) (e : exp) : exp :=
  match e with
  | EVar x => EVar (name cs x)
  | ESet x e => ESet (name cs x) (storage cs e)
  | EIf a b c => EIf (storage cs a) (storage cs b) (storage cs c)
  | EPrim ef p l => EPrim ef p (map (storage cs) l)
  | EApp f l => EApp (storage cs f) (map (storage cs) l)
  | ELam xs b => ELam xs (storage cs b)
  | EFix xs ls b => EFix xs (map (fun l => (fst l, storage cs (snd l))) ls) (storage cs b)
  | ELetcc x b => ELetcc x (storage cs b)
  | EWithcc k e => EWithcc (storage cs k) (storage cs e)
  end.

(** expressions made of variables, operations, calls and procedures *)
Inductive straight : exp -> Prop :=
| sg_var x : straight (EVar x)
| sg_prim ef p l : Forall straight l -> straight (EPrim ef p l)
| sg_app f l : straight f -> Forall straight l -> straight (EApp f l)
| sg_lam xs b : straight b -> straight (ELam xs b).
(** no private constant is a recursive procedure without conditionals, assignments, loops and continuations *)
Definition no_private_rec (e : exp) : Prop :=
  forall q y xs b ls, private q = true -> defines q (EFix [y] ((xs, b) :: ls) (EVar y)) e -> ~ straight b.

(** What can be compiled to a C function that runs on the C stack (6.sf:641-868): it makes no use of the registers of the
    abstract machine, calls nothing but itself, and jumps to its own labels. *)
Definition bound_or_private (xs : list id) (x : id) : Prop := In x xs \/ private x = true.
Inductive c_body (self : id) : list id -> list id -> bool -> exp -> Prop :=
| cb_var xs ls t x : bound_or_private xs x -> c_body self xs ls t (EVar x)
| cb_if xs ls t a b c : c_body self xs ls false a -> c_body self xs ls t b -> c_body self xs ls t c -> c_body self xs ls t (EIf a b c)
| cb_prim xs ls t ef p l : ~ may_alloc ef -> (forall e, In e l -> c_body self xs ls false e) -> c_body self xs ls t (EPrim ef p l)
| cb_let xs ls t ys l b : length ys = length l -> (forall e, In e l -> c_body self xs ls false e) -> c_body self (ys ++ xs) ls t b -> c_body self xs ls t (EApp (ELam ys b) l)
| cb_self xs ls t l : (forall e, In e l -> c_body self xs ls false e) -> c_body self xs ls t (EApp (EVar self) l)
| cb_goto xs ls y l : In y ls -> (forall e, In e l -> c_body self xs ls false e) -> c_body self xs ls true (EApp (EVar y) l)
| cb_fix xs ls t ys lams b : c_body self xs (ys ++ ls) t b -> (forall lam, In lam lams -> c_body self (fst lam ++ xs) (ys ++ ls) true (snd lam)) -> c_body self xs ls t (EFix ys lams b)
| cb_loop xs ls t y lam lams l : c_body self xs ls t (EFix [y] [lam] (EApp (EVar y) l)) -> c_body self xs ls t (EApp (EFix [y] (lam :: lams) (EVar y)) l).
Inductive c_function (self : id) : exp -> Prop :=
| cf_lam xs b : c_body self xs [] true b -> c_function self (ELam xs b)
| cf_null b : c_function self b -> c_function self (EApp (ELam [] b) [])
| cf_ident x e : c_function self e -> c_function self (EApp (ELam [x] (EVar x)) [e]).

(** the program starts with definitions, and those that can be inlined mention no variable that is defined at the same place or later *)
Inductive forward : exp -> Prop :=
| fw_body e : (forall x d, ~ defines x d e) -> forward e
| fw_def y x d b : (forall x' d', ~ defines x' d' d) -> (straight d -> forall z, free_in z d -> z <> x /\ ~ assigned_in z b) -> forward b ->
    forward (EApp (ELam [y] b) [ESet x d]).
