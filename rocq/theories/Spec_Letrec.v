(** Programs whose letrec and letrec* bindings may be reordered. *)
From Coq Require Import ZArith List Bool.
From Verif Require Import Model_Core Spec_Sem Spec_Free.
Import ListNotations.
Open Scope Z_scope.

(** ** letrec and letrec*
    (begin (set! x e) ... body): what letrec* (x e) ... stands for after its variables are made *)
Inductive chain : list id -> list exp -> exp -> exp -> Prop :=
| ch_nil b : chain [] [] b b
| ch_cons x xs e es b d c : chain xs es b c -> ~ free_in d c -> chain (x :: xs) (e :: es) b (EApp (ELam [d] c) [ESet x e]).
(** (begin (set! x t) ... z): how letrec stores its values *)
Inductive stores (z : exp) : list id -> list id -> exp -> Prop :=
| sto_nil : stores z [] [] z
| sto_cons x xs t ts d c : stores z xs ts c -> ~ free_in d c -> stores z (x :: xs) (t :: ts) (EApp (ELam [d] c) [ESet x (EVar t)]).
(** c evaluates the values in an unspecified order, stores them and goes on with b *)
Inductive stored (z : exp) (ids : list id) (es : list exp) (b : exp) : exp -> Prop :=
| std_intro tmps l d : stores z ids tmps l -> ~ free_in d b -> stored z ids es b (EApp (ELam [d] b) [EApp (ELam tmps l) es]).
(** what is taken for a value not yet there *)
Definition placeholder (e : exp) : Prop := exists ef l, e = EPrim ef the_void_prim l.
Definition recursive (ids : list id) (c : exp) : Prop := exists es b, chain ids es b c \/ exists z, placeholder z /\ stored z ids es b c.

(** ** Values that do not depend on when they are computed *)
Section Settled.
Variable P : prim -> script.
(** a primitive operation that makes a constant *)
Definition makes (p : prim) (c : const) : Prop := p <> the_halt_prim /\ forall w, run (P p) [] w = Some (VC c, w).
(** [asg]: the variables that may change after they are made *)
Variable asg : id -> bool.
Inductive steady (ids : list id) : exp -> Prop :=
| sy_lam xs b : steady ids (ELam xs b)
| sy_var y : global_id y = false -> asg y = false -> ~ In y ids -> steady ids (EVar y)
| sy_const ef p c : ref_transparent_effect ef = true -> makes p c -> steady ids (EPrim ef p []).
(** expressions made of variables, procedures and operations without effects *)
Inductive simple : exp -> Prop :=
| si_var x : simple (EVar x)
| si_lam xs b : simple (ELam xs b)
| si_if a b c : simple a -> simple b -> simple c -> simple (EIf a b c)
| si_prim ef p l : ref_transparent_effect ef = true -> (forall e, In e l -> simple e) -> simple (EPrim ef p l)
| si_let xs b l : simple b -> (forall e, In e l -> simple e) -> simple (EApp (ELam xs b) l)
| si_with k e : simple k -> simple e -> simple (EWithcc k e).
(** the value of a variable of a letrec* may be computed at any time, or stays where it is because the variable is not used,
    or is assigned elsewhere, or because of the form of the expression *)
Definition orderly (ids : list id) (es : list exp) (b : exp) (x : id) (e : exp) : Prop :=
  let all := es ++ [b] in
  (forall a, In a all -> assigned_in x a -> asg x = true) /\
  (steady ids e \/ (forall a, In a all -> ~ free_in x a) \/ (exists a, In a all /\ assigned_in x a) \/
   asg x = true /\ (forall xs b, e <> ELam xs b) /\ (~ simple e \/ exists y, In y ids /\ free_in y e)).
(** the values of a letrec may be computed at any time, and its variables keep them *)
Definition quiet (ids : list id) (es : list exp) (b : exp) (x : id) (e : exp) : Prop :=
  steady ids e /\ forall a, In a (es ++ [b]) -> ~ assigned_in x a.
Inductive settled : exp -> Prop :=
| se_var x : settled (EVar x)
| se_set x e : settled e -> settled (ESet x e)
| se_if a b c : settled a -> settled b -> settled c -> settled (EIf a b c)
| se_prim ef p l : (forall e, In e l -> settled e) -> settled (EPrim ef p l)
| se_lam xs b : (forall x, In x xs -> assigned_in x b -> asg x = true) -> settled b -> settled (ELam xs b)
| se_letcc x b : (assigned_in x b -> asg x = true) -> settled b -> settled (ELetcc x b)
| se_with k e : settled k -> settled e -> settled (EWithcc k e)
| se_app f l : (forall ids c, f = ELam ids c -> l <> [] -> (forall e, In e l -> placeholder e) -> ~ recursive ids c) ->
    settled f -> (forall e, In e l -> settled e) -> settled (EApp f l)
| se_letrecs x ids es b c : chain (x :: ids) es b c -> (forall i y e, nth_error (x :: ids) i = Some y -> nth_error es i = Some e -> orderly (x :: ids) es b y e) ->
    (forall e, In e es -> settled e) -> settled b -> settled (EApp (ELam (x :: ids) c) (map (fun _ => void_exp) (x :: ids)))
| se_letrec x ids es b c : stored void_exp (x :: ids) es b c -> (forall i y e, nth_error (x :: ids) i = Some y -> nth_error es i = Some e -> quiet (x :: ids) es b y e) ->
    length es = length (x :: ids) ->
    (forall e, In e es -> settled e) -> settled b -> settled (EApp (ELam (x :: ids) c) (map (fun _ => void_exp) (x :: ids))).
End Settled.

(** ** Programs for which the test for a letrec fails
    more assignments from variables than there are new variables *)
Inductive excess (all : list id) : list id -> exp -> Prop :=
| xs_more y v d c : ~ free_in d c -> excess all [] (EApp (ELam [d] c) [ESet y (EVar v)])
| xs_step x t ts d c : ~ In x all -> ~ free_in d c -> excess all ts c -> excess all (t :: ts) (EApp (ELam [d] c) [ESet x (EVar t)]).
(** (let ((x (void)) ...) (begin (let ((t e) ...) (set! x t) ... (set! y z) ...) b)), at least one x *)
Inductive overrun : exp -> Prop :=
| ovr x ids rands tmps l es d b : length (x :: ids) = length rands -> (forall a, In a rands -> placeholder a) -> length tmps = length es ->
    ~ free_in d b -> excess tmps tmps l -> overrun (EApp (ELam (x :: ids) (EApp (ELam [d] b) [EApp (ELam tmps l) es])) rands).
