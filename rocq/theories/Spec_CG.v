(** Meaning of expressions before code generation. *)
From Coq Require Import ZArith List Bool.
From Verif Require Import Model_CG.
Import ListNotations.
Open Scope Z_scope.

(** the register of a local: the number of slots below its latest slot *)
Definition reg_of (renv : list slot) (x : id) (n : nat) : Prop :=
  exists a b, renv = a ++ SId x :: b /\ ~ In (SId x) a /\ n = length b.

Section Meaning.
Variable kind : id -> idkind.
Variable val store : Type.
Variable truth : val -> bool.
Variable primsem : prim -> list val -> store -> val * store.
Variable gread : id -> store -> val.
Variable cvar local : id -> val.
(** variables, conditionals and primitives; no other expression is made into a C expression *)
Inductive means : exp -> store -> val -> store -> Prop :=
| m_local x st : kind x = KLocal -> means (EVar x) st (local x) st
| m_global x st : kind x = KGlobal -> means (EVar x) st (gread x st) st
| m_cvar x t st : kind x = KCvar t -> means (EVar x) st (cvar x) st
| m_true a b c st v st1 w st2 : means a st v st1 -> truth v = true -> means b st1 w st2 -> means (EIf a b c) st w st2
| m_false a b c st v st1 w st2 : means a st v st1 -> truth v = false -> means c st1 w st2 -> means (EIf a b c) st w st2
| m_prim f p l st vs st1 v st2 : mean_list l st vs st1 -> primsem p vs st1 = (v, st2) -> means (EPrim f p l) st v st2
with mean_list : list exp -> store -> list val -> store -> Prop :=
| ml_nil st : mean_list [] st [] st
| ml_cons e l st v st1 vs st2 : means e st v st1 -> mean_list l st1 vs st2 -> mean_list (e :: l) st (v :: vs) st2.
End Meaning.

(** primitives without effects on the store *)
Inductive quiet {val store : Type} (primsem : prim -> list val -> store -> val * store) : exp -> Prop :=
| q_var x : quiet primsem (EVar x)
| q_if a b c : quiet primsem a -> quiet primsem b -> quiet primsem c -> quiet primsem (EIf a b c)
| q_prim f p l : (forall vs st, snd (primsem p vs st) = st) -> Forall (quiet primsem) l -> quiet primsem (EPrim f p l).

(** The tests of [||] are evaluated once: harmless if a test that is repeated as first branch is
    quiet. *)
Fixpoint or_safe {val store : Type} (primsem : prim -> list val -> store -> val * store)
    (kind : id -> idkind) (renv : list slot) (e : exp) : Prop :=
  match e with
  | EIf a b c => or_safe primsem kind renv a /\ or_safe primsem kind renv b /\ or_safe primsem kind renv c /\
      (forall c1 c2, cg_cexp kind a renv = Some c1 -> cg_cexp kind b renv = Some c2 -> c1 = c2 -> quiet primsem a)
  | EPrim _ _ l => (fix all (l : list exp) : Prop := match l with [] => True | e :: l' => or_safe primsem kind renv e /\ all l' end) l
  | _ => True
  end.

(** no primitive in the expression is declared to allocate (effects with a star) *)
Inductive no_alloc : exp -> Prop :=
| na_var x : no_alloc (EVar x)
| na_if a b c : no_alloc a -> no_alloc b -> no_alloc c -> no_alloc (EIf a b c)
| na_prim f p l : f <> StarE -> f <> StarObsE -> f <> StarPutE -> f <> AnyE -> Forall no_alloc l -> no_alloc (EPrim f p l).
