(** What a module must tell about its global variables. *)
From Coq Require Import ZArith List Bool.
From Verif Require Import Base Model_Lit Model_Core Model_CodeGen Spec_Sem Spec_CodeGen Spec_Collect.
Import ListNotations.

(** a statement stores in the global [x] what it has computed *)
Definition stores (x : id) (s : code) : Prop :=
  match s with KSet t _ | KPrim t _ _ | KClo t _ _ => t = TGlob x | _ => False end.
(** or the address of a block that is not in the heap, 7.sf:274-281 *)
Definition stores_static (x : id) (s : code) : Prop := match s with KStatic y _ => y = x | _ => False end.
(** a global is read *)
Inductive reads (x : id) : cexp -> Prop :=
| re_here : reads x (XGlob x)
| re_test a b c : reads x a -> reads x (XIf a b c)
| re_then a b c : reads x b -> reads x (XIf a b c)
| re_else a b c : reads x c -> reads x (XIf a b c)
| re_rand p l c : In c l -> reads x c -> reads x (XPrim p l).
Definition uses (x : id) (s : code) : Prop :=
  match s with
  | KSet _ c | KIf c _ _ => reads x c
  | KPrim _ _ l | KClo _ _ l | KGoto _ _ l | KJump _ l => Exists (reads x) l
  | _ => False
  end.
