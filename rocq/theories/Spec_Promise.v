(** Once and for all. *)
From Coq Require Import ZArith List Bool.
From Verif Require Import Model_Promise.
Import ListNotations.
Open Scope Z_scope.

(** the value the procedure of [p] returned first *)
Fixpoint first_return (p : Z) (l : list event) : option Z :=
  match l with
  | [] => None
  | Return q x :: l' => if q =? p then Some x else first_return p l'
  | Force _ :: l' => first_return p l'
  end.
(** what the last event of a history must yield *)
Definition expected (past : list event) (e : event) : outcome :=
  match e with
  | Force p => match first_return p past with Some v => Value p v | None => Run p end
  | Return p x => Value p (match first_return p past with Some v => v | None => x end)
  end.

(** the promise an outcome of the r7rs promises is about, with its value if it has one *)
Definition concerns (o : loutcome) (p : Z) : Prop := exists t, o = LRun p t \/ o = LValue p t.
