(** What a stable sort is, without reference to any algorithm. *)
From Coq Require Import ZArith List Bool Permutation Sorted.
Import ListNotations.
From Verif Require Import Model_Sort.
Open Scope Z_scope.

(** [less] orders by some key: asymmetric and negatively transitive *)
Definition weak_order {A} (less : A -> A -> bool) : Prop :=
  (forall x y, less x y = true -> less y x = false) /\
  (forall x y z, less x y = false -> less y z = false -> less x z = false).

Definition equiv {A} (less : A -> A -> bool) (x y : A) : bool :=
  negb (less x y) && negb (less y x).

(** [l'] is the stable sort of [l] *)
Definition stable_sort_of {A} (less : A -> A -> bool) (l l' : list A) : Prop :=
  Permutation l l' /\
  StronglySorted (fun a b => less b a = false) l' /\
  (forall x, filter (equiv less x) l' = filter (equiv less x) l).

(** the pairs [l], in order, form the proper list [p] *)
Fixpoint chain (cd : Z -> Z) (p : Z) (l : list Z) : Prop :=
  match l with
  | [] => p = 0
  | a :: l' => p = a /\ a <> 0 /\ chain cd (cd a) l'
  end.

(** the proper list [p] of elements [xs], held in pairs below the allocation mark *)
Definition list_at {A} (st : store A) (p : Z) (xs : list A) : Prop :=
  exists l, chain (s_cdr st) p l /\ NoDup l /\ Forall (fun a => 0 < a < s_next st) l /\
            map (s_car st) l = xs.
