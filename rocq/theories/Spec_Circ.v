(** Objects as possibly infinite trees: two objects have equal unfoldings if no finite part of the unfoldings differs. *)
From Coq Require Import ZArith List Bool.
From Verif Require Import Model_Circ.
Import ListNotations.
Open Scope Z_scope.

(** the characters before the first NUL *)
Fixpoint chars (s : list Z) : list Z := match s with [] => [] | c :: s' => if c =? 0 then [] else c :: chars s' end.
(** objects without parts that count as equal *)
Inductive same_leaf : node -> node -> Prop :=
| sf_flo a : same_leaf (NFlo (Some a)) (NFlo (Some a))
| sf_str a b : chars a = chars b -> same_leaf (NStr a) (NStr b)
| sf_bytes a : same_leaf (NBytes a) (NBytes a).
(** the unfoldings agree to depth [n]: the same word, equal leaves, or blocks of the same length and first word whose
    other fields agree to depth [n - 1] *)
Fixpoint upto (w : world) (n : nat) (x y : Z) : Prop :=
  match n with
  | O => True
  | S n' =>
    x = y \/
    heap_obj w x = true /\ heap_obj w y = true /\
    (same_leaf (at_ w x) (at_ w y) \/
     exists t xs ys, at_ w x = NBlk (t :: xs) /\ at_ w y = NBlk (t :: ys) /\ Forall2 (upto w n') xs ys)
  end.
Definition same_unfolding (w : world) (x y : Z) : Prop := forall n, upto w n x y.

(** a heap: finitely many objects, at nonzero even addresses; what they refer to are objects or other words;
    strings end in NUL *)
Definition finite_heap (w : world) (dom : list Z) : Prop :=
  (forall o, heap_obj w o = true <-> In o dom) /\
  (forall o, In o dom -> 0 < o /\ Z.even o = true) /\
  (forall o s, In o dom -> at_ w o = NStr s -> In 0 s).
