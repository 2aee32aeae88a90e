(** Lists, vectors and trees as they lie in memory. *)
From Coq Require Import ZArith List Bool.
From Verif Require Import Base Model_Imm Model_GC.
Import ListNotations.
Open Scope Z_scope.

Section Heap.
(** the heap: [hs] words from [heap] *)
Variables heap hs : Z.

Definition heap_ok : Prop := ((exists k, 0 <= k /\ hs = 2 ^ k) /\ 0 < heap) /\ heap mod 8 = 0.

(** [o] is a heap address as the runtime sees it *)
Definition in_heap (o : Z) : Prop := heap <= o < heap + 8 * hs /\ (o - heap) mod 2 = 0.

(** a pair: size word 3, tag word 3, car, cdr *)
Definition pair_at (m : mem) (p : Z) : Prop :=
  in_heap p /\ m (p - 8) = 2 * 3 + 1 /\ m p = 2 * 3 + 1.
Definition car_at (m : mem) (p : Z) : Z := m (p + 8).
Definition cdr_at (m : mem) (p : Z) : Z := m (p + 16).

(** the pairs [ps], linked through their cdrs, lead from [l] to [e] *)
Fixpoint seg (m : mem) (l : Z) (ps : list Z) (e : Z) : Prop :=
  match ps with
  | [] => l = e
  | p :: ps' => l = p /\ pair_at m p /\ seg m (cdr_at m p) ps' e
  end.

(** the empty list: immediate 0 with tag 3 *)
Definition NULL : Z := 7.

Definition chain (m : mem) (l : Z) (ps : list Z) : Prop := seg m l ps NULL.
Definition elems (m : mem) (ps : list Z) : list Z := map (car_at m) ps.

(** [l] is a proper list *)
Inductive proper (m : mem) : Z -> Prop :=
| proper_nil : proper m NULL
| proper_cons : forall p, pair_at m p -> proper m (cdr_at m p) -> proper m p.

(** objects reached from [l] through the cdrs of pairs, and: those that carry the pair
    tag are blocks of the size of a pair *)
Inductive cdr_reach (m : mem) (l : Z) : Z -> Prop :=
| reach_here : cdr_reach m l l
| reach_cdr : forall x, cdr_reach m l x -> pair_at m x -> cdr_reach m l (cdr_at m x).
Definition well_tagged (m : mem) (l : Z) : Prop :=
  forall x, cdr_reach m l x -> in_heap x -> m x = 2 * 3 + 1 -> m (x - 8) = 2 * 3 + 1.

Definition vector_at (m : mem) (v : Z) (xs : list Z) : Prop :=
  in_heap v /\ m (v - 8) = 2 * (Z.of_nat (length xs) + 1) + 1 /\ m v = 2 * 1 + 1 /\
  forall i, (i < length xs)%nat -> m (v + 8 * (1 + Z.of_nat i)) = nth i xs 0.

(** memory agrees outside the words of [lo, hi) *)
Definition same_outside (m m' : mem) (lo hi : Z) : Prop :=
  forall a, ~ (lo <= a < hi) -> m' a = m a.

(** the blocks of different pairs do not overlap *)
Definition apart (ps : list Z) : Prop :=
  forall p q, In p ps -> In q ps -> p <> q -> p + 24 <= q - 8 \/ q + 24 <= p - 8.

(** pairs lie within [lo, hi) *)
Definition within (lo hi : Z) (ps : list Z) : Prop :=
  Forall (fun p => lo <= p - 8 /\ p + 24 <= hi) ps.
Definition above (lo : Z) (ps : list Z) : Prop := Forall (fun p => lo <= p - 8) ps.
End Heap.
