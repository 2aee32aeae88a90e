(** Structural equality of the values that objects in memory denote. *)
From Coq Require Import ZArith List Bool.
From Verif Require Import Base Model_Imm Model_GC Spec_List.
Import ListNotations.
Open Scope Z_scope.

Section Trees.
Variable F : Type.
Variable feq : F -> F -> bool.
Variable flo : Z -> F.
Variable str : Z -> list Z.
Variables flonum_ntag string_ntag : Z.
Variables heap hs : Z.

(** a value: a word that is no heap object, a number, a string, an object of another
    native type (or an empty block), known only by its identity, or a block with a
    raw first word and further fields *)
Inductive tree :=
| TWord (w : Z)
| TFlo (f : F)
| TStr (s : list Z)
| TId (a : Z)
| TBlock (w0 : Z) (fs : list tree).

(** [o] denotes the (finite) tree [t] in memory [m] *)
Fixpoint denotes (m : mem) (o : Z) (t : tree) {struct t} : Prop :=
  match t with
  | TWord w => o = w /\ (o = 0 \/ o mod 2 = 1 \/ ~ in_heap heap hs o)
  | TFlo f => o <> 0 /\ o mod 2 = 0 /\ in_heap heap hs o /\ m (o - 8) = flonum_ntag /\ f = flo (m o)
  | TStr s => o <> 0 /\ o mod 2 = 0 /\ in_heap heap hs o /\ m (o - 8) = string_ntag /\ s = str (m o)
  | TId a => o <> 0 /\ o mod 2 = 0 /\ in_heap heap hs o /\ o = a /\ m (o - 8) <> flonum_ntag /\
             m (o - 8) <> string_ntag /\ (m (o - 8) mod 2 = 0 \/ m (o - 8) = 1)
  | TBlock w0 fs => o <> 0 /\ o mod 2 = 0 /\ in_heap heap hs o /\
      1 + Z.of_nat (length fs) < 2147483648 /\ m (o - 8) = 2 * (1 + Z.of_nat (length fs)) + 1 /\ m o = w0 /\
      (fix fields (i : Z) (fs : list tree) : Prop :=
         match fs with [] => True | g :: gs => denotes m (m (o + 8 * i)) g /\ fields (i + 1) gs end) 1 fs
  end.

(** same shape, same words, strings with the same characters, numbers equal under [=] *)
Inductive teq : tree -> tree -> Prop :=
| teq_word : forall w, teq (TWord w) (TWord w)
| teq_flo : forall f g, feq f g = true -> teq (TFlo f) (TFlo g)
| teq_str : forall s, teq (TStr s) (TStr s)
| teq_id : forall a, teq (TId a) (TId a)
| teq_block : forall w fs gs, Forall2 teq fs gs -> teq (TBlock w fs) (TBlock w gs).

(** every number in the tree equals itself *)
Inductive no_nan : tree -> Prop :=
| nn_word : forall w, no_nan (TWord w)
| nn_flo : forall f, feq f f = true -> no_nan (TFlo f)
| nn_str : forall s, no_nan (TStr s)
| nn_id : forall a, no_nan (TId a)
| nn_block : forall w fs, Forall no_nan fs -> no_nan (TBlock w fs).

Fixpoint height (t : tree) : nat :=
  match t with
  | TBlock _ fs => S (fold_right (fun t n => Nat.max (height t) n) 0%nat fs)
  | _ => 0%nat
  end.

(** the same object, or two numbers equal under [=] *)
Definition eqv (m : mem) (x y : Z) : Prop :=
  x = y \/ (in_heap heap hs x /\ x <> 0 /\ x mod 2 = 0 /\ in_heap heap hs y /\ y <> 0 /\ y mod 2 = 0 /\
            m (x - 8) = flonum_ntag /\ m (y - 8) = flonum_ntag /\ feq (flo (m x)) (flo (m y)) = true).

Definition equal (m : mem) (x y : Z) : Prop :=
  exists t1 t2, denotes m x t1 /\ denotes m y t2 /\ teq t1 t2.
End Trees.

(** [r] is the first of [ps] satisfying [P], or 0 (#f) if there is none *)
Definition first_such (P : Z -> Prop) (ps : list Z) (r : Z) : Prop :=
  (r = 0 /\ Forall (fun p => ~ P p) ps) \/
  (exists pre post, ps = pre ++ r :: post /\ Forall (fun p => ~ P p) pre /\ P r).
