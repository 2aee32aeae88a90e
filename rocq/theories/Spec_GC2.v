(** An abstract heap without addresses or collection, the yardstick for the
    collector: objects are numbered in order of creation and live forever. *)
From Coq Require Import ZArith List Bool Permutation.
From Verif Require Import Base Model_GC Spec_GC.
Import ListNotations.
Open Scope Z_scope.

Inductive aval := AW (w : Z) | AP (n : nat).
Inductive aobj := ABlk (fs : list aval) | ANat (t p : Z).
Record astate := mka { a_root : Z -> aval; a_heap : list aobj }.

Definition aupd (r : Z -> aval) (c : Z) (v : aval) : Z -> aval :=
  fun x => if x =? c then v else r x.

Fixpoint set_nth {A} (l : list A) (n : nat) (v : A) : list A :=
  match l, n with
  | [], _ => []
  | _ :: l', O => v :: l'
  | x :: l', S n' => x :: set_nth l' n' v
  end.

(** [None]: the program itself is wrong (not a block, index out of range, no
    such root cell) *)
Definition astep (cells : list Z) (s : astate) (o : mop) : option astate :=
  let isc c := existsb (Z.eqb c) cells in
  match o with
  | OImm c w => if isc c then Some (mka (aupd (a_root s) c (AW w)) (a_heap s)) else None
  | OMove c c' =>
    if isc c && isc c' then Some (mka (aupd (a_root s) c (a_root s c')) (a_heap s)) else None
  | OLoad c c' i =>
    if isc c && isc c' && (0 <=? i) then
      match a_root s c' with
      | AP n => match nth_error (a_heap s) n with
                | Some (ABlk fs) =>
                  match nth_error fs (Z.to_nat i) with
                  | Some v => Some (mka (aupd (a_root s) c v) (a_heap s))
                  | None => None
                  end
                | _ => None
                end
      | AW _ => None
      end
    else None
  | OStore c i c' =>
    if isc c && isc c' && (0 <=? i) then
      match a_root s c with
      | AP n => match nth_error (a_heap s) n with
                | Some (ABlk fs) =>
                  if (Z.to_nat i <? length fs)%nat then
                    Some (mka (a_root s)
                      (set_nth (a_heap s) n (ABlk (set_nth fs (Z.to_nat i) (a_root s c')))))
                  else None
                | _ => None
                end
      | AW _ => None
      end
    else None
  | OAlloc c cs =>
    if isc c && forallb isc cs && negb (length cs =? 0)%nat then
      Some (mka (aupd (a_root s) c (AP (length (a_heap s))))
                (a_heap s ++ [ABlk (map (a_root s) cs)]))
    else None
  | ONative c t p =>
    if isc c then
      Some (mka (aupd (a_root s) c (AP (length (a_heap s)))) (a_heap s ++ [ANat t p]))
    else None
  end.

Fixpoint arun (cells : list Z) (s : astate) (l : list (mop * nat * (Z -> Z) * (Z -> Z)))
    : option astate :=
  match l with
  | [] => Some s
  | (o, _, _, _) :: l' =>
    match astep cells s o with None => None | Some s' => arun cells s' l' end
  end.

(** native objects ever created *)
Definition a_natives (h : list aobj) : list (Z * Z) :=
  flat_map (fun o => match o with ANat t p => [(t, p)] | _ => [] end) h.

(** object numbers reachable from the roots *)
Inductive areach (cells : list Z) (s : astate) : nat -> Prop :=
| areach_root c n : In c cells -> a_root s c = AP n -> areach cells s n
| areach_field n fs n' : areach cells s n -> nth_error (a_heap s) n = Some (ABlk fs) ->
    In (AP n') fs -> areach cells s n'.

(** ** correspondence of a concrete and an abstract state *)
Definition vrel (R : nat -> Z -> Prop) (h s : Z) (v : aval) (w : Z) : Prop :=
  match v with
  | AW x => w = x /\ ~ isptr w h s
  | AP n => isptr w h s /\ R n (w - 8)
  end.

Definition orel (R : nat -> Z -> Prop) (h s : Z) (m : mem) (o : aobj) (b : Z) : Prop :=
  match o with
  | ABlk fs => native (m b) = false /\ blen (m b) = Z.of_nat (length fs) /\
      forall i v, nth_error fs i = Some v -> vrel R h s v (m (b + 8 + 8 * Z.of_nat i))
  | ANat t p => native (m b) = true /\ m b = t /\ m (b + 8) = p
  end.

Definition sim_graph (R : nat -> Z -> Prop) (cells : list Z) (a : astate) (m : mem) (h s : Z) : Prop :=
  (forall n b b', R n b -> R n b' -> b = b') /\
  (forall n n' b, R n b -> R n' b -> n = n') /\
  (forall c, In c cells -> vrel R h s (a_root a c) (m c)) /\
  (forall n b, R n b -> exists o, nth_error (a_heap a) n = Some o /\ orel R h s m o b).

(** The two states represent the same object graph; the concrete heap is well
    formed; and every native object ever created is either still in the heap or
    has been freed (exactly once). *)
Definition sim (cells : list Z) (a : astate) (c : cstate) : Prop :=
  exists (R : nat -> Z -> Prop) (blks : list Z),
    gc_ready (c_gc c) (c_mem c) (c_hp c) cells blks /\
    (forall n b, R n b -> In b blks) /\
    sim_graph R cells a (c_mem c) (g_heap (c_gc c)) (g_hsize (c_gc c)) /\
    Permutation (a_natives (a_heap a)) (natives (c_mem c) blks ++ c_ev c).

(** Side conditions on one step: enough fuel, a correct allocator, and words
    stored by [OImm]/[ONative] that are not pointers into the collector's areas. *)
Definition outside (st : gcstate) (w : Z) : Prop :=
  ~ isptr w (g_heap st) (g_hsize st) /\ ~ isptr w (g_heap2 st) (g_hsize st).

Definition op_needs (o : mop) : Z :=
  match o with OAlloc _ cs => 1 + Z.of_nat (length cs) | ONative _ _ _ => 2 | _ => 0 end.

Definition step_ok (cells : list Z) (c : cstate) (o : mop) (fuel : nat) (na nb : Z -> Z) : Prop :=
  HEAP_SIZE + 2 * op_needs o + 4 * g_hsize (c_gc c) < Z.of_nat fuel /\
  (op_needs o <> 0 -> forall blks, gc_ready (c_gc c) (c_mem c) (c_hp c) cells blks ->
     alloc_ok (c_gc c) (c_mem c) cells blks na nb) /\
  match o with
  | OImm _ w => outside (c_gc c) w
  | OAlloc _ cs => Z.of_nat (length cs) < 2 ^ 31
  | ONative _ t p => t mod 2 = 0 /\ t <> 0 /\
      forall s k, 0 <= k -> s = 2 ^ k ->
        outside (c_gc c) t /\ outside (c_gc c) p /\
        ~ isptr t (na s) s /\ ~ isptr t (nb s) s /\ ~ isptr p (na s) s /\ ~ isptr p (nb s) s
  | _ => True
  end.

Fixpoint run_ok (cells : list Z) (c : cstate) (l : list (mop * nat * (Z -> Z) * (Z -> Z))) : Prop :=
  match l with
  | [] => True
  | (o, fuel, na, nb) :: l' =>
    step_ok cells c o fuel na nb /\
    forall c', cstep fuel na nb cells c o = Some (Val c') -> run_ok cells c' l'
  end.
