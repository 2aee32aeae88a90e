(** The merge sort of /repo/7.sf:23-46, which relinks the pairs of a list in place.
    Pairs are positive addresses, '() is 0.  Simplification: the only atom that can
    end a list is '() (callers pass proper lists). *)
From Coq Require Import ZArith List Bool.
Import ListNotations.
Open Scope Z_scope.

Section Sort.
Variable A : Type.
Variable less : A -> A -> bool.

Record store := mkstore { s_car : Z -> A; s_cdr : Z -> Z; s_next : Z }.

Definition set_cdr (st : store) (p v : Z) : store :=
  mkstore (s_car st) (fun x => if x =? p then v else s_cdr st x) (s_next st).

Definition cons_cell (st : store) (a : A) (d : Z) : store * Z :=
  (mkstore (fun x => if x =? s_next st then a else s_car st x)
           (fun x => if x =? s_next st then d else s_cdr st x) (s_next st + 1), s_next st).

Definition atom (p : Z) : bool := p =? 0.

(** 7.sf:23-27; the recursive call is evaluated before [set-cdr!] is done *)
Fixpoint merge_by (fuel : nat) (st : store) (p q : Z) : option (store * Z) :=
  match fuel with
  | O => None
  | S f =>
    if atom p then Some (st, q)
    else if atom q then Some (st, p)
    else if less (s_car st q) (s_car st p) then
      match merge_by f st p (s_cdr st q) with
      | None => None
      | Some (st', r) => Some (set_cdr st' q r, q)
      end
    else
      match merge_by f st (s_cdr st p) q with
      | None => None
      | Some (st', r) => Some (set_cdr st' p r, p)
      end
  end.

(** 7.sf:31-34 *)
Fixpoint split_loop (fuel : nat) (st : store) (hd tl : Z) : option (store * Z) :=
  match fuel with
  | O => None
  | S f =>
    if atom tl || atom (s_cdr st tl) then Some (set_cdr st hd 0, s_cdr st hd)
    else split_loop f st (s_cdr st hd) (s_cdr st (s_cdr st tl))
  end.

(** 7.sf:29-34 *)
Definition split_by (fuel : nat) (st : store) (lst : Z) : option (store * Z) :=
  if atom lst then Some (st, lst) else split_loop fuel st lst (s_cdr st lst).

(** 7.sf:36-39; arguments of a call are evaluated left to right here (the result
    does not depend on the order: the two lists are disjoint) *)
Fixpoint sort_by_bang (fuel : nat) (st : store) (lst : Z) : option (store * Z) :=
  match fuel with
  | O => None
  | S f =>
    if atom lst then Some (st, 0)
    else if atom (s_cdr st lst) then Some (st, lst)
    else match split_by (S f) st lst with
         | None => None
         | Some (st1, lst2) =>
           match sort_by_bang f st1 lst with
           | None => None
           | Some (st2, p) =>
             match sort_by_bang f st2 lst2 with
             | None => None
             | Some (st3, q) => merge_by (S f) st3 p q
             end
           end
         end
  end.

(** list-copy, 0.sf:1307-1326, seen functionally: fresh pairs with the same cars *)
Fixpoint list_copy (fuel : nat) (st : store) (p : Z) : option (store * Z) :=
  match fuel with
  | O => None
  | S f =>
    if atom p then Some (st, 0)
    else match list_copy f st (s_cdr st p) with
         | None => None
         | Some (st', r) => let '(st'', c) := cons_cell st' (s_car st p) r in Some (st'', c)
         end
  end.

(** 7.sf:41-42 *)
Definition sort_by (fuel : nat) (st : store) (lst : Z) : option (store * Z) :=
  match list_copy fuel st lst with
  | None => None
  | Some (st', l') => sort_by_bang fuel st' l'
  end.

(** 7.sf:44-45 *)
Definition merge_by_copy (fuel : nat) (st : store) (p q : Z) : option (store * Z) :=
  match list_copy fuel st p with
  | None => None
  | Some (st1, p') =>
    match list_copy fuel st1 q with
    | None => None
    | Some (st2, q') => merge_by fuel st2 p' q'
    end
  end.
End Sort.
Arguments mkstore {A}. Arguments s_car {A}. Arguments s_cdr {A}. Arguments s_next {A}.
Arguments set_cdr {A}. Arguments cons_cell {A}.
Arguments merge_by {A}. Arguments split_loop {A}. Arguments split_by {A}.
Arguments sort_by_bang {A}. Arguments list_copy {A}. Arguments sort_by {A}.
Arguments merge_by_copy {A}.
