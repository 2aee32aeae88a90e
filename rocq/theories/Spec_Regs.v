(** An unbounded register window: what compiled code may rely on. *)
From Coq Require Import ZArith List Bool.
From Verif Require Import Model_Regs.
Import ListNotations.
Open Scope Z_scope.

(** known register values, the number of registers the code may still use, and
    MAX_HOSTREGS of the running host *)
Record window := mkw { w_val : Z -> option Z; w_room : Z; w_max : Z }.

Definition cut (n : Z) (f : Z -> option Z) : Z -> option Z :=
  fun i => if (0 <=? i) && (i <? n) then f i else None.

(** [None] when the code asks for more than its host reserved *)
Definition wstep (w : window) (o : rop) : option window :=
  match o with
  | RSet i v => if (0 <=? i) && (i <? w_room w)
                then Some (mkw (fun x => if x =? i then Some v else w_val w x) (w_room w) (w_max w)) else None
  | RShift l => if (0 <=? l) && (l <=? w_room w)
                then Some (mkw (cut (w_room w - l) (fun i => w_val w (i + l))) (w_room w - l) (w_max w)) else None
  | RCall l => if (0 <=? l) && (l <=? w_room w)
               then Some (mkw (cut (w_room w - l) (fun i => w_val w (i + l))) (w_max w) (w_max w)) else None
  | RHost m' => if 0 <? m' then Some (mkw (cut m' (w_val w)) m' m') else None
  end.
Fixpoint wrun (w : window) (l : list rop) : option window :=
  match l with [] => Some w | o :: l' => match wstep w o with None => None | Some w' => wrun w' l' end end.
