(** Dynamic extents as a tree, and what a change of extent has to call. *)
From Coq Require Import ZArith List Bool.
From Verif Require Import Model_Wind.
Import ListNotations.

(** a call to dynamic-wind that was entered: a number of its own and its two thunks *)
Record wind := mkwind { w_id : nat; w_before : thunk; w_after : thunk }.
(** a dynamic extent: the winds around a point of the program, innermost first *)
Definition extent := list wind.

(** [moves p q log]: going from extent [p] to extent [q] calls [log]; [common] is all that the two share *)
Definition moves (p q : extent) (log : list thunk) : Prop :=
  exists left entered common,
    p = left ++ common /\ q = entered ++ common /\
    (forall w l' e', left = l' ++ [w] -> entered <> e' ++ [w]) /\
    log = map w_after left ++ map w_before (rev entered).

(** the abstract program: current extent, extents of the dynamic-winds to return to, captured continuations, number
    of winds so far *)
Record aprog := mkaprog { a_cur : extent; a_heres : list extent; a_conts : list (extent * list extent); a_n : nat }.
Definition a_start : aprog := mkaprog [] [] [] 0.
Inductive a_op : aprog -> op -> list thunk -> aprog -> Prop :=
| ao_wind p b a :
    a_op p (OWind b a) [b] (mkaprog (mkwind (a_n p) b a :: a_cur p) (a_cur p :: a_heres p) (a_conts p) (S (a_n p)))
| ao_return p q qs log : a_heres p = q :: qs -> moves (a_cur p) q log ->
    a_op p OReturn log (mkaprog q qs (a_conts p) (a_n p))
| ao_capture p : a_op p OCapture [] (mkaprog (a_cur p) (a_heres p) (a_conts p ++ [(a_cur p, a_heres p)]) (a_n p))
| ao_throw p k q qs log : nth_error (a_conts p) k = Some (q, qs) -> moves (a_cur p) q log ->
    a_op p (OThrow k) log (mkaprog q qs (a_conts p) (a_n p))
| ao_exit p log : moves (a_cur p) [] log -> a_op p OExit log (mkaprog [] [] (a_conts p) (a_n p)).
Inductive a_ops : aprog -> list op -> list (list thunk) -> aprog -> Prop :=
| aos_nil p : a_ops p [] [] p
| aos_cons p o l p' os ls p'' : a_op p o l p' -> a_ops p' os ls p'' -> a_ops p (o :: os) (l :: ls) p''.

(** operations that make sense: returns from entered dynamic-winds, throws to captured continuations *)
Fixpoint sensible (depth : nat) (ks : list nat) (os : list op) : Prop :=
  match os with
  | [] => True
  | OWind _ _ :: os' => sensible (S depth) ks os'
  | OReturn :: os' => match depth with O => False | S d => sensible d ks os' end
  | OCapture :: os' => sensible depth (ks ++ [depth]) os'
  | OThrow k :: os' => match nth_error ks k with None => False | Some d => sensible d ks os' end
  | OExit :: os' => sensible 0 ks os'
  end.

(** thunks that come back to the extent they were called in; they may make new extents, but leave the old cells *)
Definition balanced (run : thunk -> st -> st) : Prop :=
  forall t s, cur (run t s) = cur s /\ next s <= next (run t s) /\
              forall n, n < next s -> cells (run t s) n = cells s n.
