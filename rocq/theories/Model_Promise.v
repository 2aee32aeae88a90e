(** Promises: /repo/0.sf:1619-1643 (also lib/libxxs.sf, libxs.sf, libs.sf, libm.sf) and
    /repo/lib/libl.sf:2730-2752.  The procedures of the promises are arbitrary code: an execution
    is the sequence in which [force] is entered and in which the calls of the procedures return,
    in any order and nesting, any number of times (recursion, escapes, re-entered continuations). *)
From Coq Require Import ZArith List Bool.
Import ListNotations.
Open Scope Z_scope.

Inductive event := Force (p : Z)             (* (force p) is entered *)
                 | Return (p x : Z).         (* a call of the procedure of p returns x *)
Inductive outcome := Run (p : Z)             (* the procedure of p is called *)
                   | Value (p v : Z).        (* (force p) returns v *)

(** 0.sf:1621: the variables result-ready? and result of each promise, both #f at first *)
Record cell := mkcell { ready : bool; result : Z }.
Definition cells := Z -> cell.
Definition fresh : cells := fun _ => mkcell false 0.
Definition set_cell (s : cells) (p : Z) (c : cell) : cells := fun q => if q =? p then c else s q.
(** 0.sf:1622-1632; [Return] is the call of [(lambda (x) ...)] *)
Definition step (s : cells) (e : event) : cells * outcome :=
  match e with
  | Force p => if ready (s p) then (s, Value p (result (s p))) else (s, Run p)
  | Return p x =>
    if ready (s p) then (s, Value p (result (s p)))
    else
      let s1 := set_cell s p (mkcell true (result (s p))) in       (* set! result-ready? *)
      let s2 := set_cell s1 p (mkcell (ready (s1 p)) x) in          (* set! result *)
      (s2, Value p (result (s2 p)))
  end.
Fixpoint run (s : cells) (l : list event) : cells * list outcome :=
  match l with
  | [] => (s, [])
  | e :: l' => let (s1, o) := step s e in let (s2, os) := run s1 l' in (s2, o :: os)
  end.

(** libl.sf: a promise is a box holding a pair; boxes and pairs by number.  The pair is (done?,
    payload), the payload a value if done and a procedure otherwise. *)
Record heap := mkheap { nboxes : Z; npairs : Z; unbox : Z -> Z; pair : Z -> bool * Z }.
Definition empty : heap := mkheap 0 0 (fun _ => 0) (fun _ => (false, 0)).
Definition upd {A} (f : Z -> A) (k : Z) (a : A) : Z -> A := fun x => if x =? k then a else f x.
Definition set_car (h : heap) (k : Z) (d : bool) : heap := mkheap (nboxes h) (npairs h) (unbox h) (upd (pair h) k (d, snd (pair h k))).
Definition set_cdr (h : heap) (k : Z) (v : Z) : heap := mkheap (nboxes h) (npairs h) (unbox h) (upd (pair h) k (fst (pair h k), v)).
Definition set_box (h : heap) (b k : Z) : heap := mkheap (nboxes h) (npairs h) (upd (unbox h) b k) (pair h).

Inductive levent := LMake (v : Z)            (* make-promise *)
                  | LDelay (t : Z)           (* make-lazy-promise of the procedure t *)
                  | LForce (p : Z)           (* force is entered *)
                  | LReturn (p newp : Z).    (* the procedure called by (force p) returns newp *)
Inductive loutcome := LNew (p : Z) | LRun (p t : Z) | LValue (p v : Z) | LError.
(** libl.sf:2731-2732 [(box (cons d o))] *)
Definition alloc (h : heap) (d : bool) (o : Z) : heap * loutcome :=
  (mkheap (nboxes h + 1) (npairs h + 1) (upd (unbox h) (nboxes h) (npairs h)) (upd (pair h) (npairs h) (d, o)), LNew (nboxes h)).
(** libl.sf:2734-2738: entry of force *)
Definition lforce (h : heap) (p : Z) : loutcome :=
  let pc := unbox h p in
  if fst (pair h pc) then LValue p (snd (pair h pc)) else LRun p (snd (pair h pc)).
Definition is_box (h : heap) (p : Z) : bool := (0 <=? p) && (p <? nboxes h).
(** libl.sf:2738-2743: after the call of the procedure *)
Definition lreturn (h : heap) (p newp : Z) : heap * loutcome :=
  let pc := unbox h p in
  let h1 :=
    if fst (pair h pc) then h
    else
      let h1 := set_car h pc (fst (pair h (unbox h newp))) in
      let h2 := set_cdr h1 pc (snd (pair h1 (unbox h1 newp))) in
      set_box h2 newp pc in
  (h1, lforce h1 p).
Definition lstep (h : heap) (e : levent) : heap * loutcome :=
  match e with
  | LMake v => alloc h true v
  | LDelay t => alloc h false t
  | LForce p => if is_box h p then (h, lforce h p) else (h, LError)
  | LReturn p newp => if is_box h p && is_box h newp then lreturn h p newp else (h, LError)
  end.
Fixpoint lrun (h : heap) (l : list levent) : heap * list loutcome :=
  match l with
  | [] => (h, [])
  | e :: l' => let (h1, o) := lstep h e in let (h2, os) := lrun h1 l' in (h2, o :: os)
  end.
