(** Dynamic extents: *current-dynamic-state*, dynamic-state-reroot!, dynamic-wind and the jumps made by
    call-with-current-continuation and exit.
    Source: /repo lib/libl.sf 4233-4284 and 4414-4418 (the same text in lib/libm.sf 3666-3708, lib/libs.sf 3013-3055).

    The pairs that make up the extent structure are numbered cells; a cell holds its car, either #f or the pair of two
    thunks, and its cdr.  Thunks are numbers; what a thunk does when called is the parameter [run].  The continuation
    part of dynamic-wind (call-with-values, letcc, withcc) appears only as the stack of the [here] variables of the calls
    to dynamic-wind that have not returned; the values passed along are left out. *)
From Coq Require Import ZArith List Bool.
Import ListNotations.

Definition thunk := Z.
(** a cell: (car . cdr), lib/libl.sf 4243, 4268; [None] is #f *)
Definition cell := (option (thunk * thunk) * nat)%type.
(** the heap of cells, the next free cell, and *current-dynamic-state* *)
Record st := mkst { cells : nat -> cell; next : nat; cur : nat }.
Definition setcell (h : nat -> cell) (n : nat) (c : cell) : nat -> cell := fun m => if Nat.eqb m n then c else h m.

(** lib/libl.sf 4243: (define *current-dynamic-state* (list #f)); cell 0, whose cdr '() is never followed *)
Definition start : st := mkst (fun _ => (None, O)) 1 0.

Section Run.
Variable run : thunk -> st -> st.

(** lib/libl.sf 4274-4284.  Also returns the thunks it calls, in order.  [None]: out of fuel, or caar of a cell with #f
    in its car (an error). *)
Fixpoint reroot (fuel : nat) (s : st) (there : nat) : option (list thunk * st) :=
  match fuel with
  | O => None
  | S f =>
    if Nat.eqb (cur s) there then Some ([], s)
    else
      match reroot f s (snd (cells s there)) with
      | None => None
      | Some (log, s1) =>
        match fst (cells s1 there) with
        | None => None
        | Some (before, after) =>
          let h1 := setcell (cells s1) (cur s1) (Some (after, before), there) in
          let h2 := setcell h1 there (None, O) in
          Some (log ++ [before], run before (mkst h2 (next s1) there))
        end
      end
  end.
(** enough for every extent structure: see [Proofs_Wind.reroot_ok] *)
Definition reroot' (s : st) (there : nat) := reroot (S (2 * next s)) s there.

(** a running program: the state, the [here]s of the dynamic-winds being executed (innermost first), and what the
    continuations captured so far hold *)
Record prog := mkprog { ds : st; heres : list nat; conts : list (nat * list nat) }.
Definition start_prog : prog := mkprog start [] [].

(** what can happen to the dynamic extent while a program runs *)
Inductive op :=
| OWind (before after : thunk)   (** a call to dynamic-wind, up to the start of [during]: lib/libl.sf 4266-4269 *)
| OReturn                        (** [during] returns: lib/libl.sf 4270-4272 *)
| OCapture                       (** call/cc: lib/libl.sf 4245-4247 *)
| OThrow (k : nat)               (** the k-th captured continuation is called: lib/libl.sf 4248-4251 *)
| OExit.                         (** exit: lib/libl.sf 4414-4418; exit-ds is the initial extent *)

Definition do_op (p : prog) (o : op) : option (list thunk * prog) :=
  match o with
  | OWind b a =>
    let s := ds p in
    let here := cur s in
    let there := next s in
    match reroot' (mkst (setcell (cells s) there (Some (b, a), here)) (S there) here) there with
    | Some (log, s') => Some (log, mkprog s' (here :: heres p) (conts p))
    | None => None
    end
  | OReturn =>
    match heres p with
    | [] => None
    | here :: rest =>
      match reroot' (ds p) here with
      | Some (log, s') => Some (log, mkprog s' rest (conts p))
      | None => None
      end
    end
  | OCapture => Some ([], mkprog (ds p) (heres p) (conts p ++ [(cur (ds p), heres p)]))
  | OThrow k =>
    match nth_error (conts p) k with
    | None => None
    | Some (here, hs) =>
      match reroot' (ds p) here with
      | Some (log, s') => Some (log, mkprog s' hs (conts p))
      | None => None
      end
    end
  | OExit =>
    match reroot' (ds p) 0 with
    | Some (log, s') => Some (log, mkprog s' [] (conts p))
    | None => None
    end
  end.

Fixpoint do_ops (p : prog) (os : list op) : option (list (list thunk) * prog) :=
  match os with
  | [] => Some ([], p)
  | o :: os' =>
    match do_op p o with
    | None => None
    | Some (l, p') =>
      match do_ops p' os' with
      | None => None
      | Some (ls, p'') => Some (l :: ls, p'')
      end
    end
  end.
End Run.
