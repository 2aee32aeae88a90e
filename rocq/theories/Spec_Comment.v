(** How a C compiler reads a text: C11 5.1.1.2, phases 2 and 3, as far as comments go; trigraphs are left out. *)
From Coq Require Import ZArith List Bool.
Import ListNotations.
Open Scope Z_scope.

(** phase 2: a backslash before the end of a line is removed with it *)
Fixpoint splice (s : list Z) : list Z :=
  match s with
  | 92 :: ((10 :: r) as _) => splice r
  | c :: r => c :: splice r
  | [] => []
  end.
Inductive mode := Code | Block | Line | Quoted (q : Z).
(** phase 3: comments become one space; [None]: a comment or a literal does not end *)
Fixpoint strip (m : mode) (s : list Z) {struct s} : option (list Z) :=
  match m, s with
  | Code, 47 :: 42 :: r => option_map (cons 32) (strip Block r)
  | Code, 47 :: 47 :: r => option_map (cons 32) (strip Line r)
  | Code, c :: r => option_map (cons c) (strip (if (c =? 34) || (c =? 39) then Quoted c else Code) r)
  | Block, 42 :: 47 :: r => strip Code r
  | Block, _ :: r => strip Block r
  | Line, 10 :: r => option_map (cons 10) (strip Code r)
  | Line, _ :: r => strip Line r
  | Quoted q, 92 :: c :: r => option_map (fun t => 92 :: c :: t) (strip (Quoted q) r)
  | Quoted q, c :: r => if c =? 10 then None else option_map (cons c) (strip (if c =? q then Code else Quoted q) r)
  | Block, [] | Quoted _, [] => None
  | _, [] => Some []
  end.
Definition as_read (s : list Z) : option (list Z) := strip Code (splice s).
(** a comment could end inside *)
Definition ends_comment (s : list Z) : Prop := exists a b, splice s = a ++ [42; 47] ++ b.
