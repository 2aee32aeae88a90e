(** Variable-argument calls: the host of apply and of the adapters for dotted lambda lists, void continuations,
    argument-count dispatch and case-lambda, and the macros that make such procedures.
    Source: /repo lib/libl.sf 2540-2688, lambda macro lib/libl.sf 33-49, rreserve and cxm_rgc 6.sf 440, 589-600.

    Memory is a map from addresses to blocks.  hreserve is taken to find the space (what the collector does to live
    objects is the subject of Model_GC).  The register buffer is the list of its words; [rc] counts the used ones, and
    r = cxg_regs throughout, as hosts are entered with r = cxg_regs and rreserve returns it.  An [assert] that fails
    is [AAbort]; access outside the register buffer or to the parts of an object of the wrong kind is [AUndef]. *)
From Coq Require Import ZArith List Bool.
Import ListNotations.
Open Scope Z_scope.

Inductive obj :=
| ONull | OVoid
| OFix (z : Z)
| OPtr (a : nat)         (** a block *)
| OAtom (z : Z).         (** anything else; also the registers' unspecified contents *)
(** entry points: those of apphost, lib/libl.sf 2546, and those of other hosts *)
Inductive code := CApp (n : Z) | CExt (z : Z).
Inductive block :=
| BPair (car cdr : obj)
| BProc (pc : code) (slots : list obj)
| BVec (items : list obj).
Record heap := mkheap { blk : nat -> option block; free : nat }.

Inductive ares A := AOk (a : A) | AAbort | AUndef | AFuel.
Arguments AOk {A}. Arguments AAbort {A}. Arguments AUndef {A}. Arguments AFuel {A}.
Definition abind {A B} (m : ares A) (f : A -> ares B) : ares B :=
  match m with AOk a => f a | AAbort => AAbort | AUndef => AUndef | AFuel => AFuel end.
Notation "x <- m ; f" := (abind m (fun x => f)) (at level 60, m at level 50, right associativity).
Definition assert_ (b : bool) : ares unit := if b then AOk tt else AAbort.

(** registers *)
Definition getr (r : list obj) (i : nat) : ares obj := match nth_error r i with Some o => AOk o | None => AUndef end.
Fixpoint upd (r : list obj) (i : nat) (o : obj) : list obj :=
  match r, i with
  | [], _ => []
  | _ :: r', O => o :: r'
  | x :: r', S i' => x :: upd r' i' o
  end.
Definition setr (r : list obj) (i : nat) (o : obj) : ares (list obj) :=
  if Nat.ltb i (length r) then AOk (upd r i o) else AUndef.
(** rreserve, 6.sf 440 and cxm_rgc, 6.sf 589-600, for r = cxg_regs: the buffer is replaced by one of m words if shorter *)
Definition rreserve (m : nat) (r : list obj) : list obj :=
  if Nat.leb (length r) m then if Nat.ltb (length r) m then r ++ repeat (OAtom 0) (m - length r) else r else r.

(** objects *)
Definition pair_at (h : heap) (o : obj) : ares (obj * obj) :=
  match o with OPtr a => match blk h a with Some (BPair x y) => AOk (x, y) | _ => AUndef end | _ => AUndef end.
Definition proc_at (h : heap) (o : obj) : ares (code * list obj) :=
  match o with OPtr a => match blk h a with Some (BProc c s) => AOk (c, s) | _ => AUndef end | _ => AUndef end.
Definition vec_at (h : heap) (o : obj) : ares (list obj) :=
  match o with OPtr a => match blk h a with Some (BVec l) => AOk l | _ => AUndef end | _ => AUndef end.
Definition fix_of (o : obj) : ares Z := match o with OFix z => AOk z | _ => AUndef end.
Definition slot (s : list obj) (i : nat) : ares obj := match nth_error s i with Some o => AOk o | None => AUndef end.
(** a new block: *--hp = ...; hendblk *)
Definition alloc (h : heap) (b : block) : obj * heap :=
  (OPtr (free h), mkheap (fun a => if Nat.eqb a (free h) then Some b else blk h a) (S (free h))).

Definition APPLY_MAX_REGS : nat := 1024.

(** lib/libl.sf 2563: for (i = 3; i < rc; ++i) r[i-1] = r[i]; [n] iterations from [i] on *)
Fixpoint shift (n i : nat) (r : list obj) : ares (list obj) :=
  match n with
  | O => AOk r
  | S n' => o <- getr r i; r' <- setr r (i - 1) o; shift n' (S i) r'
  end.
(** lib/libl.sf 2564: for (--rc; l != mknull(); l = cdr(l)) r[rc++] = car(l) *)
Fixpoint spread (fuel : nat) (h : heap) (l : obj) (r : list obj) (rc : nat) : ares (list obj * nat) :=
  match fuel with
  | O => AFuel
  | S f =>
    match l with
    | ONull => AOk (r, rc)
    | _ => p <- pair_at h l; r' <- setr r rc (fst p); spread f h (snd p) r' (S rc)
    end
  end.
(** lib/libl.sf 2583-2584: while (rc > n) { *--hp = l; *--hp = r[--rc]; ... l = hendblk(3); }; [m] is rc - n *)
Fixpoint collect (m : nat) (h : heap) (n : nat) (r : list obj) (l : obj) : ares (obj * heap) :=
  match m with
  | O => AOk (l, h)
  | S m' => x <- getr r (n + m'); let '(l', h') := alloc h (BPair x l) in collect m' h' n r l'
  end.
(** lib/libl.sf 2617-2620: the search for a case; [i] is the index into the block, whose word 0 is the entry point *)
Fixpoint find_case (s : list obj) (argc : Z) : ares obj :=
  match s with
  | a :: b :: f :: s' =>
    min <- fix_of a; max <- fix_of b;
    if (min <=? argc) && (argc <=? max) then AOk f else find_case s' argc
  | [] => AAbort        (* assert(i < bl) *)
  | _ => AUndef         (* beyond the end of the block *)
  end.

(** what leaves apphost: a call of another host's procedure *)
Definition exitst := (code * list obj * nat * heap)%type.
(** one case of the switch: lib/libl.sf 2556-2623; the registers, rc and heap afterwards (pc is the entry point of r[0]) *)
Definition appcase (n : Z) (r : list obj) (rc : nat) (h : heap) : ares (list obj * nat * heap) :=
  if n =? 0 then (* apply *)
    _ <- assert_ (Nat.leb 4 rc);
    let r := rreserve APPLY_MAX_REGS r in
    l <- getr r (rc - 1);
    f <- getr r 2;
    r <- setr r 0 f;
    r <- shift (rc - 1 - 3) 3 r;
    p <- spread (S (length r)) h l r (rc - 2);
    _ <- assert_ (Nat.leb (snd p) APPLY_MAX_REGS);
    AOk (fst p, snd p, h)
  else if n =? 1 then (* dotted lambda adapter *)
    clo <- getr r 0;
    p <- proc_at h clo;
    k <- slot (snd p) 0; k <- fix_of k;
    f <- slot (snd p) 1;
    let n := (Z.to_nat k + 2)%nat in
    r <- setr r 0 f;
    _ <- assert_ (Nat.leb n rc);
    let r := rreserve (n + 1) r in
    if Nat.eqb rc n then r <- setr r rc ONull; AOk (r, S rc, h)
    else p <- collect (rc - n) h n r ONull; r <- setr r n (fst p); AOk (r, S n, snd p)
  else if n =? 2 then (* void continuation adapter *)
    _ <- assert_ (Nat.leb 2 rc);
    clo <- getr r 0;
    p <- proc_at h clo;
    c <- slot (snd p) 0;
    r <- setr r 0 c;
    let r := rreserve 3 r in
    r <- setr r 2 OVoid;
    AOk (r, 3%nat, h)
  else if n =? 3 then (* argc dispatcher *)
    clo <- getr r 0;
    p <- proc_at h clo;
    pv <- slot (snd p) 0;
    v <- vec_at h pv;
    _ <- assert_ (Nat.ltb 0 (length v));
    f <- (if Nat.ltb (rc - 2) (length v - 1) then slot v (rc - 2) else slot v (length v - 1));
    r <- setr r 0 f;
    AOk (r, rc, h)
  else if n =? 4 then (* case lambda dispatcher *)
    clo <- getr r 0;
    p <- proc_at h clo;
    f <- find_case (snd p) (Z.of_nat rc - 2);
    r <- setr r 0 f;
    AOk (r, rc, h)
  else AUndef.

(** lib/libl.sf 2549-2631: the host; pc is the entry point of the procedure in r[0] *)
Fixpoint apphost (fuel : nat) (r : list obj) (rc : nat) (h : heap) : ares exitst :=
  match fuel with
  | O => AFuel
  | S f =>
    clo <- getr r 0;
    p <- proc_at h clo;
    match fst p with
    | CExt z => AOk (CExt z, r, rc, h)
    | CApp n => s <- appcase n r rc h; let '(r', rc', h') := s in apphost f r' rc' h'
    end
  end.

(** ** Making such procedures *)
(** FIXNUM_MAX of the large library: lib/libl.sf 451-460 *)
Definition FIXNUM_MAX : Z := 536870911.
(** lib/libl.sf 2635-2641 *)
Definition make_improper_lambda (n : Z) (lam : obj) : block := BProc (CApp 1) [OFix n; lam].
(** lib/libl.sf 2643-2648 *)
Definition make_void_continuation (k : obj) : block := BProc (CApp 2) [k].
(** lib/libl.sf 2650-2655 *)
Definition make_argc_dispatch (pv : obj) : block := BProc (CApp 3) [pv].
(** lib/libl.sf 2666-2674 *)
Definition make_case_lambda (l : list obj) : block := BProc (CApp 4) l.

(** formals: required parameters and whether there is a rest parameter *)
Record formals := mkformals { req : nat; rest : bool }.
(** lib/libl.sf 2678-2683: the counts computed by min-accepted and max-accepted *)
Definition min_accepted (f : formals) : Z := Z.of_nat (req f).
Definition max_accepted (f : formals) : Z := if rest f then FIXNUM_MAX else Z.of_nat (req f).
(** lib/libl.sf 33-49, the lambda macro: a procedure with a rest parameter is its plain lambda behind an adapter.
    [p] is the plain lambda, [h] the heap it is in. *)
Definition lambda_ (f : formals) (p : obj) (h : heap) : obj * heap :=
  if rest f then alloc h (make_improper_lambda (Z.of_nat (req f)) p) else (p, h).
(** lib/libl.sf 2676-2688: the cases of case-lambda, closed by %fail-lambda *)
Fixpoint unroll_cases (cs : list (formals * obj)) (fail : obj) (h : heap) : list obj * heap :=
  match cs with
  | [] => ([OFix 0; OFix FIXNUM_MAX; fail], h)
  | (f, p) :: cs' =>
    let '(l, h1) := lambda_ f p h in
    let '(s, h2) := unroll_cases cs' fail h1 in
    (OFix (min_accepted f) :: OFix (max_accepted f) :: l :: s, h2)
  end.
Definition case_lambda (cs : list (formals * obj)) (fail : obj) (h : heap) : obj * heap :=
  let '(s, h1) := unroll_cases cs fail h in alloc h1 (make_case_lambda s).
