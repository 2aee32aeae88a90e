(** Conversion to continuation-passing style.  Source: /repo/5.sf:24-168.

    [None]: variant-case finds no clause (assignments to local variables are gone when this pass runs).  The symbols of
    new names are left out; their numbers are taken in the order of evaluation, arguments from left to right. *)
From Coq Require Import ZArith String List Bool.
From Verif Require Import Model_Lit Model_Core.
Import ListNotations.
Open Scope Z_scope.

(** 5.sf:158-159 noreturn-exp *)
Definition the_ktrap_prim : prim := codes "ktrap()".
Definition noreturn_exp : exp := EPrim ENo the_ktrap_prim [].

Notation made := (option (exp * Z)).
(** What the procedures of the pass say of one expression: cps-simple? (5.sf:70-92), cps-simple (5.sf:94-128) and cps
    (5.sf:130-133).  cps-simple and cps call each other on the same expression, so they are made together. *)
Record part := Part { p_simple : bool; p_direct : Z -> made; p_cps : exp -> Z -> made }.
(** 5.sf:130-133 cps, from cps-simple?, cps-simple and cps-complex *)
Definition mk_part (simple : bool) (direct : Z -> made) (complex : exp -> Z -> made) : part :=
  Part simple direct
    (fun kexp n =>
       if simple then match direct n with Some (e', n1) => Some (EApp kexp [noreturn_exp; e'], n1) | None => None end
       else complex kexp n).
Definition no_direct (n : Z) : made := None.
Definition no_complex (kexp : exp) (n : Z) : made := None.

(** 5.sf:135-148 cps-list: [inner] makes code from the new operands *)
Fixpoint cps_list (ps : list part) (inner : list exp -> Z -> made) (n : Z) : made :=
  match ps with
  | [] => inner [] n
  | p :: ps' =>
    if p_simple p then
      cps_list ps' (fun new n0 => match p_direct p n0 with Some (e', n1) => inner (e' :: new) n1 | None => None end) n
    else
      let (r, n1) := fresh XNone n in
      let (ek, n2) := fresh XNone n1 in
      match cps_list ps' (fun new n0 => inner (EVar r :: new) n0) n2 with
      | Some (code, n3) => p_cps p (ELam [ek; r] code) n3
      | None => None
      end
  end.
(** 5.sf:150-156 cps-one *)
Definition cps_one (p : part) (inner : exp -> Z -> made) (n : Z) : made :=
  if p_simple p then match p_direct p n with Some (e', n1) => inner e' n1 | None => None end
  else
    let (r, n1) := fresh XNone n in
    let (ek, n2) := fresh XNone n1 in
    match inner (EVar r) n2 with
    | Some (code, n3) => p_cps p (ELam [ek; r] code) n3
    | None => None
    end.
(** 5.sf:103-114, the operands of a primitive *)
Fixpoint prim_loop (ps : list part) (ids : list id) (vals exps : list exp) (n : Z) : option (list id * list exp * list exp * Z) :=
  match ps with
  | [] => Some (ids, vals, rev exps, n)
  | p :: ps' =>
    match p_direct p n with
    | Some (EVar x, n1) => prim_loop ps' ids vals (EVar x :: exps) n1
    | Some (rand, n1) => let (tmp, n2) := fresh XNone n1 in prim_loop ps' (tmp :: ids) (rand :: vals) (EVar tmp :: exps) n2
    | None => None
    end
  end.
(** map cps-simple *)
Fixpoint direct_list (ps : list part) (n : Z) : option (list exp * Z) :=
  match ps with
  | [] => Some ([], n)
  | p :: ps' =>
    match p_direct p n with
    | Some (e', n1) => match direct_list ps' n1 with Some (l, n2) => Some (e' :: l, n2) | None => None end
    | None => None
    end
  end.
(** 5.sf:115-117, a procedure: a new parameter for the continuation *)
Definition cps_lam (ids : list id) (b : part) (n : Z) : option (list id * exp * Z) :=
  let (k, n1) := fresh XNone n in
  match p_cps b (EVar k) n1 with Some (b', n2) => Some (k :: ids, b', n2) | None => None end.
Fixpoint cps_lams (ls : list (list id * part)) (n : Z) : option (list (list id * exp) * Z) :=
  match ls with
  | [] => Some ([], n)
  | (ids, b) :: ls' =>
    match cps_lam ids b n with
    | Some (ids', b', n1) => match cps_lams ls' n1 with Some (l, n2) => Some ((ids', b') :: l, n2) | None => None end
    | None => None
    end
  end.

(** The clauses of cps-complex (5.sf:28-68), cps-simple? and cps-simple, by kind of expression. *)
Definition set_part (x : id) (p : part) : part :=
  if global_id x then
    mk_part (p_simple p)
      (fun n => match p_direct p n with Some (e', n1) => Some (ESet x e', n1) | None => None end)
      (fun kexp n => cps_one p (fun v n1 => Some (EApp kexp [noreturn_exp; ESet x v], n1)) n)
  else mk_part false no_direct no_complex.
Definition if_part (a b c : part) : part :=
  let xform kexp n :=
    cps_one a (fun t n0 =>
      match p_cps b kexp n0 with
      | Some (b', n1) => match p_cps c kexp n1 with Some (c', n2) => Some (EIf t b' c', n2) | None => None end
      | None => None
      end) n in
  mk_part (p_simple a && p_simple b && p_simple c)
    (fun n => match direct_list [a; b; c] n with Some ([a'; b'; c'], n1) => Some (EIf a' b' c', n1) | _ => None end)
    (fun kexp n =>
       match kexp with
       | EVar _ => xform kexp n
       | _ =>
         let (k, n1) := fresh XNone n in
         match xform (EVar k) n1 with Some (code, n2) => Some (let_exp [k] [kexp] code, n2) | None => None end
       end).
Definition prim_part (ef : effect) (p : prim) (l : list part) : part :=
  mk_part (forallb p_simple l)
    (fun n => match prim_loop l [] [] [] n with Some (ids, vals, exps, n1) => Some (let_exp ids vals (EPrim ef p exps), n1) | None => None end)
    (fun kexp n => cps_list l (fun args n1 => Some (EApp kexp [noreturn_exp; EPrim ef p args], n1)) n).
Definition lam_part (ids : list id) (b : part) : part :=
  mk_part true (fun n => match cps_lam ids b n with Some (ids', b', n1) => Some (ELam ids' b', n1) | None => None end) no_complex.
Definition fix_part (ids : list id) (ls : list (list id * part)) (b : part) : part :=
  mk_part (p_simple b)
    (fun n =>
       match cps_lams ls n with
       | Some (ls', n1) => match p_direct b n1 with Some (b', n2) => Some (EFix ids ls' b', n2) | None => None end
       | None => None
       end)
    (fun kexp n =>
       match cps_lams ls n with
       | Some (ls', n1) => match p_cps b kexp n1 with Some (b', n2) => Some (EFix ids ls' b', n2) | None => None end
       | None => None
       end).
Definition begin_part (a b : part) : part :=
  mk_part (p_simple a && p_simple b)
    (fun n => match direct_list [a; b] n with Some ([a'; b'], n1) => Some (begin_exp a' b' n1) | _ => None end)
    (fun kexp n =>
       let (ek, n1) := fresh XNone n in
       let (x, n2) := fresh XNone n1 in
       match p_cps b kexp n2 with Some (code, n3) => p_cps a (ELam [ek; x] code) n3 | None => None end).
Definition let_part (ids : list id) (l : list part) (b : part) : part :=
  mk_part (forallb p_simple l && p_simple b)
    (fun n =>
       match direct_list l n with
       | Some (l', n1) => match p_direct b n1 with Some (b', n2) => Some (let_exp ids l' b', n2) | None => None end
       | None => None
       end)
    (fun kexp n =>
       cps_list l (fun vals n1 => match p_cps b kexp n1 with Some (b', n2) => Some (let_exp ids vals b', n2) | None => None end) n).
Definition app_part (f : part) (l : list part) : part :=
  mk_part false no_direct
    (fun kexp n => cps_list (f :: l) (fun fa n1 => match fa with f' :: l' => Some (EApp f' (kexp :: l'), n1) | [] => None end) n).
Definition letcc_part (x : id) (b : part) : part :=
  mk_part false no_direct
    (fun kexp n => match p_cps b (EVar x) n with Some (b', n1) => Some (let_exp [x] [kexp] b', n1) | None => None end).
Definition withcc_part (k e : part) : part := mk_part false no_direct (fun _ n => cps_one k (fun kexp n1 => p_cps e kexp n1) n).

Fixpoint conv (e : exp) : part :=
  match e with
  | EVar x => mk_part true (fun n => Some (EVar x, n)) no_complex
  | ESet x e1 => set_part x (conv e1)
  | EIf a b c => if_part (conv a) (conv b) (conv c)
  | EPrim ef p l => prim_part ef p (map conv l)
  | ELam ids b => lam_part ids (conv b)
  | EFix ids lams b => fix_part ids (map (fun l => (fst l, conv (snd l))) lams) (conv b)
  | EApp f l =>
    match f with
    | ELam ids b =>
      match ids, l with
      | [], [] => conv b                                                    (** degenerate let *)
      | [x], [e1] =>
        if match b with EVar y => id_eqb x y | _ => false end then conv e1  (** degenerate let *)
        else if var_referenced_in_exp x b then let_part [x] [conv e1] (conv b)
        else begin_part (conv e1) (conv b)
      | _, _ => if Nat.eqb (length ids) (length l) then let_part ids (map conv l) (conv b) else app_part (conv f) (map conv l)
      end
    | _ => app_part (conv f) (map conv l)
    end
  | ELetcc x b => letcc_part x (conv b)
  | EWithcc k e1 => withcc_part (conv k) (conv e1)
  end.

(** 5.sf:161-164 *)
Definition cps_convert (e : exp) (n : Z) : made :=
  let (r, n1) := fresh XNone n in
  let (ek, n2) := fresh XNone n1 in
  p_cps (conv e) (ELam [ek; r] (halt_exp (EVar r))) n2.
