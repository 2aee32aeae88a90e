(** Lambda lifting.  Source: /repo/5.sf:195-268.

    [None]: variant-case finds no clause (letcc, withcc and assignments to local variables are gone when this pass runs),
    posq does not find a name, or the loop of extra-vars runs out of fuel.  The lists top-ids and top-lams are one list
    of pairs; operands of calls in the pass itself are evaluated from left to right, which only influences the numbers
    of new names. *)
From Coq Require Import ZArith List Bool.
From Verif Require Import Model_Core.
Import ListNotations.
Open Scope Z_scope.

Notation lam := (list id * exp)%type.
Notation tops := (list (id * (list id * exp))).
Definition lam_exp (l : lam) : exp := ELam (fst l) (snd l).

(** ** 5.sf:200-223 extra-vars *)
Fixpoint list_put {A} (l : list A) (i : nat) (x : A) : list A :=
  match l, i with [], _ => [] | _ :: l', O => x :: l' | y :: l', S i' => y :: list_put l' i' x end.
Fixpoint all_some {A} (l : list (option A)) : option (list A) :=
  match l with [] => Some [] | Some a :: l' => option_map (cons a) (all_some l') | None :: _ => None end.
(** 5.sf:201-203 *)
Definition called_lam_indices (ids : list id) (fvs : list id) : option (list nat) :=
  all_some (map (fun x => posq x ids) (intersectionq fvs ids)).
(** 5.sf:206-209; a reference outside the vector cannot happen, since the indices come from posq *)
Definition ev_step (lamcalls : list nat) (lamfovs : list id) (av : list (list id)) : list id :=
  fold_left (fun a i => unionq a (nth i av [])) lamcalls lamfovs.
(** 5.sf:217-223 *)
Fixpoint ev_loop (f : nat) (fv : list (list nat * list id)) (i : nat) (wrap : bool) (av : list (list id)) : option (list (list id)) :=
  match f with
  | O => None
  | S f' =>
    match nth_error fv i with
    | None => if wrap then ev_loop f' fv O false av else Some av
    | Some (c, o) =>
      let next := ev_step c o av in
      if seteq next (nth i av []) then ev_loop f' fv (S i) wrap av else ev_loop f' fv (S i) true (list_put av i next)
    end
  end.
Definition ev_fuel (fovs : list (list id)) : nat :=
  let n := length fovs in ((n * length (concat fovs) + 2) * (n + 1))%nat.
Definition extra_vars (ids : list id) (lams : list lam) : option (list (list id)) :=
  let fvs := map (fun l => exp_free_lexvars (lam_exp l)) lams in
  match all_some (map (called_lam_indices ids) fvs) with
  | None => None
  | Some calls =>
    let fovs := map (fun f => setdiffq f ids) fvs in
    ev_loop (ev_fuel fovs) (combine calls fovs) O false (map (fun _ => []) ids)
  end.

(** ** 5.sf:225-245 *)
Fixpoint new_ids (t : xtype) (k : nat) (n : Z) : list id * Z :=
  match k with
  | O => ([], n)
  | S k' => let (x, n1) := fresh t n in let (l, n2) := new_ids t k' n1 in (x :: l, n2)
  end.
(** 3.sf:470-473 *)
Definition curry_exp (t : id) (ids : list id) (rands : list exp) : exp := ELam ids (EApp (EVar t) (map EVar ids ++ rands)).
(** 5.sf:225-228 *)
Fixpoint curry_lams (lams : list lam) (xss : list (list id)) (tids : list id) (n : Z) : list exp * Z :=
  match lams, xss, tids with
  | l :: lams', xs :: xss', t :: tids' =>
    let (ys, n1) := new_ids XNone (length (fst l)) n in
    let (cs, n2) := curry_lams lams' xss' tids' n1 in (curry_exp t ys (map EVar xs) :: cs, n2)
  | _, _, _ => ([], n)
  end.
Notation lift_fn := (tops -> Z -> option (exp * tops * Z)).
(** 5.sf:230-235, 239-242: one lambda floats to the top; [lb] lifts its body *)
Definition float_lam (ids : list id) (lams : list lam) (xss : list (list id)) (tids : list id) (lb : lift_fn)
    (ps xs : list id) (t : id) (top : tops) (n : Z) : option (tops * Z) :=
  let (cs, n1) := curry_lams lams xss tids n in
  match lb top n1 with
  | Some (b', top', n2) => Some ((t, (ps ++ xs, let_exp ids cs b')) :: top', n2)
  | None => None
  end.
(** 5.sf:244-245; [float] floats all lambdas, [lb] lifts the body *)
Definition lift_lams (ids : list id) (lams : list lam) (float : list (list id) -> list id -> tops -> Z -> option (tops * Z)) (lb : lift_fn) : lift_fn :=
  fun top n =>
  let (tids, n1) := new_ids XTrue (length ids) n in
  match extra_vars ids lams with
  | None => None
  | Some xss =>
    match float xss tids top n1 with
    | None => None
    | Some (top1, n2) =>
      let (cs, n3) := curry_lams lams xss tids n2 in
      match lb top1 n3 with Some (b', top2, n4) => Some (let_exp ids cs b', top2, n4) | None => None end
    end
  end.
(** ** 5.sf:247-264 *)
Fixpoint lift (e : exp) (top : tops) (n : Z) {struct e} : option (exp * tops * Z) :=
  let lift_list := fix go (l : list exp) (top : tops) (n : Z) : option (list exp * tops * Z) :=
    match l with
    | [] => Some ([], top, n)
    | e :: l' =>
      match lift e top n with
      | Some (e', top1, n1) => match go l' top1 n1 with Some (l1, top2, n2) => Some (e' :: l1, top2, n2) | None => None end
      | None => None
      end
    end in
  match e with
  | EVar x => Some (EVar x, top, n)
  | ESet x e =>
    if global_id x then match lift e top n with Some (e', top1, n1) => Some (ESet x e', top1, n1) | None => None end else None
  | EIf a b c =>
    match lift a top n with
    | Some (a', top1, n1) =>
      match lift b top1 n1 with
      | Some (b', top2, n2) => match lift c top2 n2 with Some (c', top3, n3) => Some (EIf a' b' c', top3, n3) | None => None end
      | None => None
      end
    | None => None
    end
  | EPrim ef p l => match lift_list l top n with Some (l', top1, n1) => Some (EPrim ef p l', top1, n1) | None => None end
  | EApp f l =>
    let general :=
      match lift f top n with
      | Some (f', top1, n1) => match lift_list l top1 n1 with Some (l', top2, n2) => Some (EApp f' l', top2, n2) | None => None end
      | None => None
      end in
    match f with
    | ELam ids b =>
      if Nat.eqb (length ids) (length l) then                                (** let-exp, 3.sf:295-316 *)
        match lift_list l top n with
        | Some (l', top1, n1) => match lift b top1 n1 with Some (b', top2, n2) => Some (let_exp ids l' b', top2, n2) | None => None end
        | None => None
        end
      else general
    | _ => general
    end
  | ELam xs b =>
    let (l, n0) := fresh XNone n in
    lift_lams [l] [(xs, b)]
      (fun xss tids top n =>
         match xss, tids with
         | [xv], [t] => float_lam [l] [(xs, b)] xss tids (lift b) xs xv t top n
         | _, _ => None
         end) (fun top n => Some (EVar l, top, n)) top n0
  | EFix ids lams b =>
    lift_lams ids lams
      (fun xss tids =>
         (fix go (ls : list lam) (xs : list (list id)) (ts : list id) (top : tops) (n : Z) : option (tops * Z) :=
            match ls, xs, ts with
            | (ps, e) :: ls', xv :: xs', t :: ts' =>
              match float_lam ids lams xss tids (lift e) ps xv t top n with
              | Some (top1, n1) => go ls' xs' ts' top1 n1
              | None => None
              end
            | [], [], [] => Some (top, n)
            | _, _, _ => None
            end) lams xss tids) (lift b) top n
  | ELetcc _ _ | EWithcc _ _ => None
  end.
(** 5.sf:266-268 *)
Definition lambda_lift (e : exp) (n : Z) : option (exp * Z) :=
  match lift e [] n with
  | Some (b, top, n') => Some (EFix (map fst top) (map snd top) b, n')
  | None => None
  end.
