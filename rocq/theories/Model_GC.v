(** The copying collector of the runtime.
    Source: /repo/6.sf lines 505-600 ([code-runtime]), macros at 408-450.

    Memory is a total map from byte addresses to words; a word occupies 8 bytes and
    is only ever addressed at its first byte.  Pointer arithmetic is on [Z]; the
    64-bit wrap-around of pointer differences is not modelled (addresses are
    assumed to stay far from the ends of the address space).  [realloc] never
    fails here (the code exits when it does); its result address is a parameter. *)
From Coq Require Import ZArith List Bool.
From Verif Require Import Base Model_Imm.
Import ListNotations.
Open Scope Z_scope.

Definition mem := Z -> Z.
Definition upd (m : mem) (a v : Z) : mem := fun x => if x =? a then v else m x.

(** a call [t->free(p)] of a native type's deallocator *)
Definition event : Type := (Z * Z)%type.

(** [(o - h) & m] is zero, [o] and [h] taken as character pointers: 6.sf:526, 531, 543 *)
Definition inheap (o h m : Z) : bool := Z.land (o - h) m =? 0.

(** 6.sf:529: the loop [while fop >= op: store at --hp what is at --fop], [k] iterations *)
Fixpoint copy_down (k : nat) (m : mem) (fop hp : Z) : mem * Z * Z :=
  match k with
  | O => (m, fop, hp)
  | S k' => copy_down k' (upd m (hp - 8) (m (fop - 8))) (fop - 8) (hp - 8)
  end.

(** 6.sf:523-536 *)
Definition toheap2 (m : mem) (p hp h1 m1 h2 m2 : Z) : res (mem * Z) :=
  let o := m p in
  if negb (inheap o h1 m1) then Val (m, hp)
  else
    let fo := m (o - 8) in
    if fo =? 0 then UB                                    (* assert(fo) *)
    else if notaptr fo then
      let n := size_from_obj fo in
      let '(m', fop, hp') := copy_down (Z.to_nat (n + 1)) m (o + 8 * n) hp in
      Val (upd (upd m' fop (hp' + 8)) p (hp' + 8), hp')
    else if negb (inheap fo h2 m2) then
      let ma := upd m (hp - 8) (m o) in
      let mb := upd ma (hp - 16) (ma (o - 8)) in
      Val (upd (upd mb (o - 8) (hp - 16 + 8)) p (hp - 16 + 8), hp - 16)
    else Val (upd m p fo, hp).

(** 6.sf:538-547; the event list records the [free] calls in order.
    [None] = fuel exhausted. *)
Fixpoint finalize (fuel : nat) (m : mem) (hp1 he1 h2 m2 : Z) : option (res (list event)) :=
  match fuel with
  | O => None
  | S f =>
    if hp1 <? he1 then
      let fo := m hp1 in
      if fo =? 0 then Some UB
      else if notaptr fo then
        finalize f m (hp1 + 8 + 8 * size_from_obj fo) he1 h2 m2
      else if negb (inheap fo h2 m2) then
        option_map (fun r => rbind r (fun l => Val ((fo, m (hp1 + 8)) :: l)))
          (finalize f m (hp1 + 16) he1 h2 m2)
      else
        let fo' := m (fo - 8) in
        if notaptr fo' then finalize f m (hp1 + 8 + 8 * size_from_obj fo') he1 h2 m2
        else finalize f m (hp1 + 16) he1 h2 m2
    else if hp1 =? he1 then Some (Val []) else Some UB     (* assert(hp1 == he1) *)
  end.

(** 6.sf:553-557: the root cells in order: the register window and then the
    global cells of every module in the root chain (flattened to one list). *)
Fixpoint move_roots (cells : list Z) (m : mem) (hp h1 m1 h2 m2 : Z) : res (mem * Z) :=
  match cells with
  | [] => Val (m, hp)
  | p :: ps =>
    rbind (toheap2 m p hp h1 m1 h2 m2) (fun r =>
      move_roots ps (fst r) (snd r) h1 m1 h2 m2)
  end.

(** 6.sf:558  [for (p = he2; p > hp; --p) hp = toheap2(p-1, hp, h1, m1, h2, m2);] *)
Fixpoint scan (fuel : nat) (m : mem) (p hp h1 m1 h2 m2 : Z) : option (res (mem * Z)) :=
  match fuel with
  | O => None
  | S f =>
    if hp <? p then
      match toheap2 m (p - 8) hp h1 m1 h2 m2 with
      | UB => Some UB
      | Val (m', hp') => scan f m' (p - 8) hp' h1 m1 h2 m2
      end
    else Some (Val (m, hp))
  end.

(** 6.sf:549-561.  [fin] is the test [if (he1)] (the growth pass passes 0). *)
Definition relocate (fuel : nat) (fin : bool) (cells : list Z) (m : mem)
    (he2 he1 hp h1 m1 h2 m2 : Z) : option (res (mem * Z * list event)) :=
  let hp1 := hp in
  match move_roots cells m he2 h1 m1 h2 m2 with
  | UB => Some UB
  | Val (m', hp') =>
    match scan fuel m' he2 hp' h1 m1 h2 m2 with
    | None => None
    | Some UB => Some UB
    | Some (Val (m'', hp'')) =>
      if fin then
        option_map (fun r => rbind r (fun ev => Val (m'', hp'', ev)))
          (finalize fuel m'' hp1 he1 h2 m2)
      else Some (Val (m'', hp'', []))
    end
  end.

(** [realloc(old, ...)] to [new]: the first [n] words keep their contents. *)
Definition realloc_copy (m : mem) (old n new : Z) : mem :=
  fun a => if (new <=? a) && (a <? new + 8 * n) then m (old + (a - new)) else m a.

(** 6.sf:506 *)
Definition HEAP_SIZE : Z := 131072.

(** 6.sf:574  [while (s < needs) s *= 2;] *)
Fixpoint grow_size (fuel : nat) (s needs : Z) : option Z :=
  match fuel with
  | O => None
  | S f => if s <? needs then grow_size f (s * 2) needs else Some s
  end.

(** The collector's static state: 6.sf:509-511, 519-521. *)
Record gcstate := mkgc {
  g_heap : Z; g_hmask : Z; g_heap2 : Z; g_hmask2 : Z; g_hsize : Z
}.

(** 6.sf:563-587.  [na s], [nb s]: addresses returned by the two [realloc] calls of
    the growth step when asked for [s] words.  Both [needs] and the sizes are in
    words; their 64-bit wrap-around is not modelled.
    Result: memory, new state, new allocation pointer, finalizer calls. *)
Definition cxm_hgc (fuel : nat) (na nb : Z -> Z) (st : gcstate) (m : mem) (cells : list Z)
    (hp needs : Z) : option (res (mem * gcstate * Z * list event)) :=
  let h1 := g_heap st in let h2 := g_heap2 st in
  let m1 := g_hmask st in let m2 := g_hmask2 st in
  let hs := g_hsize st in
  let r1 :=
    if negb (h1 =? 0) then
      match relocate fuel true cells m (h2 + 8 * hs) (h1 + 8 * hs) hp h1 m1 h2 m2 with
      | None => None
      | Some UB => Some UB
      | Some (Val (m', hp', ev)) =>
        Some (Val (m', hp', ev, needs + (h2 + 8 * hs - hp') / 8 * 2))
      end
    else Some (Val (m, h2 + 8 * hs, [], needs)) in
  match r1 with
  | None => None
  | Some UB => Some UB
  | Some (Val (m', hp', ev, needs')) =>
    if hs <? needs' then
      match grow_size fuel HEAP_SIZE needs' with
      | None => None
      | Some s =>
        let m2' := hmask s in
        (* h = realloc(h1, s); h1 = h2; h2 = h *)
        let na := na s in let nb := nb s in
        let ma := realloc_copy m' h1 hs na in
        let r2 :=
          if negb (h2 =? 0) then
            relocate fuel false cells ma (na + 8 * s) 0 hp' h2 m1 na m2'
          else Some (Val (ma, na + 8 * s, [])) in
        match r2 with
        | None => None
        | Some UB => Some UB
        | Some (Val (mb, hp'', _)) =>
          (* h = realloc(h1, s); hs = s; m1 = m2 *)
          let mc := realloc_copy mb h2 hs nb in
          Some (Val (mc, mkgc na m2' nb m2' s, hp'', ev))
        end
      end
    else Some (Val (m', mkgc h2 m1 h1 m2 hs, hp', ev))
  end.

(** 6.sf:443  [hreserve(n, l)] *)
Definition hreserve (fuel : nat) (na nb : Z -> Z) (st : gcstate) (m : mem) (cells : list Z)
    (hp n : Z) : option (res (mem * gcstate * Z * list event)) :=
  if hp <? g_heap st + 8 * n then cxm_hgc fuel na nb st m cells hp n
  else Some (Val (m, st, hp, [])).

(** ** allocation by the mutator, between collections *)

(** generated code [*--hp = v] for each word in turn: e.g. 0.sf:1201-1207 *)
Fixpoint push_words (m : mem) (hp : Z) (vs : list Z) : mem * Z :=
  match vs with
  | [] => (m, hp)
  | v :: vs' => push_words (upd m (hp - 8) v) (hp - 8) vs'
  end.

(** 6.sf:444  [hendblk(n)]: push the size word; the object is the next address *)
Definition hendblk (m : mem) (hp n : Z) : mem * Z * Z :=
  (upd m (hp - 8) (obj_from_size n), hp - 8, hp - 8 + 8).

(** a block of the words [vs] (pushed in this order), as every [%prim] that
    allocates does after its [hreserve] *)
Definition alloc_block (m : mem) (hp : Z) (vs : list Z) : mem * Z * Z :=
  let '(m', hp') := push_words m hp vs in hendblk m' hp' (Z.of_nat (length vs)).

(** 6.sf:441  [hpushptr(p, pt, l)] after its [hreserve(2, l)] *)
Definition alloc_native (m : mem) (hp p pt : Z) : mem * Z * Z :=
  let m' := upd m (hp - 8) p in
  (upd m' (hp - 16) pt, hp - 16, hp - 16 + 8).

(** ** a mutator: what compiled code does to the heap through its root cells *)
Inductive mop :=
| OImm (c w : Z)                (* *c = w, w not a heap object *)
| OMove (c c' : Z)              (* *c = *c' *)
| OLoad (c c' i : Z)            (* *c = hblkref( *c', i) : 6.sf:446 *)
| OStore (c i c' : Z)           (* hblkref( *c, i) = *c' *)
| OAlloc (c : Z) (cs : list Z)  (* hreserve, push *cs from the last to the first, hendblk *)
| ONative (c t p : Z).          (* *c = hpushptr(p, t) *)

Record cstate := mkc { c_gc : gcstate; c_mem : mem; c_hp : Z; c_ev : list event }.

(** [hreserve(hbsz(n), live)] followed by the body of the primitive *)
Definition with_room (fuel : nat) (na nb : Z -> Z) (cells : list Z) (s : cstate) (n : Z)
    (k : cstate -> cstate) : option (res cstate) :=
  match hreserve fuel na nb (c_gc s) (c_mem s) cells (c_hp s) n with
  | None => None
  | Some UB => Some UB
  | Some (Val (m', st', hp', ev)) => Some (Val (k (mkc st' m' hp' (c_ev s ++ ev))))
  end.

Definition cstep (fuel : nat) (na nb : Z -> Z) (cells : list Z) (s : cstate) (o : mop)
    : option (res cstate) :=
  let m := c_mem s in
  let setm m' := Some (Val (mkc (c_gc s) m' (c_hp s) (c_ev s))) in
  match o with
  | OImm c w => setm (upd m c w)
  | OMove c c' => setm (upd m c (m c'))
  | OLoad c c' i => setm (upd m c (m (m c' + 8 * i)))
  | OStore c i c' => setm (upd m (m c + 8 * i) (m c'))
  | OAlloc c cs =>
    with_room fuel na nb cells s (1 + Z.of_nat (length cs)) (fun s' =>
      let '(m', hp', o) := alloc_block (c_mem s') (c_hp s') (rev (map (c_mem s') cs)) in
      mkc (c_gc s') (upd m' c o) hp' (c_ev s'))
  | ONative c t p =>
    with_room fuel na nb cells s 2 (fun s' =>
      let '(m', hp', o) := alloc_native (c_mem s') (c_hp s') p t in
      mkc (c_gc s') (upd m' c o) hp' (c_ev s'))
  end.

(** a whole run; every step has its own fuel and allocator answers *)
Fixpoint crun (cells : list Z) (s : cstate) (l : list (mop * nat * (Z -> Z) * (Z -> Z)))
    : option (res cstate) :=
  match l with
  | [] => Some (Val s)
  | (o, fuel, na, nb) :: l' =>
    match cstep fuel na nb cells s o with
    | None => None
    | Some UB => Some UB
    | Some (Val s') => crun cells s' l'
    end
  end.
