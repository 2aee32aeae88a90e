(** The symbol table of the runtime: /repo/0.sf:1446-1488 (hashs, symbolname,
    internsym) and the conversions 0.sf:1509-1513.

    A C string is the list of its bytes (0..255) before the terminating NUL.
    [st_a] is the array of names (the [u] used entries), [st_v i] the entry in slot
    [i] of the hash table, given as an index into [st_a] instead of a pointer.
    Allocation is taken to succeed (the runtime stops otherwise). *)
From Coq Require Import ZArith List Bool.
From Verif Require Import Base.
Import ListNotations.
Open Scope Z_scope.

Notation cstr := (list Z).
Record symt := mkst { st_a : list cstr; st_v : Z -> option nat; st_sz : Z }.
Definition symt0 : symt := mkst [] (fun _ => None) 0.

(** 0.sf:1448-1452, on 64-bit [unsigned long]; [s[i++]] is a signed [char] *)
Definition schar (c : Z) : Z := if c <? 128 then c else c - 256.
Definition u64 (z : Z) : Z := z mod 18446744073709551616.
Definition hashs (s : cstr) : Z :=
  let h := fold_left (fun h c => Z.lxor (Z.lxor (u64 (Z.shiftl h 4)) (Z.shiftr h 28)) (u64 (schar c)))
             s (Z.of_nat (length s)) in
  Z.lxor (Z.lxor h (Z.shiftr h 10)) (Z.shiftr h 20).

Fixpoint cstr_eqb (s t : cstr) : bool :=   (* strcmp(s, t) == 0 *)
  match s, t with
  | [], [] => true
  | x :: s', y :: t' => (x =? y) && cstr_eqb s' t'
  | _, _ => false
  end.

Section Table.
Variable hash : cstr -> Z.   (* [hashs]; nothing but its being a function is used *)

Definition mask (sz h : Z) : Z := Z.land h (sz - 1).
Definition next (sz i : Z) : Z := Z.land (i - 1) (sz - 1).

(** 0.sf:1470-1471: [inr] the entry found, [inl] the empty slot; [None] = still
    probing when the fuel is used up *)
Fixpoint lookup (fuel : nat) (t : symt) (name : cstr) (i : Z) : option (Z + nat) :=
  match fuel with
  | O => None
  | S f => match st_v t i with
           | None => Some (inl i)
           | Some j => if cstr_eqb name (nth j (st_a t) []) then Some (inr j)
                       else lookup f t name (next (st_sz t) i)
           end
  end.
(** 0.sf:1478, 1483: [for (j = ...; nv[j]; j = (j-1) & (nsz-1)) ;] *)
Fixpoint empty_slot (fuel : nat) (v : Z -> option nat) (sz i : Z) : option Z :=
  match fuel with
  | O => None
  | S f => match v i with None => Some i | Some _ => empty_slot f v sz (next sz i) end
  end.
Definition vset (v : Z -> option nat) (i : Z) (j : nat) : Z -> option nat :=
  fun x => if x =? i then Some j else v x.

(** 0.sf:1476-1480: the loop over the old slots, [n] of them left, the next one [i] *)
Fixpoint rehash (n : nat) (t : symt) (nsz : Z) (i : Z) (nv : Z -> option nat) : option (Z -> option nat) :=
  match n with
  | O => Some nv
  | S n' =>
    match st_v t i with
    | None => rehash n' t nsz (i + 1) nv
    | Some j =>
      match empty_slot (Z.to_nat nsz) nv nsz (mask nsz (hash (nth j (st_a t) []))) with
      | None => None
      | Some k => rehash n' t nsz (i + 1) (vset nv k j)
      end
    end
  end.

(** 0.sf:1461-1488; [None] = the C code would not terminate *)
Definition add_at (t : symt) (i : Z) (name : cstr) : symt * nat :=   (* 0.sf:1485-1487 *)
  (mkst (st_a t ++ [name]) (vset (st_v t) i (length (st_a t))) (st_sz t), length (st_a t)).
Definition internsym (t : symt) (name : cstr) : option (symt * nat) :=
  if st_sz t =? 0 then
    Some (add_at (mkst [] (fun _ => None) 64) (mask 64 (hash name)) name)
  else
    match lookup (Z.to_nat (st_sz t)) t name (mask (st_sz t) (hash name)) with
    | None => None
    | Some (inr j) => Some (t, j)
    | Some (inl i) =>
      if Z.of_nat (length (st_a t)) =? st_sz t / 2 then
        let nsz := st_sz t * 2 in
        match rehash (Z.to_nat (st_sz t)) t nsz 0 (fun _ => None) with
        | None => None
        | Some nv =>
          match empty_slot (Z.to_nat nsz) nv nsz (mask nsz (hash name)) with
          | None => None
          | Some k => Some (add_at (mkst (st_a t) nv nsz) k name)
          end
        end
      else Some (add_at t i name)
    end.

(** 0.sf:1455-1458; [None] = assertion *)
Definition symbolname (t : symt) (sym : nat) : option cstr := nth_error (st_a t) sym.

Fixpoint intern_all (t : symt) (l : list cstr) : option (symt * list nat) :=
  match l with
  | [] => Some (t, [])
  | n :: l' => match internsym t n with
               | None => None
               | Some (t', j) => match intern_all t' l' with
                                 | None => None
                                 | Some (t'', js) => Some (t'', j :: js)
                                 end
               end
  end.
End Table.

(** 0.sf:1512 string->symbol: the C string of a Scheme string ends at its first NUL *)
Fixpoint stringchars (s : list Z) : cstr :=
  match s with [] => [] | c :: s' => if c =? 0 then [] else c :: stringchars s' end.
