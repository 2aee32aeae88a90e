(** Specification vocabulary for the collector: heaps as graphs of blocks.
    Independent of the functions in Model_GC (only the memory type is shared). *)
From Coq Require Import ZArith List Bool.
From Verif Require Import Model_GC.
Import ListNotations.
Open Scope Z_scope.

(** byte address [a] lies in the area of [s] words at [h] *)
Definition in_area (a h s : Z) : Prop := h <= a < h + 8 * s.

(** word [w] is a pointer into the area (pointers are even) *)
Definition isptr (w h s : Z) : Prop := in_area w h s /\ w mod 2 = 0.

(** A block is a header word followed by [blen header] words.  An odd header
    [2n+1] announces [n] words; an even header is the address of a native type
    descriptor and is followed by one word, the native payload. *)
Definition blen (hd : Z) : Z := if Z.odd hd then hd / 2 else 1.
Definition native (hd : Z) : bool := Z.even hd.

(** [blocks m he a l]: the memory from [a] up to [he] is exactly the sequence of
    blocks whose header addresses are [l]. *)
Inductive blocks (m : mem) (he : Z) : Z -> list Z -> Prop :=
| blocks_nil : blocks m he he []
| blocks_cons b l : blocks m he (b + 8 * (1 + blen (m b))) l -> blocks m he b (b :: l).

(** A header is legal: a size of at least one word that fits a C int, or a
    non-null even descriptor address outside both semispaces. *)
Definition hdr_ok (h1 s1 h2 s2 hd : Z) : Prop :=
  (Z.odd hd = true /\ 3 <= hd < 2 ^ 32) \/
  (Z.odd hd = false /\ hd <> 0 /\ ~ in_area hd h1 s1 /\ ~ in_area hd h2 s2).

(** A word is legal: if it points into the heap it points just after the header
    of a block, and it does not point into the other semispace. *)
Definition word_ok (h1 s1 h2 s2 : Z) (blks : list Z) (w : Z) : Prop :=
  (isptr w h1 s1 -> In (w - 8) blks) /\ ~ isptr w h2 s2.

Record heap_wf (m : mem) (h1 s1 h2 s2 hp : Z) (cells blks : list Z) : Prop := {
  wf_s1 : exists k, 0 <= k /\ s1 = 2 ^ k;
  wf_s2 : exists k, 0 <= k /\ s2 = 2 ^ k;
  wf_h1 : 0 < h1 /\ h1 mod 8 = 0;
  wf_h2 : 0 < h2 /\ h2 mod 8 = 0;
  wf_disj : h1 + 8 * s1 <= h2 \/ h2 + 8 * s2 <= h1;
  wf_cells : forall c, In c cells -> ~ in_area c h1 s1 /\ ~ in_area c h2 s2;
  wf_hp : h1 <= hp;
  wf_blocks : blocks m (h1 + 8 * s1) hp blks;
  wf_hdrs : forall b, In b blks -> hdr_ok h1 s1 h2 s2 (m b);
  wf_words : forall b i, In b blks -> 1 <= i <= blen (m b) ->
               word_ok h1 s1 h2 s2 blks (m (b + 8 * i));
  wf_native : forall b, In b blks -> native (m b) = true -> ~ isptr (m (b + 8)) h1 s1;
  wf_roots : forall c, In c cells -> word_ok h1 s1 h2 s2 blks (m c)
}.

(** Blocks (header addresses) reachable from the root cells. *)
Inductive reach (m : mem) (h s : Z) (cells : list Z) : Z -> Prop :=
| reach_root c : In c cells -> isptr (m c) h s -> reach m h s cells (m c - 8)
| reach_field b i : reach m h s cells b -> 1 <= i <= blen (m b) ->
    isptr (m (b + 8 * i)) h s -> reach m h s cells (m (b + 8 * i) - 8).

(** Correspondence of words under a correspondence [R] of blocks: a pointer to a
    block corresponds to a pointer to the corresponding block, anything else to
    itself (and it is not a heap pointer afterwards either). *)
Definition word_rel (R : Z -> Z -> Prop) (h s h' s' w w' : Z) : Prop :=
  (isptr w h s /\ isptr w' h' s' /\ R (w - 8) (w' - 8)) \/
  (~ isptr w h s /\ ~ isptr w' h' s' /\ w' = w).

(** [m] and [m'] have isomorphic reachable graphs: there is a one-to-one
    correspondence [R] between the blocks reachable before and the blocks
    [blks'] of the new heap that respects roots, headers and fields. *)
Definition heap_iso (m : mem) (h s : Z) (m' : mem) (h' s' : Z) (cells blks' : list Z) : Prop :=
  exists R : Z -> Z -> Prop,
    (forall b f f', R b f -> R b f' -> f = f') /\
    (forall b b' f, R b f -> R b' f -> b = b') /\
    (forall b, (exists f, R b f) <-> reach m h s cells b) /\
    (forall f, (exists b, R b f) <-> In f blks') /\
    (forall c, In c cells -> word_rel R h s h' s' (m c) (m' c)) /\
    (forall b f, R b f -> m' f = m b /\
       forall i, 1 <= i <= blen (m b) ->
         word_rel R h s h' s' (m (b + 8 * i)) (m' (f + 8 * i))).

(** the (type descriptor, payload) pairs of the native blocks among [l] *)
Definition natives (m : mem) (l : list Z) : list (Z * Z) :=
  map (fun b => (m b, m (b + 8))) (filter (fun b => native (m b)) l).

(** size in words of a list of blocks, headers included *)
Definition words_of (m : mem) (l : list Z) : Z :=
  fold_right (fun b acc => 1 + blen (m b) + acc) 0 l.

(** Every word of the live data that is not a heap pointer: root words, headers
    and fields, points outside the area [a], [s]. *)
Definition fresh_area (m : mem) (h s0 : Z) (cells blks : list Z) (a s : Z) : Prop :=
  (forall c, In c cells -> ~ in_area c a s) /\
  (forall c, In c cells -> isptr (m c) h s0 \/ ~ isptr (m c) a s) /\
  (forall b, In b blks -> Z.odd (m b) = true \/ ~ in_area (m b) a s) /\
  (forall b i, In b blks -> 1 <= i <= blen (m b) ->
     isptr (m (b + 8 * i)) h s0 \/ ~ isptr (m (b + 8 * i)) a s).

(** The states of the collector between collections: before the first one
    there is no heap; afterwards two semispaces of the same size. *)
Definition gc_ready (st : gcstate) (m : mem) (hp : Z) (cells blks : list Z) : Prop :=
  (st = mkgc 0 0 0 0 0 /\ hp = 0 /\ blks = []) \/
  (g_hmask st = Z.lor 1 (Z.lnot (g_hsize st * 8 - 1)) /\ g_hmask2 st = g_hmask st /\
  heap_wf m (g_heap st) (g_hsize st) (g_heap2 st) (g_hsize st) hp cells blks).

(** What is asked of the allocator when it is asked for [s] words, [s] a power
    of two: a non-null, aligned area; the first one (which may reuse the old
    from-space) disjoint from the old to-space, the second one disjoint from the
    first; and both disjoint from everything that the live data refers to. *)
Definition alloc_ok (st : gcstate) (m : mem) (cells blks : list Z) (na nb : Z -> Z) : Prop :=
  forall s k, 0 <= k -> s = 2 ^ k ->
    (0 < na s /\ na s mod 8 = 0) /\ (0 < nb s /\ nb s mod 8 = 0) /\
  (na s + 8 * s <= g_heap2 st \/ g_heap2 st + 8 * g_hsize st <= na s) /\
  (na s + 8 * s <= nb s \/ nb s + 8 * s <= na s) /\
  fresh_area m (g_heap st) (g_hsize st) cells blks (na s) s /\
  fresh_area m (g_heap st) (g_hsize st) cells blks (nb s) s.
