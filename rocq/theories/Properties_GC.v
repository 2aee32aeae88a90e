(** C06, C07, C08: the collector. *)
From Coq Require Import ZArith Lia List Bool Permutation.
From Verif Require Import Base Model_Imm Model_GC Spec_GC Spec_GC2 Proofs_GC6.
Import ListNotations.
Open Scope Z_scope.

(** ** C06: a collection preserves everything reachable *)

(** One call of the collector: from any well-formed state, with any correct
    allocator, it succeeds; the new heap consists exactly of an isomorphic copy of
    the reachable blocks; it is well formed again; nothing else changes. *)
Theorem C06_collection_preserves_reachable : forall fuel na nb st m cells blks hp needs,
  gc_ready st m hp cells blks -> alloc_ok st m cells blks na nb -> 0 < needs ->
  HEAP_SIZE + 2 * needs + 4 * g_hsize st < Z.of_nat fuel ->
  exists m' st' hp' ev blks',
    cxm_hgc fuel na nb st m cells hp needs = Some (Val (m', st', hp', ev)) /\
    gc_ready st' m' hp' cells blks' /\
    heap_iso m (g_heap st) (g_hsize st) m' (g_heap st') (g_hsize st') cells blks' /\
    (forall a, ~ In a cells -> ~ in_area a (g_heap st) (g_hsize st) ->
       ~ in_area a (g_heap2 st) (g_hsize st) ->
       ~ in_area a (na (g_hsize st')) (g_hsize st') -> ~ in_area a (nb (g_hsize st')) (g_hsize st') ->
       m' a = m a).
Proof. exact collection_ok. Qed.
Print Assumptions C06_collection_preserves_reachable.

(** Whole programs: any program over root cells (moves, loads, stores, block and
    native allocations) runs on the collected heap, with collections wherever
    [hreserve] decides, exactly as on an abstract heap that is never collected. *)
Theorem C06_collection_unobservable : forall cells m l a',
  arun cells (mka (fun c => AW (m c)) []) l = Some a' ->
  run_ok cells (mkc (mkgc 0 0 0 0 0) m 0 []) l ->
  exists c', crun cells (mkc (mkgc 0 0 0 0 0) m 0 []) l = Some (Val c') /\ sim cells a' c' /\
  (forall x w, In x cells -> a_root a' x = AW w -> c_mem c' x = w) /\
  (forall x y n n', In x cells -> In y cells -> a_root a' x = AP n -> a_root a' y = AP n' ->
     (c_mem c' x = c_mem c' y <-> n = n')).
Proof. exact transparent_from_start. Qed.
Print Assumptions C06_collection_unobservable.

(** ** C07: finalizers *)

(** One collection frees exactly the native blocks that are not reachable, each
    once; the others are in the new heap with their descriptor and payload. *)
Theorem C07_collection_frees_exactly_the_dead : forall fuel na nb st m cells blks hp needs,
  gc_ready st m hp cells blks -> alloc_ok st m cells blks na nb -> 0 < needs ->
  HEAP_SIZE + 2 * needs + 4 * g_hsize st < Z.of_nat fuel ->
  exists m' st' hp' blks' dead,
    cxm_hgc fuel na nb st m cells hp needs = Some (Val (m', st', hp', natives m dead)) /\
    NoDup dead /\
    (forall b, In b dead <-> In b blks /\ ~ reach m (g_heap st) (g_hsize st) cells b) /\
    gc_ready st' m' hp' cells blks' /\
    Permutation (natives m blks) (natives m' blks' ++ natives m dead).
Proof. exact collection_finalizers. Qed.
Print Assumptions C07_collection_frees_exactly_the_dead.

(** Whole programs: at the end of any run every native object ever created is
    either still in the heap or was freed, never both and never twice; and every
    native object the program can still reach is in the heap. *)
Theorem C07_freed_exactly_once_over_runs : forall cells m l a',
  arun cells (mka (fun c => AW (m c)) []) l = Some a' ->
  run_ok cells (mkc (mkgc 0 0 0 0 0) m 0 []) l ->
  exists c' blks (at_ : nat -> Z -> Prop),
    crun cells (mkc (mkgc 0 0 0 0 0) m 0 []) l = Some (Val c') /\
    NoDup blks /\
    Permutation (a_natives (a_heap a')) (natives (c_mem c') blks ++ c_ev c') /\
    (forall n n' b, at_ n b -> at_ n' b -> n = n') /\
    (forall n t p, areach cells a' n -> nth_error (a_heap a') n = Some (ANat t p) ->
       exists b, at_ n b /\ In b blks /\ c_mem c' b = t /\ c_mem c' (b + 8) = p).
Proof. exact run_finalizers. Qed.
Print Assumptions C07_freed_exactly_once_over_runs.

(** ** C08: reservation *)
Theorem C08_reservation_gives_room : forall fuel na nb st m cells blks hp n,
  gc_ready st m hp cells blks -> alloc_ok st m cells blks na nb -> 0 < n ->
  HEAP_SIZE + 2 * n + 4 * g_hsize st < Z.of_nat fuel ->
  exists m' st' hp' ev blks',
    hreserve fuel na nb st m cells hp n = Some (Val (m', st', hp', ev)) /\
    gc_ready st' m' hp' cells blks' /\
    g_heap st' + 8 * n <= hp' <= g_heap st' + 8 * g_hsize st' /\
    (hp < g_heap st + 8 * n -> 2 * words_of m' blks' + n <= g_hsize st').
Proof. exact reserve_room. Qed.
Print Assumptions C08_reservation_gives_room.

(** ** Concrete cases *)

(** A heap of 16 words with a cyclic pair of blocks, a dead native and a live
    native.  Root cells 8 (the cycle), 16 (the live native), 24 (a number). *)
Definition ex_mem : mem := fun a =>
  match List.find (fun x => fst x =? a)
    [(8, 1104 + 8); (16, 1128 + 8); (24, 7);
     (1104, 5); (1112, 1104 + 8); (1120, 1136);
     (1128, 600); (1136, 88);
     (1144, 500); (1152, 77)] with
  | Some x => snd x
  | None => 0
  end.

Example C06_ex_wf : heap_wf ex_mem 1032 16 4096 16 1104 [8; 16; 24] [1104; 1128; 1144].
Proof.
  assert (W : forall w, (w = 1112 \/ w = 1136 \/ w = 7 \/ w = 88 \/ w = 77) ->
    word_ok 1032 16 4096 16 [1104; 1128; 1144] w).
  { intros w Hw. split.
    - intros [A B]. cbn [In]. unfold in_area in A.
      destruct Hw as [-> | [-> | [-> | [-> | ->]]]]; lia.
    - intros [A B]. unfold in_area in A. lia. }
  constructor.
  - exists 4. split; [lia|reflexivity].
  - exists 4. split; [lia|reflexivity].
  - split; [lia|reflexivity].
  - split; [lia|reflexivity].
  - lia.
  - intros c Hc. unfold in_area. cbn [In] in Hc. lia.
  - lia.
  - apply blocks_cons. apply (blocks_cons _ _ 1128). apply (blocks_cons _ _ 1144).
    apply blocks_nil.
  - intros b Hb. cbn [In] in Hb. destruct Hb as [<-|[<-|[<-|[]]]].
    + left. split; [reflexivity|]. change (ex_mem 1104) with 5. lia.
    + right. split; [reflexivity|]. change (ex_mem 1128) with 600. unfold in_area. lia.
    + right. split; [reflexivity|]. change (ex_mem 1144) with 500. unfold in_area. lia.
  - intros b i Hb Hi. cbn [In] in Hb. apply W. destruct Hb as [<-|[<-|[<-|[]]]].
    + change (blen (ex_mem 1104)) with 2 in Hi.
      assert (Hi2 : i = 1 \/ i = 2) by lia. destruct Hi2 as [-> | ->]; cbv; tauto.
    + change (blen (ex_mem 1128)) with 1 in Hi. assert (i = 1) by lia. subst i. cbv; tauto.
    + change (blen (ex_mem 1144)) with 1 in Hi. assert (i = 1) by lia. subst i. cbv; tauto.
  - intros b Hb Hn. cbn [In] in Hb. destruct Hb as [<-|[<-|[<-|[]]]]; [discriminate Hn| |].
    + change (ex_mem (1128 + 8)) with 88. intros [A _]. unfold in_area in A. lia.
    + change (ex_mem (1144 + 8)) with 77. intros [A _]. unfold in_area in A. lia.
  - intros c Hc. cbn [In] in Hc. apply W. destruct Hc as [<-|[<-|[<-|[]]]]; cbv; tauto.
Qed.

(** The collection of that heap, computed: the cycle and the live native are
    copied, the dead native's deallocator is called with its payload. *)
Example C06_ex_collect :
  match relocate 40 true [8; 16; 24] ex_mem (4096 + 128) (1032 + 128) 1104
          1032 (hmask 16) 4096 (hmask 16) with
  | Some (Val (m', hp', ev)) =>
    (hp', ev, map m' [8; 16; 24], map m' [4184; 4192; 4200; 4208; 4216])
  | _ => (0, [], [], [])
  end =
  (4184, [(500, 77)], [4208; 4192; 7], [600; 88; 5; 4208; 4192]).
Proof. vm_compute. reflexivity. Qed.

(** A program that meets the hypotheses of the whole-program theorems: it
    allocates a block (the first allocation creates the heap), ties a knot through
    it and reads it back. *)
Definition ex_na : Z -> Z := fun s => 1024.
Definition ex_nb : Z -> Z := fun s => 1024 + 8 * s.
Definition ex_fuel : nat := Z.to_nat 1000000.
Definition ex_prog : list (mop * nat * (Z -> Z) * (Z -> Z)) :=
  [ (OImm 16 3, ex_fuel, ex_na, ex_nb);
    (OAlloc 8 [16; 24], ex_fuel, ex_na, ex_nb);
    (OStore 8 1 8, ex_fuel, ex_na, ex_nb);
    (OLoad 24 8 1, ex_fuel, ex_na, ex_nb) ].
Definition ex_m0 : mem := fun _ => 1.

Example C06_ex_abstract :
  option_map (fun a => (map (a_root a) [8; 16; 24], a_heap a))
    (arun [8; 16; 24] (mka (fun c => AW (ex_m0 c)) []) ex_prog)
  = Some ([AP 0; AW 3; AP 0], [ABlk [AW 3; AP 0]]).
Proof. vm_compute. reflexivity. Qed.

Lemma ex_fuel_val : Z.of_nat ex_fuel = 1000000.
Proof. unfold ex_fuel. apply Z2Nat.id. lia. Qed.

Example C06_ex_program_ok : run_ok [8; 16; 24] (mkc (mkgc 0 0 0 0 0) ex_m0 0 []) ex_prog.
Proof.
  unfold ex_prog. cbn [run_ok]. unfold step_ok. rewrite ex_fuel_val.
  cbn [op_needs c_gc c_mem c_hp c_ev g_hsize length].
  split; [split; [unfold HEAP_SIZE; lia|split; [congruence|]]|].
  { split; intros [C _]; unfold in_area in C; cbn [g_heap g_heap2 g_hsize] in C; lia. }
  intros c' E. cbn [cstep c_gc c_mem c_hp c_ev] in E. injection E as <-.
  cbn [c_gc c_mem c_hp c_ev g_hsize].
  split; [split; [unfold HEAP_SIZE; lia|split]|].
  - intros _ blks R s k Hk Hs. cbn [g_heap g_heap2 g_hsize].
    assert (0 < s) by (subst s; apply Z.pow_pos_nonneg; lia).
    assert (blks = []) as ->.
    { destruct R as [(_ & _ & ->)|(_ & _ & WF)]; auto. destruct (wf_h1 _ _ _ _ _ _ _ _ WF) as [X _].
      cbn [g_heap] in X. lia. }
    unfold ex_na, ex_nb.
    split; [split; [lia|reflexivity]|].
    split; [split; [lia|]|].
    { rewrite Z.add_mod, (Z.mul_comm 8 s), Z.mod_mul by lia. reflexivity. }
    split; [right; lia|]. split; [left; lia|].
    assert (V : forall c, In c [8; 16; 24] -> upd ex_m0 16 3 c = 1 \/ upd ex_m0 16 3 c = 3).
    { intros c Hc. cbn [In] in Hc. destruct Hc as [<-|[<-|[<-|[]]]]; cbv; tauto. }
    split; (split; [|split; [|split; [intros b []|intros b i []]]]).
    + intros c Hc. cbn [In] in Hc. unfold in_area. lia.
    + intros c Hc. right. intros [C _]. unfold in_area in C. destruct (V c Hc); lia.
    + intros c Hc. cbn [In] in Hc. unfold in_area. lia.
    + intros c Hc. right. intros [C _]. unfold in_area in C. destruct (V c Hc); lia.
  - vm_compute. reflexivity.
  - intros c2 E2.
    assert (Hs2 : g_hsize (c_gc c2) = 131072).
    { clear - E2. unfold cstep, with_room, hreserve, cxm_hgc in E2.
      cbn [c_gc c_mem c_hp c_ev g_heap g_hmask g_heap2 g_hmask2 g_hsize length] in E2.
      change (0 <? 0 + 8 * (1 + Z.of_nat 2)) with true in E2.
      change (0 =? 0) with true in E2. cbn [negb] in E2.
      change (0 <? 1 + Z.of_nat 2) with true in E2.
      assert (G : grow_size ex_fuel HEAP_SIZE (1 + Z.of_nat 2) = Some HEAP_SIZE).
      { assert (F : exists f, ex_fuel = S f).
        { unfold ex_fuel. exists (Z.to_nat 999999).
          rewrite <- Z2Nat.inj_succ by lia. reflexivity. }
        destruct F as (f & ->). reflexivity. }
      rewrite G in E2.
      match type of E2 with Some (Val ?x) = _ => remember x as X eqn:EX end.
      injection E2 as <-. subst X.
      cbn [c_gc c_mem c_hp].
      match goal with |- context [alloc_block ?a ?b ?c] => destruct (alloc_block a b c) as [[? ?] ?] end.
      reflexivity. }
    split; [split; [rewrite Hs2; unfold HEAP_SIZE; lia|split; [congruence|exact I]]|].
    intros c3 E3. cbn [cstep] in E3. injection E3 as <-. cbn [c_gc].
    split; [split; [rewrite Hs2; unfold HEAP_SIZE; lia|split; [congruence|exact I]]|].
    intros c4 _. exact I.
Qed.
