(** C12, C13, C14, C15: lists and equivalence in the runtime. *)
From Coq Require Import ZArith List Bool Lia.
From Verif Require Import Base Model_Imm Model_GC Model_List Spec_List Spec_Equal.
From Verif Require Import Proofs_Imm Proofs_List Proofs_List2 Proofs_Equal.
Import ListNotations.
Open Scope Z_scope.

(** ** C12 *)
(** For every heap and every object whose reachable cdrs are well tagged, [list?]
    answers, within one round per heap byte, whether the object is a proper list;
    circular and improper structure included. *)
Theorem C12_list_p_decides_proper_lists :
  forall heap hs, heap_ok heap hs -> forall m l, well_tagged heap hs m l ->
  forall fuel, (Z.to_nat (8 * hs) + 1 < fuel)%nat ->
  exists b, islist heap (hmask hs) fuel m l = LVal b /\ (b = true <-> proper heap hs m l).
Proof. exact islist_ok. Qed.
Print Assumptions C12_list_p_decides_proper_lists.

(** a heap of 64 words; a three-element list; the same with its end tied back to
    the second pair *)
Definition ex_heap : Z := 1024.
Definition ex_hs : Z := 64.
Definition ex_words (ws : list (Z * Z)) : mem :=
  fun a => match find (fun p => fst p =? a) ws with Some (_, v) => v | None => 0 end.
Definition ex_list : mem := ex_words
  [(1504, 7); (1512, 7); (1520, 11); (1528, 1480);
   (1472, 7); (1480, 7); (1488, 21); (1496, 1448);
   (1440, 7); (1448, 7); (1456, 31); (1464, 7)].
Definition ex_cycle : mem := upd ex_list 1464 1480.

Example C12_example_heap : heap_ok ex_heap ex_hs.
Proof. split; [split; [exists 6; split; [lia|reflexivity]|reflexivity]|reflexivity]. Qed.
Example C12_example_hyps : well_tagged ex_heap ex_hs ex_list 1512 /\ well_tagged ex_heap ex_hs ex_cycle 1512.
Proof.
  split; intros x Hx Hin Ht.
  - assert (Hx' : In x [1512; 1480; 1448; 7]).
    { clear Hin Ht. induction Hx as [|x Hx IH Hp]; [now left|].
      cbn [In] in IH. destruct IH as [<-|[<-|[<-|[<-|[]]]]]; vm_compute; try tauto.
      destruct Hp as [[Hp _] _]. unfold ex_heap in Hp. lia. }
    cbn [In] in Hx'. destruct Hx' as [<-|[<-|[<-|[<-|[]]]]]; try reflexivity. vm_compute in Ht. discriminate.
  - assert (Hx' : In x [1512; 1480; 1448]).
    { clear Hin Ht. induction Hx as [|x Hx IH Hp]; [now left|].
      cbn [In] in IH. destruct IH as [<-|[<-|[<-|[]]]]; vm_compute; tauto. }
    cbn [In] in Hx'. destruct Hx' as [<-|[<-|[<-|[]]]]; reflexivity.
Qed.
Example C12_example : islist ex_heap (hmask ex_hs) 600 ex_list 1512 = LVal true /\
  islist ex_heap (hmask ex_hs) 600 ex_cycle 1512 = LVal false /\
  islist ex_heap (hmask ex_hs) 600 (upd ex_list 1464 13) 1512 = LVal false.
Proof. vm_compute. auto. Qed.

(** ** C13 *)
Theorem C13_length :
  forall heap hs, heap_ok heap hs -> forall m ps fuel l, chain heap hs m l ps -> (length ps < fuel)%nat ->
  length_ heap (hmask hs) fuel m l = LVal (Z.of_nat (length ps)).
Proof.
  intros heap hs Hok m ps fuel l H1 H2. exact (length_loop_ok heap hs Hok m ps fuel l 0 H1 H2).
Qed.
Print Assumptions C13_length.

(** the new list is fresh, holds the elements in reverse, takes exactly the reserved
    words, and nothing else in memory changes *)
Theorem C13_reverse :
  forall heap hs, heap_ok heap hs -> forall ps fuel m hp l,
  chain heap hs m l ps -> above hp ps -> hp mod 8 = 0 ->
  heap + 32 * Z.of_nat (length ps) <= hp <= heap + 8 * hs -> (length ps < fuel)%nat ->
  exists m' o ns, reverse heap (hmask hs) fuel m hp l = LVal (m', hp - 32 * Z.of_nat (length ps), o) /\
    chain heap hs m' o ns /\ elems m' ns = rev (elems m ps) /\
    within (hp - 32 * Z.of_nat (length ps)) hp ns /\
    same_outside m m' (hp - 32 * Z.of_nat (length ps)) hp.
Proof.
  intros heap hs Hok ps fuel m hp l H1 H2 H3 H4 H5.
  destruct (reverse_loop_ok heap hs Hok ps fuel m hp l NULL [] H1 H2 eq_refl (Forall_nil _) H3 H4 H5)
    as (m' & o & ns & R1 & R2 & R3 & _ & R5 & R6).
  rewrite app_nil_r in R2. exists m', o, ns. exact (conj R1 (conj R2 (conj R3 (conj R5 R6)))).
Qed.
Print Assumptions C13_reverse.

Theorem C13_reverse_in_place :
  forall heap hs, heap_ok heap hs -> forall ps fuel m l,
  chain heap hs m l ps -> apart ps -> (length ps < fuel)%nat ->
  exists m' o, reverse_bang heap (hmask hs) fuel m l = LVal (m', o) /\ chain heap hs m' o (rev ps) /\
    elems m' (rev ps) = rev (elems m ps) /\
    (forall a, ~ In a (map (fun p => p + 16) ps) -> m' a = m a).
Proof. exact reverse_bang_ok. Qed.
Print Assumptions C13_reverse_in_place.

(** a fresh copy of the first list, ending in the very object [t]; with [t] the empty
    list this is list-copy *)
Theorem C13_append_shares_its_tail :
  forall heap hs, heap_ok heap hs -> forall ps fuel m hp l t,
  chain heap hs m l ps -> above hp ps -> hp mod 8 = 0 ->
  heap + 32 * Z.of_nat (length ps) <= hp <= heap + 8 * hs -> (length ps < fuel)%nat ->
  exists m' o ns, append2 heap (hmask hs) fuel m hp l t = LVal (m', hp - 32 * Z.of_nat (length ps), o) /\
    seg heap hs m' o ns t /\ elems m' ns = elems m ps /\
    within (hp - 32 * Z.of_nat (length ps)) hp ns /\
    same_outside m m' (hp - 32 * Z.of_nat (length ps)) hp.
Proof. exact append2_ok. Qed.
Print Assumptions C13_append_shares_its_tail.

Theorem C13_list_tail :
  forall heap hs, heap_ok heap hs -> forall m c ps l e, seg heap hs m l ps e -> (c <= length ps)%nat ->
  exists r, list_tail heap (hmask hs) c m l = LVal r /\ seg heap hs m r (skipn c ps) e.
Proof. exact list_tail_ok. Qed.
Print Assumptions C13_list_tail.

Theorem C13_list_ref :
  forall heap hs, heap_ok heap hs -> forall m c ps l e, seg heap hs m l ps e -> (c < length ps)%nat ->
  list_ref heap (hmask hs) c m l = LVal (nth c (elems m ps) 0).
Proof. exact list_ref_ok. Qed.
Print Assumptions C13_list_ref.

(** improper lists, ending in any object that is no pair, included *)
Theorem C13_last_pair :
  forall heap hs, heap_ok heap hs -> forall m p ps fuel e,
  seg heap hs m p (p :: ps) e -> ispair heap (hmask hs) m e = false -> (length ps < fuel)%nat ->
  last_pair heap (hmask hs) fuel m p = LVal (last (p :: ps) 0).
Proof. exact last_pair_ok. Qed.
Print Assumptions C13_last_pair.

Theorem C13_make_vector :
  forall heap hs, heap_ok heap hs -> forall c m hp o,
  hp mod 8 = 0 -> heap + 8 * (Z.of_nat c + 2) <= hp <= heap + 8 * hs ->
  exists m' v, make_vector c m hp o = (m', hp - 8 * (Z.of_nat c + 2), v) /\
    vector_at heap hs m' v (repeat o c) /\
    hp - 8 * (Z.of_nat c + 2) <= v - 8 /\ v + 8 * (Z.of_nat c + 1) <= hp /\
    same_outside m m' (hp - 8 * (Z.of_nat c + 2)) hp.
Proof. exact make_vector_ok. Qed.
Print Assumptions C13_make_vector.

Theorem C13_vector_to_list :
  forall heap hs, heap_ok heap hs -> forall m hp v xs,
  vector_at heap hs m v xs -> Z.of_nat (length xs) < 2147483647 -> hp <= v - 8 -> hp mod 8 = 0 ->
  heap + 32 * Z.of_nat (length xs) <= hp <= heap + 8 * hs ->
  exists m' o ns, vector_to_list heap (hmask hs) m hp v = LVal (m', hp - 32 * Z.of_nat (length xs), o) /\
    chain heap hs m' o ns /\ elems m' ns = xs /\
    within (hp - 32 * Z.of_nat (length xs)) hp ns /\
    same_outside m m' (hp - 32 * Z.of_nat (length xs)) hp.
Proof. exact vector_to_list_ok. Qed.
Print Assumptions C13_vector_to_list.

Theorem C13_list_to_vector :
  forall heap hs, heap_ok heap hs -> forall ps fuel m hp l,
  chain heap hs m l ps -> above hp ps -> hp mod 8 = 0 ->
  heap + 8 * (Z.of_nat (length ps) + 2) <= hp <= heap + 8 * hs -> (length ps < fuel)%nat ->
  exists m' v, list_to_vector heap (hmask hs) fuel m hp l = LVal (m', hp - 8 * (Z.of_nat (length ps) + 2), v) /\
    vector_at heap hs m' v (elems m ps) /\
    hp - 8 * (Z.of_nat (length ps) + 2) <= v - 8 /\ v + 8 * (Z.of_nat (length ps) + 1) <= hp /\
    same_outside m m' (hp - 8 * (Z.of_nat (length ps) + 2)) hp.
Proof. exact list_to_vector_ok. Qed.
Print Assumptions C13_list_to_vector.

Example C13_example_hyps : chain ex_heap ex_hs ex_list 1512 [1512; 1480; 1448] /\
  above 1440 [1512; 1480; 1448] /\ apart [1512; 1480; 1448] /\ 1440 mod 8 = 0 /\
  ex_heap + 32 * 3 <= 1440 <= ex_heap + 8 * ex_hs.
Proof.
  split.
  - unfold chain. cbn [seg].
    assert (P : pair_at ex_heap ex_hs ex_list 1512 /\ pair_at ex_heap ex_hs ex_list 1480 /\ pair_at ex_heap ex_hs ex_list 1448).
    { unfold pair_at, in_heap, ex_heap, ex_hs. repeat split; try lia; vm_compute; reflexivity. }
    destruct P as (P1 & P2 & P3). repeat (split; [reflexivity || assumption|]). reflexivity.
  - split; [repeat constructor; lia|]. split; [|unfold ex_heap, ex_hs; split; [reflexivity|lia]].
    intros p q Hp Hq. cbn [In] in Hp, Hq. lia.
Qed.
Example C13_example :
  length_ ex_heap (hmask ex_hs) 4 ex_list 1512 = LVal 3 /\
  match reverse ex_heap (hmask ex_hs) 4 ex_list 1440 1512 with
  | LVal (m, hp, o) => (hp, map (list_ref ex_heap (hmask ex_hs) 0 m) [o; 1384; 1416]) =
                       (1344, [LVal 31; LVal 21; LVal 11])
  | _ => False
  end /\
  match append2 ex_heap (hmask ex_hs) 4 ex_list 1440 1512 1480 with
  | LVal (m, hp, o) => map (fun c => list_ref ex_heap (hmask ex_hs) c m o) [0; 1; 2; 3; 4]%nat =
                       [LVal 11; LVal 21; LVal 31; LVal 21; LVal 31] /\
                       list_tail ex_heap (hmask ex_hs) 3 m o = LVal 1480
  | _ => False
  end.
Proof. vm_compute. auto. Qed.

(** ** C14 *)
(** Objects denoting finite trees: [equal?] terminates, within as many levels as the
    first tree has, and decides structural equality, provided one of the two is free
    of numbers different from themselves. *)
Theorem C14_equal_is_structural_equality :
  forall F (feq : F -> F -> bool) flo str flonum_ntag string_ntag heap hs,
  heap_ok heap hs -> flonum_ntag mod 2 = 0 -> string_ntag mod 2 = 0 -> flonum_ntag <> string_ntag ->
  forall fuel t1 t2 m x y, (height F t1 < fuel)%nat ->
  denotes F flo str flonum_ntag string_ntag heap hs m x t1 ->
  denotes F flo str flonum_ntag string_ntag heap hs m y t2 ->
  no_nan F feq t1 \/ no_nan F feq t2 ->
  exists r, isequal heap (hmask hs) F feq flo str flonum_ntag string_ntag fuel m x y = LVal r /\
            (r = true <-> teq F feq t1 t2).
Proof. exact isequal_ok. Qed.
Print Assumptions C14_equal_is_structural_equality.

(** an object denotes one tree only *)
Theorem C14_denotes_unique :
  forall F flo str flonum_ntag string_ntag heap hs, flonum_ntag mod 2 = 0 -> string_ntag mod 2 = 0 ->
  flonum_ntag <> string_ntag -> forall n t1 t2 m o, (height F t1 < n)%nat ->
  denotes F flo str flonum_ntag string_ntag heap hs m o t1 ->
  denotes F flo str flonum_ntag string_ntag heap hs m o t2 -> t1 = t2.
Proof. exact (fun F => denotes_fun F (fun _ _ => true)). Qed.
Print Assumptions C14_denotes_unique.

Theorem C14_eqv :
  forall F (feq : F -> F -> bool) flo flonum_ntag heap hs, heap_ok heap hs ->
  forall m x y, iseqv heap (hmask hs) F feq flo flonum_ntag m x y = true <-> eqv F feq flo flonum_ntag heap hs m x y.
Proof. exact (fun F feq flo nt => iseqv_ok F feq flo (fun _ => []) nt 0). Qed.
Print Assumptions C14_eqv.

(** With a number different from itself (here [None]) the hypothesis is needed:
    [equal?] is not structural equality, an object holding it is [equal?] to itself
    but not to a copy. *)
Definition ex_feq (a b : option Z) : bool :=
  match a, b with Some x, Some y => x =? y | _, _ => false end.
Definition ex_flo (p : Z) : option Z := if p =? 5000 then None else Some p.
Definition ex_str (p : Z) : list Z := if p =? 6000 then [97; 98] else if p =? 6100 then [97; 98] else [99].
(** two numbers at 1512 and 1496 that refer to the same NaN *)
Definition ex_nan : mem := ex_words [(1504, 8000); (1512, 5000); (1488, 8000); (1496, 5000)].

Theorem C14_equal_on_nan_refuted :
  exists m x y t, denotes _ ex_flo ex_str 8000 8008 ex_heap ex_hs m x t /\
    denotes _ ex_flo ex_str 8000 8008 ex_heap ex_hs m y t /\
    isequal ex_heap (hmask ex_hs) _ ex_feq ex_flo ex_str 8000 8008 3 m x x = LVal true /\
    isequal ex_heap (hmask ex_hs) _ ex_feq ex_flo ex_str 8000 8008 3 m x y = LVal false.
Proof.
  exists ex_nan, 1512, 1496, (TFlo _ None).
  split; [|split; [|split; vm_compute; reflexivity]]; cbn [denotes]; unfold in_heap, ex_heap, ex_hs;
    repeat split; try lia; reflexivity.
Qed.
Print Assumptions C14_equal_on_nan_refuted.

(** two separate lists ("ab" 2.0) *)
Definition ex_two : mem := ex_words
  [(1520, 8008); (1528, 6000); (1504, 8000); (1512, 42);
   (1472, 7); (1480, 7); (1488, 1528); (1496, 1448);
   (1440, 7); (1448, 7); (1456, 1512); (1464, 7);
   (1424, 8008); (1432, 6100); (1408, 8000); (1416, 42);
   (1376, 7); (1384, 7); (1392, 1432); (1400, 1352);
   (1344, 7); (1352, 7); (1360, 1416); (1368, 7)].
Definition ex_tree : tree (option Z) :=
  TBlock _ 7 [TStr _ [97; 98]; TBlock _ 7 [TFlo _ (Some 42); TWord _ 7]].
Example C14_example_hyps :
  denotes _ ex_flo ex_str 8000 8008 ex_heap ex_hs ex_two 1480 ex_tree /\
  denotes _ ex_flo ex_str 8000 8008 ex_heap ex_hs ex_two 1384 ex_tree /\
  no_nan _ ex_feq ex_tree.
Proof.
  split; [|split].
  - cbn [denotes ex_tree]. unfold in_heap, ex_heap, ex_hs.
    repeat split; cbn [length]; try lia; try (vm_compute; reflexivity); try (right; left; reflexivity); vm_compute; congruence.
  - cbn [denotes ex_tree]. unfold in_heap, ex_heap, ex_hs.
    repeat split; cbn [length]; try lia; try (vm_compute; reflexivity); try (right; left; reflexivity); vm_compute; congruence.
  - repeat constructor.
Qed.
Example C14_example :
  isequal ex_heap (hmask ex_hs) _ ex_feq ex_flo ex_str 8000 8008 3 ex_two 1480 1384 = LVal true /\
  isequal ex_heap (hmask ex_hs) _ ex_feq ex_flo ex_str 8000 8008 3 (upd ex_two 1416 43) 1480 1384 = LVal false.
Proof. vm_compute. auto. Qed.

(** ** C15 *)
Theorem C15_memq :
  forall heap hs, heap_ok heap hs -> forall m ps fuel l x,
  chain heap hs m l ps -> (length ps < fuel)%nat ->
  exists r, memq_ heap (hmask hs) fuel m x l = LVal r /\ first_such (fun p => x = car_at m p) ps r.
Proof.
  intros heap hs Hok m ps fuel l x H1 H2.
  exact (mem_loop_ok heap hs Hok m (eq_test x) _ ps fuel l H1 H2
           (proj2 (Forall_forall _ _) (fun p _ => eq_test_iff x (car_at m p)))).
Qed.
Print Assumptions C15_memq.

Theorem C15_assq :
  forall heap hs, heap_ok heap hs -> forall m ps fuel l x,
  chain heap hs m l ps -> (length ps < fuel)%nat -> Forall (fun p => pair_at heap hs m (car_at m p)) ps ->
  exists r, assq_ heap (hmask hs) fuel m x l = LVal r /\ first_such (fun p => x = car_at m p) (elems m ps) r.
Proof.
  intros heap hs Hok m ps fuel l x H1 H2 H3.
  exact (ass_loop_ok heap hs Hok m (eq_test x) (fun p => x = car_at m p) ps fuel l H1 H2 H3
           (proj2 (Forall_forall _ _) (fun p _ => eq_test_iff x (car_at m (car_at m p))))).
Qed.
Print Assumptions C15_assq.

Theorem C15_memv :
  forall F (feq : F -> F -> bool) flo flonum_ntag heap hs, heap_ok heap hs ->
  forall m ps fuel l x, chain heap hs m l ps -> (length ps < fuel)%nat ->
  (in_heap heap hs x -> m (x - 8) = flonum_ntag -> feq (flo (m x)) (flo (m x)) = true) ->
  exists r, ismemv heap (hmask hs) F feq flo flonum_ntag fuel m x l = LVal r /\
    first_such (fun p => eqv F feq flo flonum_ntag heap hs m x (car_at m p)) ps r.
Proof.
  intros F feq flo nt heap hs Hok m ps fuel l x H1 H2 H3.
  exact (mem_loop_ok heap hs Hok m _ _ ps fuel l H1 H2
           (proj2 (Forall_forall _ _) (fun p _ => memv_test_ok F feq flo (fun _ => []) nt 0 heap hs Hok m x (car_at m p) H3))).
Qed.
Print Assumptions C15_memv.

Theorem C15_assv :
  forall F (feq : F -> F -> bool) flo flonum_ntag heap hs, heap_ok heap hs ->
  forall m ps fuel l x, chain heap hs m l ps -> (length ps < fuel)%nat ->
  Forall (fun p => pair_at heap hs m (car_at m p)) ps ->
  (in_heap heap hs x -> m (x - 8) = flonum_ntag -> feq (flo (m x)) (flo (m x)) = true) ->
  exists r, isassv heap (hmask hs) F feq flo flonum_ntag fuel m x l = LVal r /\
    first_such (fun p => eqv F feq flo flonum_ntag heap hs m x (car_at m p)) (elems m ps) r.
Proof.
  intros F feq flo nt heap hs Hok m ps fuel l x H1 H2 H3 H4.
  exact (ass_loop_ok heap hs Hok m _ (fun p => eqv F feq flo nt heap hs m x (car_at m p)) ps fuel l H1 H2 H3
           (proj2 (Forall_forall _ _) (fun p _ => memv_test_ok F feq flo (fun _ => []) nt 0 heap hs Hok m x (car_at m (car_at m p)) H4))).
Qed.
Print Assumptions C15_assv.

(** [tr] gives the tree each key denotes *)
Theorem C15_member :
  forall F (feq : F -> F -> bool) flo str flonum_ntag string_ntag heap hs,
  heap_ok heap hs -> flonum_ntag mod 2 = 0 -> string_ntag mod 2 = 0 -> flonum_ntag <> string_ntag ->
  (forall a b, feq a b = feq b a) ->
  forall m ps fuel l x tx (tr : Z -> tree F), chain heap hs m l ps -> (length ps < fuel)%nat ->
  denotes F flo str flonum_ntag string_ntag heap hs m x tx -> no_nan F feq tx ->
  Forall (fun p => denotes F flo str flonum_ntag string_ntag heap hs m (car_at m p) (tr p) /\
                   (height F (tr p) < fuel)%nat) ps ->
  exists r, ismember heap (hmask hs) F feq flo str flonum_ntag string_ntag fuel m x l = LVal r /\
    first_such (fun p => teq F feq tx (tr p)) ps r.
Proof.
  intros F feq flo str nf ns heap hs Hok Hf Hs Hne Hsym m ps fuel l x tx tr H1 H2 Dx Hn Hall.
  exact (mem_loop_ok heap hs Hok m _ _ ps fuel l H1 H2
    (Forall_impl _ (fun p Hp => member_test_ok F feq flo str nf ns heap hs Hok Hf Hs Hne Hsym fuel m x
       (car_at m p) tx (tr p) Dx (proj1 Hp) Hn (proj2 Hp)) Hall)).
Qed.
Print Assumptions C15_member.

Theorem C15_assoc :
  forall F (feq : F -> F -> bool) flo str flonum_ntag string_ntag heap hs,
  heap_ok heap hs -> flonum_ntag mod 2 = 0 -> string_ntag mod 2 = 0 -> flonum_ntag <> string_ntag ->
  (forall a b, feq a b = feq b a) ->
  forall m ps fuel l x tx (tr : Z -> tree F), chain heap hs m l ps -> (length ps < fuel)%nat ->
  Forall (fun p => pair_at heap hs m (car_at m p)) ps ->
  denotes F flo str flonum_ntag string_ntag heap hs m x tx -> no_nan F feq tx ->
  Forall (fun p => denotes F flo str flonum_ntag string_ntag heap hs m (car_at m (car_at m p)) (tr (car_at m p)) /\
                   (height F (tr (car_at m p)) < fuel)%nat) ps ->
  exists r, isassoc heap (hmask hs) F feq flo str flonum_ntag string_ntag fuel m x l = LVal r /\
    first_such (fun p => teq F feq tx (tr p)) (elems m ps) r.
Proof.
  intros F feq flo str nf ns heap hs Hok Hf Hs Hne Hsym m ps fuel l x tx tr H1 H2 H3 Dx Hn Hall.
  exact (ass_loop_ok heap hs Hok m _ (fun p => teq F feq tx (tr p)) ps fuel l H1 H2 H3
    (Forall_impl _ (fun p Hp => member_test_ok F feq flo str nf ns heap hs Hok Hf Hs Hne Hsym fuel m x
       (car_at m (car_at m p)) tx (tr (car_at m p)) Dx (proj1 Hp) Hn (proj2 Hp)) Hall)).
Qed.
Print Assumptions C15_assoc.

(** A number different from itself is eqv? and equal? to itself as an object, but
    memv and member do not find it in a list that holds that very object. *)
Definition ex_nan_list : mem := ex_words
  [(1504, 8000); (1512, 5000); (1472, 7); (1480, 7); (1488, 1512); (1496, 7)].
Theorem C15_search_for_nan_refuted :
  exists m x l, chain ex_heap ex_hs m l [l] /\ car_at m l = x /\
    iseqv ex_heap (hmask ex_hs) _ ex_feq ex_flo 8000 m x x = true /\
    isequal ex_heap (hmask ex_hs) _ ex_feq ex_flo ex_str 8000 8008 3 m x x = LVal true /\
    ismemv ex_heap (hmask ex_hs) _ ex_feq ex_flo 8000 3 m x l = LVal 0 /\
    ismember ex_heap (hmask ex_hs) _ ex_feq ex_flo ex_str 8000 8008 3 m x l = LVal 0.
Proof.
  exists ex_nan_list, 1512, 1480. split; [|repeat split; vm_compute; reflexivity].
  split; [reflexivity|]. split; [|reflexivity]. unfold pair_at, in_heap, ex_heap, ex_hs.
  repeat split; try lia; vm_compute; reflexivity.
Qed.
Print Assumptions C15_search_for_nan_refuted.

Example C15_example :
  memq_ ex_heap (hmask ex_hs) 4 ex_list 21 1512 = LVal 1480 /\
  memq_ ex_heap (hmask ex_hs) 4 ex_list 41 1512 = LVal 0 /\
  ismemv ex_heap (hmask ex_hs) _ ex_feq ex_flo 8000 4 ex_two 1512 1384 = LVal 1352 /\
  ismember ex_heap (hmask ex_hs) _ ex_feq ex_flo ex_str 8000 8008 4 ex_two 1528 1384 = LVal 1384.
Proof. vm_compute. auto. Qed.
Example C15_example_hyps :
  chain ex_heap ex_hs ex_two 1384 [1384; 1352] /\
  denotes _ ex_flo ex_str 8000 8008 ex_heap ex_hs ex_two 1528 (TStr _ [97; 98]) /\
  denotes _ ex_flo ex_str 8000 8008 ex_heap ex_hs ex_two (car_at ex_two 1384) (TStr _ [97; 98]) /\
  denotes _ ex_flo ex_str 8000 8008 ex_heap ex_hs ex_two (car_at ex_two 1352) (TFlo _ (Some 42)).
Proof.
  unfold chain, car_at. cbn [seg denotes]. unfold pair_at, in_heap, ex_heap, ex_hs, cdr_at.
  repeat split; try lia; vm_compute; auto; try discriminate.
Qed.
