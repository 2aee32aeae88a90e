(** C24, C27, C44, C45: compiler utilities. *)
From Coq Require Import ZArith List Bool Lia.
Import ListNotations.
From Verif Require Import Model_Util Proofs_Util Model_Sort Spec_Sort Proofs_Sort.
Open Scope Z_scope.

(** ** C24 *)
(** for every list, order and store the sort terminates with the stable sort of the
    list, and no pair that existed before is changed *)
Theorem C24_sort_by_is_a_stable_sort :
  forall A (less : A -> A -> bool), weak_order less ->
  forall st p xs fuel, list_at st p xs -> 0 < s_next st -> (length xs < fuel)%nat ->
  exists st' r ys, sort_by less fuel st p = Some (st', r) /\ list_at st' r ys /\
    stable_sort_of less xs ys /\
    (forall x, x < s_next st -> s_car st' x = s_car st x /\ s_cdr st' x = s_cdr st x).
Proof.
  intros A less W st p xs fuel H1 H2 H3.
  destruct (sort_by_ok A less W fuel st p xs H1 H2 H3) as (st' & r & ys & E & L & S & X).
  exists st', r, ys. exact (conj E (conj L (conj S (proj2 X)))).
Qed.
Print Assumptions C24_sort_by_is_a_stable_sort.

(** the specification determines the result *)
Theorem C24_stable_sort_unique :
  forall A (less : A -> A -> bool) l l1 l2, weak_order less ->
  stable_sort_of less l l1 -> stable_sort_of less l l2 -> l1 = l2.
Proof. exact stable_sort_unique. Qed.
Print Assumptions C24_stable_sort_unique.

(** a list of five records sorted by their first component *)
Definition ex_less (a b : Z * Z) : bool := fst a <? fst b.
Definition ex_store : store (Z * Z) :=
  mkstore (fun x => nth (Z.to_nat x) [(0,0); (3,1); (1,2); (2,3); (1,4); (3,5)] (0,0))
          (fun x => if x =? 5 then 0 else x + 1) 6.
Example C24_example_hyps : weak_order ex_less /\
  list_at ex_store 1 [(3,1); (1,2); (2,3); (1,4); (3,5)].
Proof.
  split.
  - split; unfold ex_less; intros; rewrite ?Z.ltb_lt, ?Z.ltb_ge in *; lia.
  - exists [1;2;3;4;5]. cbn. repeat split; try lia; repeat constructor; cbn; lia.
Qed.
Example C24_example :
  match sort_by ex_less 6 ex_store 1 with
  | Some (st', r) => match list_copy 6 st' r with
                     | Some (st2, _) => Some (map (s_car st2) [15;14;13;12;11])
                     | None => None
                     end
  | None => None
  end = Some [(1,2); (1,4); (2,3); (3,1); (3,5)].
Proof. vm_compute. reflexivity. Qed.

(** ** C27 *)
(** [f] is the direct computation: it solves the recursive definition [fn].  A
    session of cached queries, with evictions and clearings, answers as [f] does,
    and the table stays within its limit. *)
Theorem C27_cached_queries_agree :
  forall B (fn : Z -> strategy B) (f : Z -> B) (rank : Z -> nat),
  (forall e, eval f (fn e) = f e) ->
  (forall e, below f rank (rank e) (fn e)) ->
  forall fuel l, (forall e, In e (queries l) -> (rank e < fuel)%nat) ->
  exists m', session fuel fn (mkmemo [] 0) l = Some (m', map f (queries l)) /\
    (length (m_al m') <= 1000)%nat.
Proof.
  intros B fn f rank H1 H2 fuel l H3.
  assert (H0 : memo_ok B f (mkmemo [] 0)) by (split; [intros e b []|cbn; lia]).
  destruct (session_ok B fn f rank H1 H2 fuel l _ H0 H3) as (m' & E & (_ & _ & Hl)).
  exists m'. exact (conj E Hl).
Qed.
Print Assumptions C27_cached_queries_agree.

Theorem C27_cached_variable_queries_agree :
  forall B (fn : Z -> Z -> strategy2 B) (f : Z -> Z -> B) (rank : Z -> nat),
  (forall id e, eval2 f (fn id e) = f id e) ->
  (forall id e, below2 f rank (rank e) (fn id e)) ->
  forall fuel l, (forall id e, In (id, e) (queries2 l) -> (rank e < fuel)%nat) ->
  exists m', session2 fuel fn (mkmemo2 [] 0 0) l
             = Some (m', map (fun q => f (fst q) (snd q)) (queries2 l)) /\
    (length (m2_al m') <= 1000)%nat.
Proof.
  intros B fn f rank H1 H2 fuel l H3.
  assert (H0 : memo2_ok B f (mkmemo2 [] 0 0) (fun _ => None))
    by (split; [intros x []|split; [reflexivity|cbn; split; [reflexivity|lia]]]).
  destruct (session2_ok B fn f rank H1 H2 fuel l _ _ H0 H3) as (m' & s' & E & (_ & _ & _ & Hl)).
  exists m'. exact (conj E Hl).
Qed.
Print Assumptions C27_cached_variable_queries_agree.

(** a recursive attribute: the sum 1 + ... + e, asked about more than 1000
    expressions, so that entries are evicted *)
Definition ex_fn (e : Z) : strategy Z :=
  if e <=? 0 then Answer 0 else Ask (e - 1) (fun b => Answer (b + e)).
Definition ex_f (e : Z) : Z := if e <=? 0 then 0 else e * (e + 1) / 2.
Example C27_example_hyps :
  (forall e, eval ex_f (ex_fn e) = ex_f e) /\
  (forall e, below ex_f Z.to_nat (Z.to_nat e) (ex_fn e)).
Proof.
  split; intros e; unfold ex_fn, ex_f; destruct (Z.leb_spec e 0); cbn [eval below]; auto.
  - destruct (Z.leb_spec (e - 1) 0).
    + assert (e = 1) by lia. subst e. reflexivity.
    + replace (e * (e + 1)) with ((e - 1) * (e - 1 + 1) + e * 2) by ring.
      now rewrite Z.div_add by lia.
  - split; [lia|exact I].
Qed.
Example C27_example :
  option_map snd (session 2000 ex_fn (mkmemo [] 0) [CQuery 1200; CQuery 3; CClear; CQuery 3; CQuery 1500])
  = Some [720600; 6; 6; 1125750].
Proof. vm_compute. reflexivity. Qed.
Example C27_example_evicts :
  option_map (fun p => length (m_al (fst p))) (session 2000 ex_fn (mkmemo [] 0) [CQuery 1200])
  = Some 701%nat.
Proof. vm_compute. reflexivity. Qed.

(** ** C44 *)
(** [leaves] is the left-to-right concatenation.  The preallocated length is that of
    the leaves and the copy never leaves the buffer, whatever was in it before. *)
Theorem C44_text_is_the_leaves :
  forall fill x, (forall n, length (fill n) = n) -> forest_to_string fill x = Some (leaves x).
Proof. exact forest_to_string_leaves. Qed.
Print Assumptions C44_text_is_the_leaves.

Theorem C44_length_is_exact :
  forall x, forest_length x = length (leaves x).
Proof. exact forest_length_leaves. Qed.
Print Assumptions C44_length_is_exact.

Theorem C44_copy_ends_at_the_end :
  forall x pre mid post, length mid = length (leaves x) ->
  forest_copy x (pre ++ mid ++ post) (length pre)
  = Some (pre ++ leaves x ++ post, (length pre + length (leaves x))%nat).
Proof. exact forest_copy_mid. Qed.
Print Assumptions C44_copy_ends_at_the_end.

Example C44_example :
  forest_to_string (fun n => repeat 32 n)
    (FPair (FStr [97;98]) (FPair (FVec [FStr [99]; FNull; FPair (FStr [100]) FNull]) FNull))
  = Some [97;98;99;100].
Proof. vm_compute. reflexivity. Qed.

(** ** C45 *)
Theorem C45_union :
  forall s1 s2, (forall x, In x (unionq s1 s2) <-> In x s1 \/ In x s2) /\
    (NoDup s1 -> NoDup s2 -> NoDup (unionq s1 s2)).
Proof. exact (fun s1 s2 => conj (unionq_In s1 s2) (unionq_NoDup s1 s2)). Qed.
Print Assumptions C45_union.

Theorem C45_intersection :
  forall s1 s2, (forall x, In x (intersectionq s1 s2) <-> In x s1 /\ In x s2) /\
    (NoDup s1 -> NoDup (intersectionq s1 s2)).
Proof. exact (fun s1 s2 => conj (intersectionq_In s1 s2) (intersectionq_NoDup s1 s2)). Qed.
Print Assumptions C45_intersection.

Theorem C45_difference :
  forall s1 s2, (forall x, In x (setdiffq s1 s2) <-> In x s1 /\ ~ In x s2) /\
    (NoDup s1 -> NoDup (setdiffq s1 s2)).
Proof. exact (fun s1 s2 => conj (setdiffq_In s1 s2) (setdiffq_NoDup s1 s2)). Qed.
Print Assumptions C45_difference.

Theorem C45_adjoin :
  forall x s, (forall y, In y (adjoinq x s) <-> y = x \/ In y s) /\
    (NoDup s -> NoDup (adjoinq x s)).
Proof. exact (fun x s => conj (adjoinq_In x s) (adjoinq_NoDup x s)). Qed.
Print Assumptions C45_adjoin.

Theorem C45_subset_and_equality :
  forall s1 s2, (subsetq s1 s2 = true <-> forall x, In x s1 -> In x s2) /\
    (seteq s1 s2 = true <-> forall x, In x s1 <-> In x s2).
Proof. exact (fun s1 s2 => conj (subsetq_incl s1 s2) (seteq_ext s1 s2)). Qed.
Print Assumptions C45_subset_and_equality.

Theorem C45_union_of_many :
  forall l, (forall x, In x (union_all l) <-> exists s, In s l /\ In x s) /\
    (Forall (fun s => NoDup s) l -> NoDup (union_all l)).
Proof. exact (fun l => conj (union_all_In l) (union_all_NoDup l)). Qed.
Print Assumptions C45_union_of_many.

Example C45_example :
  unionq [1;2;3] [3;4] = [1;2;3;4] /\ intersectionq [1;2;3] [3;1] = [1;3] /\
  setdiffq [1;2;3] [2;9] = [1;3] /\ seteq [1;2] [2;1] = true /\ subsetq [1;5] [1;2] = false.
Proof. vm_compute. repeat split. Qed.
