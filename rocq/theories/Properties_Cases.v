(** C55: sorting and the numbers of closure entries, /repo/7.sf:22-43, 562-571, 583-626, 634-668, 680-702, 747-757. *)
From Coq Require Import ZArith String List Bool Lia Arith Permutation Sorted.
From Verif Require Import Base Model_Lit Model_Core Model_CodeGen Model_Roots Model_Cases Spec_Scope Spec_CodeGen
  Proofs_CStr Proofs_Sim Proofs_Core Proofs_Free Proofs_Cases.
Import ListNotations.

(** Sorting keeps all elements and puts them in order; those that the order does not tell apart stay as they were. *)
Theorem C55_sort {A} (less : A -> A -> bool) : (forall a b, less a b = true -> less b a = false) ->
  (forall a b c, less a b = true -> less a c = true \/ less c b = true) ->
  forall l, exists r, sort_by less (S (length l)) l = Some r /\ Permutation r l /\ StronglySorted (fun a b => less b a = false) r /\
  forall p, (forall a b, p a = true -> p b = true -> less a b = false) -> filter p r = filter p l.
Proof.
  intros As Tr l. destruct (sort_total less (S (length l)) l) as (r & E & P); [lia|]. exists r. split; [exact E|]. split; [exact P|].
  split; [exact (sort_sorted less As Tr _ _ _ E) | intros p Q; exact (sort_stable less As Tr p Q _ _ _ E)].
Qed.
Example C55_sort_ex : sort_by (fun a b => Nat.ltb (fst a) (fst b)) 8 [(5, 1); (2, 1); (5, 2); (1, 1); (2, 2); (2, 3); (0, 1)]%nat =
  Some [(0, 1); (1, 1); (2, 1); (2, 2); (2, 3); (5, 1); (5, 2)]%nat.
Proof. reflexivity. Qed.
Print Assumptions C55_sort.

(** The cases of the switch are written as 0, 1, ... up to the size of the table of entries, each once and in order; a label
    has a case if it is entered from closures, and no two labels have the same. *)
Theorem C55_cases ls lams b prog : let e := EFix ls lams b in NoDup ls -> code_generate e = Some prog ->
  exists al, curry_alist e = Some al /\ cases_written ls al = seq 0 (ncases al) /\
  (forall lab q, In (lab, q) (labelled prog) -> (entry q <> None <-> exists i, case_no lab al case_start = Some i)) /\
  (forall lab i, case_no lab al case_start = Some i -> (0 < i < ncases al)%nat /\ forall lab', case_no lab' al case_start = Some i -> lab' = lab).
Proof.
  intros e N G.
  assert (H : forall lb ps n, In (FCurry lb ps n) (collected e) -> In lb ls).
  { intros lb ps n I. unfold e, code_generate in G. cbv zeta in G. fold (collected (EFix ls lams b)) in G. destruct (forallb _ (collected _)) eqn:F; [|discriminate].
    rewrite forallb_forall in F. apply F in I. cbn [agrees] in I. apply andb_prop in I. now apply memq_In. }
  destruct (cases_ok ls lams b N H) as (al & E & W & Nd & I). exists al. split; [exact E|]. split; [exact W|]. split.
  - intros lab q Q. unfold e, code_generate in G. cbv zeta in G. fold (collected (EFix ls lams b)) in G. fold e in G. destruct (forallb _ (collected _)); [|discriminate].
    destruct (cg _ _ b _ _); [|discriminate]. destruct (all_some _) as [cs|]; [|discriminate]. injection G as <-. cbn [labelled] in Q.
    assert (Q' : entry q = find_curry lab (collected e)).
    { assert (X : forall l (k : list code), In (lab, q) (combine l (map (fun p => mkproc (find_curry (fst p) (collected e)) (snd p)) (combine l k))) -> entry q = find_curry lab (collected e)).
      { induction l as [|x l IH]; intros [|y k] J; cbn in J; try easy. destruct J as [[= <- <-]|J]; [reflexivity | eauto]. }
      eauto. }
    rewrite Q'. assert (Fc : find_curry lab (collected e) <> None <-> In lab al).
    { rewrite I. fold e. generalize (collected e). clear. intros all. split.
      - induction all as [|[lb ps n|y lb|lb n] l IH]; cbn [find_curry]; [easy | | |]; try (intros K; destruct (IH K) as (i & k & J); exists i, k; now right).
        destruct (id_eqb lab lb) eqn:Q; [apply id_eqb_eq in Q; subst; intros _; exists ps, n; now left|]. intros K. destruct (IH K) as (i & k & J). exists i, k. now right.
      - intros (ps & n & J). induction all as [|f l IH]; [easy|]. destruct J as [->|J]; [cbn; now rewrite id_eqb_refl|]. destruct f as [lb' ps' n'| |]; cbn; auto. destruct (id_eqb lab lb'); [discriminate | auto]. }
    rewrite Fc. split; [apply case_no_in|]. intros (i & K). apply case_no_bound in K. destruct K as (_ & K). eapply nth_error_In; eauto.
  - intros lab i K. apply case_no_bound in K. destruct K as (B & K). split; [unfold ncases, case_start in *; lia|]. intros lab' K'. apply case_no_bound in K'. destruct K' as (_ & K'). congruence.
Qed.
Local Definition v (z : Z) : id := mkid z XNone.
Local Definition t (z : Z) : id := mkid z XTrue.
Local Definition wrap (x y k : Z) := ELam [v x; v y] (EApp (EVar (t k)) [EVar (v x); EVar (v y)]).
Local Definition ls := [t 1; t 2; t 3; t 4].
(** closures enter t4, t1 and t3, found in this order; t2 is only jumped to *)
Local Definition lams : list (list id * exp) :=
  [([v 5; v 6], EApp (EVar (v 5)) [wrap 7 8 4; EVar (v 6)]); ([v 9; v 10], EApp (EVar (v 9)) [wrap 11 12 1; wrap 13 14 4]);
   ([v 15; v 16], EApp (EVar (t 2)) [EVar (v 16); EVar (v 15)]); ([v 17; v 18], EApp (EVar (v 17)) [EVar (v 17); EVar (v 18)])].
Local Definition mainx : exp := let_exp [v 19] [ESet (v (-1)) (wrap 20 21 3)] (EApp (EVar (t 2)) [EVar (v (-1)); EVar (v (-1))]).
Example C55_cases_ex : NoDup ls /\ (exists prog, code_generate (EFix ls lams mainx) = Some prog) /\ curry_alist (EFix ls lams mainx) = Some [t 1; t 3; t 4] /\
  cases_written ls [t 1; t 3; t 4] = [0; 1; 2; 3]%nat.
Proof. split; [repeat constructor; vm_compute; intuition discriminate|]. split; [eexists; vm_compute; reflexivity | split; vm_compute; reflexivity]. Qed.
Print Assumptions C55_cases.
