(** C10: symbols. *)
From Coq Require Import ZArith List Bool Lia.
From Verif Require Import Base Model_Imm Proofs_Imm Proofs_Imm2 Model_Sym Proofs_Sym.
Import ListNotations.
Open Scope Z_scope.

(** Every history of interning, for every hash function: it terminates, every symbol
    handed out is named in the final table by the name it was interned for, and two
    symbols are the same exactly when the names are. *)
Theorem C10_symbols_are_their_names :
  forall (hash : list Z -> Z) (l : list (list Z)),
  exists t js, intern_all hash symt0 l = Some (t, js) /\ length js = length l /\
    (forall i, (i < length l)%nat -> symbolname t (nth i js 0%nat) = Some (nth i l [])) /\
    (forall i j, (i < length l)%nat -> (j < length l)%nat ->
       (nth i js 0%nat = nth j js 0%nat <-> nth i l [] = nth j l [])).
Proof.
  intros hash l. destruct (intern_all_ok hash l symt0 (inv0 hash)) as (t & js & E & I & _ & Hl & Hj).
  exists t, js. split; [exact E|]. split; [exact Hl|]. split; [exact Hj|].
  intros i j Hi Hj'. pose proof (Hj i Hi) as A. pose proof (Hj j Hj') as B. unfold symbolname in A, B.
  split; intros C; [congruence|].
  eapply (proj1 (NoDup_nth_error (st_a t))); [now apply (inv_nodup hash)|apply nth_error_Some; congruence|congruence].
Qed.
Print Assumptions C10_symbols_are_their_names.

(** Growing the table renames nothing: what was interned in the first part of a
    history has the same name after the second part. *)
Theorem C10_symbols_keep_their_identity :
  forall (hash : list Z -> Z) (l1 l2 : list (list Z)) t1 js1,
  intern_all hash symt0 l1 = Some (t1, js1) ->
  exists t2 js2, intern_all hash t1 l2 = Some (t2, js2) /\
    forall s n, symbolname t1 s = Some n -> symbolname t2 s = Some n.
Proof.
  intros hash l1 l2 t1 js1 E.
  destruct (intern_all_ok hash l1 symt0 (inv0 hash)) as (t1' & js1' & E' & I & _).
  rewrite E in E'. injection E' as <- <-.
  destruct (intern_all_ok hash l2 t1 I) as (t2 & js2 & E2 & _ & (ext & He) & _).
  exists t2, js2. split; [exact E2|]. unfold symbolname. intros s n Hs. rewrite He.
  rewrite nth_error_app1; [exact Hs|]. apply nth_error_Some. congruence.
Qed.
Print Assumptions C10_symbols_keep_their_identity.

(** the symbol objects themselves, as long as there are at most 2^24 symbols *)
Theorem C10_symbol_objects :
  forall (l : list (list Z)) t js i j,
  intern_all hashs symt0 l = Some (t, js) -> Z.of_nat (length (st_a t)) <= 16777216 ->
  (i < length l)%nat -> (j < length l)%nat ->
  (mksymbol (Z.of_nat (nth i js 0%nat)) = mksymbol (Z.of_nat (nth j js 0%nat)) <-> nth i l [] = nth j l []).
Proof.
  intros l t js i j E Hn Hi Hj.
  destruct (C10_symbols_are_their_names hashs l) as (t' & js' & E' & Hl & Hs & Hq).
  rewrite E in E'. injection E' as <- <-. rewrite <- (Hq i j Hi Hj).
  pose proof (Hs i Hi) as A. pose proof (Hs j Hj) as B. unfold symbolname in A, B.
  assert (LA : (nth i js 0 < length (st_a t))%nat) by (apply nth_error_Some; congruence).
  assert (LB : (nth j js 0 < length (st_a t))%nat) by (apply nth_error_Some; congruence).
  split; [|congruence]. intros C. unfold mksymbol in C.
  apply mkimm_inj in C; [|unfold SYMBOL_ITAG; lia|unfold SYMBOL_ITAG; lia]. destruct C as [_ C].
  rewrite !Z.mod_small in C by lia. lia.
Qed.
Print Assumptions C10_symbol_objects.

(** Without that bound the objects alias: symbol number 2^24 is symbol number 0. *)
Theorem C10_symbol_objects_unbounded_refuted :
  exists i j : nat, i <> j /\ mksymbol (Z.of_nat i) = mksymbol (Z.of_nat j).
Proof. exists 0%nat, (Z.to_nat 16777216). split; [lia|]. rewrite Z2Nat.id by lia. vm_compute. reflexivity. Qed.
Print Assumptions C10_symbol_objects_unbounded_refuted.

(** string->symbol sees a Scheme string only up to its first NUL character; strings
    without one are mapped faithfully *)
Theorem C10_string_to_symbol_without_nul :
  forall s t, ~ In 0 s -> ~ In 0 t -> (stringchars s = stringchars t <-> s = t) /\ stringchars s = s.
Proof.
  assert (G : forall s, ~ In 0 s -> stringchars s = s).
  { induction s as [|c s IH]; intros H; cbn [stringchars]; [reflexivity|].
    destruct (Z.eqb_spec c 0) as [->|]; [exfalso; apply H; now left|]. rewrite IH; [reflexivity|]. intros C. apply H. now right. }
  intros s t Hs Ht. rewrite !G by assumption. tauto.
Qed.
Print Assumptions C10_string_to_symbol_without_nul.
Theorem C10_string_to_symbol_refuted :
  exists s t, s <> t /\ stringchars s = stringchars t.
Proof. exists [97; 0; 98], [97]. split; [discriminate|reflexivity]. Qed.
Print Assumptions C10_string_to_symbol_refuted.

(** 200 different names and the first one again: the table grows twice, and the
    first symbol is found *)
Example C10_example :
  let l := map (fun i => [97; 48 + Z.of_nat i / 16; 48 + Z.of_nat i mod 16]) (seq 0 200) ++ [[97; 48; 48]] in
  match intern_all hashs symt0 l with
  | Some (t, js) => st_sz t = 512 /\ length (st_a t) = 200%nat /\ nth 200 js 7%nat = 0%nat /\ nth 199 js 7%nat = 199%nat
  | None => False
  end.
Proof. vm_compute. auto. Qed.
(** the same with a hash function that always collides *)
Example C10_example_collisions :
  let l := map (fun i => [Z.of_nat i]) (seq 1 70) ++ [[3]] in
  match intern_all (fun _ => 5) symt0 l with
  | Some (t, js) => st_sz t = 256 /\ nth 70 js 7%nat = 2%nat
  | None => False
  end.
Proof. vm_compute. auto. Qed.
