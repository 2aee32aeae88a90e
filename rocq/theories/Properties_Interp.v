(** C50: the interpreter's compiler to closures (int/ints.sf). *)
From Coq Require Import ZArith NArith String List Bool Lia.
From Verif Require Import Model_Interp Spec_Interp Proofs_Interp Proofs_InterpRun Proofs_InterpProg.
Import ListNotations.
Open Scope string_scope. Open Scope list_scope.

(** ** Primitives and programs for the examples *)
(** +, -, cons, car, display; the world is what has been displayed *)
Local Definition pr (C : Type) (p : N) (l : list (val C)) (w : list Z) : pres C * list Z :=
  match p, l with
  | 0%N, [VLit (LInt a); VLit (LInt b)] => (POk (VLit (LInt (a + b))), w)
  | 1%N, [VLit (LInt a); VLit (LInt b)] => (POk (VLit (LInt (a - b))), w)
  | 2%N, [a; b] => (POk (VPair a b), w)
  | 3%N, [VPair a _] => (POk a, w)
  | 4%N, [VLit (LInt a)] => (POk (VLit LVoid), w ++ [a])
  | 5%N, [VLit (LInt a)] => (POk (VLit (LBool (Z.eqb a 0))), w)
  | _, _ => (PErr p, w)
  end.
Local Lemma pr_discreet : discreet pr.
Proof.
  intros C D R p l l' w F. destruct p as [|[[[p|p|]|[p|p|]|]|[[p|p|]|[p|p|]|]|]]; cbn [pr]; auto;
    destruct F as [|a a' l l' [|[]| |? ? ? ? A1 A2| |] [|b b' l2 l2' [|[]| |? ? ? ? B1 B2| |] [|c c' l3 l3' Cc F]]]; cbn [pr]; auto; repeat split; repeat constructor; auto.
Qed.
Local Definition prims : list (sym * N) := [("+", 0%N); ("-", 1%N); ("cons", 2%N); ("car", 3%N); ("display", 4%N); ("zero?", 5%N)].
Local Definition L (l : list datum) : datum := dlist l DNil.
Local Definition s (x : string) : datum := DSym x.
Local Definition i (z : Z) : datum := DLit (LInt z).
Local Definition lam (ps : list datum) (b : datum) : datum := L [s "lambda"; L ps; b].

Local Lemma app_sym lax k l es : ~ keyword k -> reads_list lax l es -> reads lax (DPair (DSym k) l) (AApp (AVar k) es).
Proof. intros K R. apply r_app; [exact K | now intros x [= ->] | constructor | exact R]. Qed.
Local Lemma app_lam lax a b l ps r e es : reads lax (DPair a b) (ALam ps r e) -> reads_list lax l es -> reads lax (DPair (DPair a b) l) (AApp (ALam ps r e) es).
Proof. intros Rf Rl. now apply r_app. Qed.
(** Decides how a form is read (for the examples). *)
Local Ltac rd := repeat first
  [ apply rl_nil | apply rl_cons | apply rs_last | apply rs_cons | apply rb_end; [exact Logic.I | now right] | apply rb_cons
  | apply r_var | apply r_quote | apply r_set | eapply r_lam; [repeat constructor|] | apply r_if; [..| now right] | apply r_when; [..| exact Logic.I | now right] | eapply r_letrec | apply r_define
  | apply r_begin | apply r_atom; exact Logic.I
  | apply app_sym; [unfold keyword; cbn; intuition congruence|] | eapply app_lam ].
Local Ltac hd := repeat (constructor; cbn; try lia; try discriminate).

(** A program compiled form by form and run with the closures, their frames and the value store does what its expressions mean when
    every variable has a location of its own: same value, same error, same output, same values of global variables; it goes on as
    long.  [hole] may leave the variables of letrec without a value (then nothing is said about programs that read them), or give
    them the ones that the interpreter does.  Operands go from left to right, after the operator; a global operator of a call
    with 5 or more operands is read after them.  No letrec is without bindings and no call has 1000 operands. *)
Theorem C50_meaning {Wd} (prim : forall C : Type, N -> list (val C) -> Wd -> pres C * Wd) hole lax n ds es ps w :
  discreet prim -> (forall n h, hole n = Some h -> h = if Nat.leb n 3 then LBool false else LVoid) -> Forall2 (reads lax) ds es -> Forall handy es ->
  agrees (ev_forms prim (Nat.leb 5) hole n es (mem_with ps w)) (run_forms prim n ds (start_with ps w)).
Proof. intros Q H. exact (program_agrees prim Q hole H lax n ds es ps w). Qed.
(** (define make (lambda (n) (lambda (k . r) (begin (set! n (+ n k)) (cons n r)))))
    (define c (make 10))
    (letrec ((down (lambda (a b) (if (zero? a) b (begin (display a) (down (- a 1) (+ a b)))))) (u 1))
      (cons (down 3 u) (begin (c 1 7) (c 2 8 9)))) *)
Local Definition p_make := L [s "define"; s "make"; lam [s "n"] (L [s "lambda"; DPair (s "k") (s "r"); L [s "begin"; L [s "set!"; s "n"; L [s "+"; s "n"; s "k"]]; L [s "cons"; s "n"; s "r"]]])].
Local Definition p_c := L [s "define"; s "c"; L [s "make"; i 10]].
Local Definition p_go := L [s "letrec"; L [L [s "down"; lam [s "a"; s "b"] (L [s "if"; L [s "zero?"; s "a"]; s "b"; L [s "begin"; L [s "display"; s "a"]; L [s "down"; L [s "-"; s "a"; i 1]; L [s "+"; s "a"; s "b"]]]])]; L [s "u"; i 1]];
  L [s "cons"; L [s "down"; i 3; s "u"]; L [s "begin"; L [s "c"; i 1; i 7]; L [s "c"; i 2; i 8; i 9]]]].
Example C50_meaning_ex : exists es, Forall2 (reads false) [p_make; p_c; p_go] es /\ Forall handy es /\
  (exists st, run_forms pr 20 [p_make; p_c; p_go] (start_with prims []) = Ok (VPair (VLit (LInt 7)) (VPair (VLit (LInt 13)) (VPair (VLit (LInt 8)) (VPair (VLit (LInt 9)) VNil)))) st /\ world st = [3; 2; 1]%Z) /\
  agrees (ev_forms pr (Nat.leb 5) (fun _ => None) 20 es (mem_with prims [])) (run_forms pr 20 [p_make; p_c; p_go] (start_with prims [])).
Proof.
  eexists. assert (H : forall A B C D : Prop, A -> (A -> B) -> C -> (A -> B -> D) -> A /\ B /\ C /\ D) by tauto. apply H; clear H.
  - repeat apply Forall2_cons; try apply Forall2_nil; unfold p_make, p_c, p_go, lam, L; cbn [dlist]; rd.
  - intros _. hd.
  - eexists. split; vm_compute; reflexivity.
  - intros F Hh. apply (C50_meaning pr (fun _ => None) false); [exact pr_discreet | discriminate | exact F | exact Hh].
Qed.
Print Assumptions C50_meaning.

(** No such program leaves a vector, calls a host procedure with a number of arguments that it does not take, or takes the car of something
    that is not a pair. *)
Theorem C50_safe {Wd} (prim : forall C : Type, N -> list (val C) -> Wd -> pres C * Wd) lax n ds es ps w :
  discreet prim -> Forall2 (reads lax) ds es -> Forall handy es -> run_forms prim n ds (start_with ps w) <> UB.
Proof. exact (program_safe prim lax n ds es ps w). Qed.
(** (letrec ((x y) (y 1)) (cons x y)) reads y too early, ((lambda (a b c d e f . g) (cons f g)) 1 2 3 4 5) has too few arguments *)
Local Definition p_early := L [s "letrec"; L [L [s "x"; s "y"]; L [s "y"; i 1]]; L [s "cons"; s "x"; s "y"]].
Local Definition p_few := DPair (L [s "lambda"; dlist (map s ["a"; "b"; "c"; "d"; "e"; "f"]) (s "g"); L [s "cons"; s "f"; s "g"]]) (L (map i [1; 2; 3; 4; 5]%Z)).
Example C50_safe_ex : exists es, Forall2 (reads false) [p_early; p_few] es /\ Forall handy es /\ run_forms pr 20 [p_early; p_few] (start_with prims []) <> UB /\
  (exists st, run_forms pr 20 [p_early] (start_with prims []) = Ok (VPair (VLit (LBool false)) (VLit (LInt 1))) st) /\ (exists st, run_forms pr 20 [p_few] (start_with prims []) = Err BadArgc st).
Proof.
  eexists. assert (H : forall A B C D : Prop, A -> (A -> B) -> (A -> B -> C) -> D -> A /\ B /\ C /\ D) by tauto. apply H; clear H.
  - repeat apply Forall2_cons; try apply Forall2_nil; unfold p_early, p_few, lam, L; cbn [dlist map]; rd.
  - intros _. hd.
  - intros F Hh. apply (C50_safe pr false 20 _ _ prims [] pr_discreet F Hh).
  - split; eexists; vm_compute; reflexivity.
Qed.
Print Assumptions C50_safe.

(** Every form of the language is compiled, and a form is compiled if and only if it is one when anything may follow the last part of an
    if form and the bindings of a letrec may end in any object. *)
Theorem C50_compiled cte d vs : ((exists c vs', comp cte d vs = COk (c, vs')) <-> exists e, reads true d e) /\ forall e, reads false d e -> reads true d e.
Proof. split; [exact (compiled_forms cte d vs) | exact (proj1 (strict_lax false) d)]. Qed.
Example C50_compiled_ex : (exists e, reads true p_go e) /\ ~ (exists e, reads true (L [s "lambda"; L [i 1]; s "x"]) e) /\ comp [] (L [s "lambda"; L [i 1]; s "x"]) [] = CFail /\ comp [] (DPair (s "f") (i 1)) [] = CUndef.
Proof.
  split; [apply (proj1 (C50_compiled [] p_go [])); eexists _, _; vm_compute; reflexivity|]. split; [|split; reflexivity].
  intros H. apply (proj1 (C50_compiled [] _ [])) in H. destruct H as (c & vs & H). discriminate H.
Qed.
Print Assumptions C50_compiled.

(** Some forms that are not in the language are compiled: (if a b c d). *)
Theorem C50_grammar_refuted : exists d, (exists c vs, comp [] d [] = COk (c, vs)) /\ ~ exists e, reads false d e.
Proof.
  exists (L (map s ["if"; "a"; "b"; "c"; "d"])). split; [eexists _, _; vm_compute; reflexivity|]. intros (e & R).
  inversion R; subst; try discriminate; try contradiction.
  - match goal with H : _ \/ _ |- _ => destruct H as [H|H]; discriminate H end.
  - match goal with H : not_keyword _ |- _ => apply H; cbn; tauto end.
  - match goal with H : reads false (s "if") (AVar ?x) |- _ => inversion H; subst end. match goal with H : _ <> _ |- _ => now apply H end.
Qed.
Print Assumptions C50_grammar_refuted.

(** The check of the number of arguments (ints.sf:1257 with the annotations of 1016-1018): right for fewer than 1000 arguments. *)
Theorem C50_argc k ac : (0 <= ac < 1000)%Z ->
  ((0 <= k)%Z -> argc_ok (argc_annotation k) ac = true <-> ac = k) /\ ((0 < k)%Z -> argc_ok (rest_argc_annotation k) ac = true <-> (k - 1 <= ac)%Z).
Proof. intros H. split; intros Hk; [rewrite ann_fixed by lia; apply Z.eqb_eq | rewrite ann_rest by lia; apply Z.leb_le]. Qed.
Example C50_argc_ex : argc_ok (argc_annotation 3) 3 = true /\ argc_ok (argc_annotation 3) 4 = false /\ argc_ok (rest_argc_annotation 3) 2 = true /\ argc_ok (rest_argc_annotation 3) 999 = true /\ argc_ok (rest_argc_annotation 3) 1 = false.
Proof. repeat split. Qed.
Print Assumptions C50_argc.
(** A procedure with 1000 parameters cannot be called, and one with a rest parameter not with 1000 arguments. *)
Theorem C50_argc_refuted : (exists k, 0 <= k /\ argc_ok (argc_annotation k) k = false)%Z /\ (exists k ac, 0 < k /\ k - 1 <= ac /\ argc_ok (rest_argc_annotation k) ac = false)%Z.
Proof. split; [exists 1000%Z | exists 1%Z, 1000%Z]; vm_compute; repeat split; discriminate. Qed.
Print Assumptions C50_argc_refuted.

(** The order of operator and operands depends on the number of operands:
    (f (begin (set! f g) 1) 2 3 4) calls the old f, (f (begin (set! f g) 1) 2 3 4 5) the new one. *)
Local Definition swap n := DPair (s "f") (DPair (L [s "begin"; L [s "set!"; s "f"; s "g"]; i 1]) (L (map i (firstn n [2; 3; 4; 5]%Z)))).
Local Definition p_f := L [s "define"; s "f"; L [s "lambda"; s "l"; i 0]].
Local Definition p_g := L [s "define"; s "g"; L [s "lambda"; s "l"; i 1]].
Theorem C50_order_refuted : exists n ds es, Forall2 (reads false) ds es /\ Forall handy es /\ ~ agrees (ev_forms pr (fun _ => false) (fun _ => None) n es (mem_with prims [])) (run_forms pr n ds (start_with prims [])).
Proof.
  exists 20%nat, [p_f; p_g; swap 4]. eexists. assert (H : forall A B C : Prop, A -> (A -> B) -> C -> A /\ B /\ C) by tauto. apply H; clear H.
  - repeat apply Forall2_cons; try apply Forall2_nil; unfold p_f, p_g, swap, L; cbn [dlist map firstn]; rd.
  - intros _. hd.
  - vm_compute. intros (H & _). discriminate H.
Qed.
Example C50_order_ex : (exists st, run_forms pr 20 [p_f; p_g; swap 3] (start_with prims []) = Ok (VLit (LInt 0)) st) /\ (exists st, run_forms pr 20 [p_f; p_g; swap 4] (start_with prims []) = Ok (VLit (LInt 1)) st).
Proof. split; eexists; vm_compute; reflexivity. Qed.
Print Assumptions C50_order_refuted.

(** A letrec without bindings gets a frame that the compiler does not count (cons-cte, ints.sf:1853-1854; gen-letrec-n 2110-2119):
    ((lambda (x) (letrec () x)) 1) reads outside of the frame.  The macroexpander does not make such forms (make-letrec, 235-236). *)
Theorem C50_letrec_refuted : exists n ds es v m, Forall2 (reads false) ds es /\ ev_forms pr (Nat.leb 5) (fun _ => None) n es (mem_with prims []) = SOk v m /\ run_forms pr n ds (start_with prims []) = UB.
Proof.
  exists 20%nat, [L [lam [s "x"] (L [s "letrec"; DNil; s "x"]); i 1]]. eexists _, _, _. assert (H : forall A B C : Prop, A -> (A -> B) -> C -> A /\ B /\ C) by tauto. apply H; clear H.
  - repeat apply Forall2_cons; try apply Forall2_nil; unfold lam, L; cbn [dlist]; rd.
  - intros _. vm_compute. reflexivity.
  - vm_compute. reflexivity.
Qed.
Print Assumptions C50_letrec_refuted.
