(** C37: modules are loaded once, after what they need. *)
From Coq Require Import ZArith List Bool String Lia.
From Verif Require Import Base Model_Lit Model_CStr Model_Mangle Spec_Mangle Model_Mod Spec_Mod Proofs_Mod.
Import ListNotations.
Open Scope Z_scope.

(** For every set of files, with any load graph, cyclic or not: the linked program runs the body of
    every needed module exactly once and no other body, and a module runs after every module it
    needs that does not need it in turn. *)
Theorem C37_modules_run_once : forall fs main, well_formed fs -> In main (map fst fs) ->
  exists p n T, compile_all fs fs = Some p /\ module_name main = Val n /\ run_main p n = Some T /\ NoDup T /\
  (forall m, In m T <-> exists f, needed fs main f /\ module_name f = Val m) /\
  (forall f g mf mg, needed fs main f -> module_name f = Val mf -> loads_plus fs f g -> has_defs fs g ->
     module_name g = Val mg -> ~ (g = f \/ loads_plus fs g f) -> before mg mf T).
Proof. exact modules_run. Qed.
Print Assumptions C37_modules_run_once.

(** A diamond with a syntax-only file and a cycle: main needs a and s; s needs b; a needs b; b and
    c need each other. *)
Definition ex_fs : files :=
  [(codes "main.sf", [FLoad (codes "lib/a.sf"); FLoad (codes "s.sf"); FOther; FDefine]);
   (codes "lib/a.sf", [FLoad (codes "b.sf"); FDefine]);
   (codes "s.sf", [FLoad (codes "b.sf"); FOther]);
   (codes "b.sf", [FLoad (codes "c.sf"); FDefine]);
   (codes "c.sf", [FLoad (codes "b.sf"); FDefine; FDefine])].
Definition run_files (fs : files) (main : str) : option (list str) :=
  match compile_all fs fs, module_name main with
  | Some p, Val n => run_main p n
  | _, _ => None
  end.
Example C37_modules_run_once_ex :
  run_files ex_fs (codes "main.sf") = Some (map codes ["module_c"; "module_b"; "module_a"; "module_main"]%string).
Proof. vm_compute. reflexivity. Qed.

(** Without distinct base names the claim fails: the second of two files called x.sf is never
    loaded, although it has definitions. *)
Theorem C37_same_base_name_refuted : exists fs main g,
  NoDup (map fst fs) /\ loads fs main g /\ has_defs fs g /\
  exists f, f <> g /\ module_name f = module_name g /\ parse_file fs main = Some [codes "module_x"].
Proof.
  exists [(codes "main.sf", [FLoad (codes "a/x.sf"); FLoad (codes "b/x.sf")]); (codes "a/x.sf", [FDefine]); (codes "b/x.sf", [FDefine])],
    (codes "main.sf"), (codes "b/x.sf").
  split; [repeat (constructor; [vm_compute; intuition discriminate|]); constructor|].
  split; [eexists; split; [left; reflexivity|right; left; reflexivity]|].
  split; [eexists; split; [right; right; left; reflexivity|left; reflexivity]|].
  exists (codes "a/x.sf"). split; [vm_compute; discriminate|]. split; vm_compute; reflexivity.
Qed.
Print Assumptions C37_same_base_name_refuted.

(** Modules that do not depend on each other are not run in the order of their load forms: the last
    one loaded runs first. *)
Theorem C37_load_order_refuted : exists fs main f g, fs = [(main, [FLoad f; FLoad g]); (f, [FDefine]); (g, [FDefine])] /\
  well_formed fs /\ exists mf mg n, module_name f = Val mf /\ module_name g = Val mg /\
  run_files fs main = Some [mg; mf; n].
Proof.
  exists [(codes "main.sf", [FLoad (codes "a.sf"); FLoad (codes "b.sf")]); (codes "a.sf", [FDefine]); (codes "b.sf", [FDefine])],
    (codes "main.sf"), (codes "a.sf"), (codes "b.sf").
  split; [reflexivity|]. split.
  - split; [repeat (constructor; [vm_compute; intuition discriminate|]); constructor|]. split; [|split].
    + intros f g (fr & Hf & Hg). cbn [map fst In]. cbn [In] in Hf.
      destruct Hf as [E|[E|[E|[]]]]; apply (f_equal snd) in E; cbn [snd] in E; subst fr; cbn [In] in Hg.
      * destruct Hg as [E|[E|[]]]; injection E as <-; tauto.
      * destruct Hg as [E|[]]; discriminate.
      * destruct Hg as [E|[]]; discriminate.
    + intros f Hf. cbn [map fst In] in Hf.
      assert (D : forall l, forallb (fun c => (0 <? c) && (c <=? 255)) l = true -> Forall chr l).
      { intros l H. apply Forall_forall. intros c Hc. rewrite forallb_forall in H. specialize (H c Hc). unfold chr. lia. }
      destruct Hf as [<-|[<-|[<-|[]]]]; apply D; vm_compute; reflexivity.
    + intros f g Hf Hg. cbn [map fst In] in Hf, Hg.
      destruct Hf as [<-|[<-|[<-|[]]]]; destruct Hg as [<-|[<-|[<-|[]]]]; vm_compute; congruence.
  - do 3 eexists. split; [vm_compute; reflexivity|]. split; [vm_compute; reflexivity|]. vm_compute. reflexivity.
Qed.
Print Assumptions C37_load_order_refuted.

(** The C file declares only modules loaded by the file itself... *)
Theorem C37_declared : forall fs f n forms, file_forms fs f = Some forms -> In n (externs fs f) ->
  exists g, In (FLoad g) forms /\ module_name g = Val n.
Proof. intros fs f n forms E. unfold externs. rewrite E. apply extern_sub. Qed.
Print Assumptions C37_declared.
Example C37_declared_ex : externs ex_fs (codes "main.sf") = [codes "module_a"].
Proof. vm_compute. reflexivity. Qed.

(** ...while its LOAD macro also calls the modules those load: a call of a function that has no
    declaration. *)
Theorem C37_calls_declared_refuted : exists fs f l n,
  parse_file fs f = Some l /\ In n l /\ ~ In n (externs fs f).
Proof.
  exists ex_fs, (codes "main.sf"), (map codes ["module_a"; "module_b"; "module_c"]%string), (codes "module_b").
  split; [vm_compute; reflexivity|]. split; [vm_compute; auto|]. vm_compute. intuition discriminate.
Qed.
Print Assumptions C37_calls_declared_refuted.
