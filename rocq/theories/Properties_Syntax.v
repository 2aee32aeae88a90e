(** C25 and C26: syntax rules. *)
From Coq Require Import ZArith String List Bool Lia.
From Verif Require Import Model_Lit Model_Core Model_Beta Model_Syntax Spec_Syntax Proofs_Syntax Proofs_SynTmpl Proofs_SynRule.
Import ListNotations.
Open Scope Z_scope.

Definition literal (r : synrules) (i : ident) : bool := memv i (literal_ids r).
(** a form fits a pattern of the transformer [r], defined in [denv] and used in [env] *)
Notation fits_here r denv mac env := (fits (ellipsisp r mac) (literal r) (same_meaning denv env)).

(** Shorthands for the examples. *)
Definition y (s : string) : sexp := SSym (codes s).
Definition l (xs : list sexp) : sexp := slist xs.
Definition nums (z : Z) : list Z := [z].
Definition nonum (s : list Z) : sexp := SBool false.
Definition dots := y "...".

(** ** C25 *)
(** The definition of a transformer and its use agree on what is an ellipsis. *)
Theorem C25_ellipsis : forall r denv mac pat tmpl t, locals denv -> compile_syntax_rules r denv = Some mac -> In (pat, tmpl) (rules r) ->
  inside t pat \/ inside t tmpl -> ellipsisp r mac t = ellipsisp r denv t.
Proof. intros r denv mac pat tmpl t L C I. exact (c_ell _ _ _ (compile_compiled _ _ _ L C) _ _ I t). Qed.
Print Assumptions C25_ellipsis.

(** The matcher accepts a form exactly if it fits, and binds each variable to exactly what it took. *)
Theorem C25_bindings : forall r denv mac env k p tmpl s, locals denv -> compile_syntax_rules r denv = Some mac -> In (SCons k p, tmpl) (rules r) ->
  (matches (ellipsisp r mac) (literal r) (fun p s => loc_eqb (lookup_sid p mac) (lookup_sid s env)) p s = true <-> fits_here r denv mac env p s) /\
  (fits_here r denv mac env p s -> exists bs, make_bindings (ellipsisp r mac) (literal r) p s [] = Some bs /\
     forall v t, assv v bs = Some t <-> took (ellipsisp r mac) (literal r) p s v t).
Proof.
  intros r denv mac env k p tmpl s L C I. assert (CO := compile_compiled _ _ _ L C). split.
  - destruct (c_rule _ _ _ CO _ _ I) as (pe & c & CP & _). cbn [tail_of] in CP. unfold check_ellipses in CP. rewrite !andb_true_iff in CP.
    unfold literal. rewrite (matches_fits _ _ (ell_sid r mac)) by apply CP. apply (fits_same r denv mac env CO).
  - intros F. destruct (rule_bindings r denv mac env CO (SCons k p) tmpl (SCons SNil s) I F) as (B & M & _ & _ & T). exists B. split; assumption.
Qed.
Print Assumptions C25_bindings.

(** The first rule whose pattern the form fits is taken; the result is exactly the instance of its template where every variable
    stands for what it took and every other identifier for its renaming; if there is no such rule there is no result. *)
Theorem C25_expansion : forall numstr strnum r denv mac env id_n x, locals denv -> compile_syntax_rules r denv = Some mac ->
  (exists pat tmpl look ren num n', picks (fits_here r denv mac env) (rules r) x pat tmpl /\
     (forall v t, look v = Some t <-> took (ellipsisp r mac) (literal r) (tail_of pat) (tail_of x) v t) /\
     (forall t, inside t tmpl -> sidp t = true -> ellipsisp r mac t = false -> look (sid_id t) = None ->
        ren t = SRen (sid_name t) (IdNum (num (sid_id t))) (lookup_sid t denv)) /\
     (forall out m, apply_synrules numstr strnum r mac env id_n x = Some (out, m) <->
        m = n' /\ instance (ellipsisp r mac) (fun k args => sbox_conv numstr strnum k args env) ren look tmpl out)) \/
  ((forall rule, In rule (rules r) -> ~ applies (fits_here r denv mac env) (fst rule) x) /\ apply_synrules numstr strnum r mac env id_n x = None).
Proof.
  intros numstr strnum r denv mac env id_n x L C. assert (CO := compile_compiled _ _ _ L C).
  destruct (apply_cases numstr strnum r denv mac env id_n x CO) as [(pat & tmpl & P) | X]; [left | right; exact X].
  assert (I : In (pat, tmpl) (rules r)) by (destruct P as (b & a & -> & _); apply in_or_app; right; now left).
  assert (Y : applies (fits_here r denv mac env) pat x) by (destruct P as (b & a & _ & Y & _); exact Y).
  destruct (rule_expansion numstr strnum r denv mac env CO id_n pat tmpl x I Y) as (look & ren & num & n' & T & R & N & EX & _).
  exists pat, tmpl, look, ren, num, n'. split; [exact P|]. split; [exact T|]. split; [exact N|]. intros out m.
  unfold apply_synrules. rewrite (apply_rules_picks numstr strnum r denv mac env CO id_n x (rules r) (fun _ H => H) _ _ P). apply EX.
Qed.
Print Assumptions C25_expansion.

(** A pattern used as its own template rebuilds the form. *)
Theorem C25_rebuild : forall numstr strnum r denv mac env id_n x k p, locals denv -> compile_syntax_rules r denv = Some mac ->
  picks (fits_here r denv mac env) (rules r) x (SCons k p) p -> (forall v, occurs (ellipsisp r mac) p v -> ~ In v (literal_ids r)) ->
  apply_synrules numstr strnum r mac env id_n x = Some (tail_of x, id_n).
Proof. intros numstr strnum r denv mac env id_n x k p L C P N. exact (rebuild numstr strnum r denv mac env id_n x k p (compile_compiled _ _ _ L C) P N). Qed.
Print Assumptions C25_rebuild.

(** (syntax-rules () [(_ ((x v ...) ...) #(a) b ... c) ((x v ...) ...) #(a) b ... c)]) *)
Definition nest_pat := l [l [l [y "x"; y "v"; dots]; dots]; SVec (l [y "a"]); y "b"; dots; y "c"].
Definition nest := mksyn None [] [(SCons (y "_") nest_pat, nest_pat)].
Definition nest_use := l [y "m"; l [l [y "p"; SNum 1; SNum 2]; l [y "q"]]; SVec (l [SStr [65]]); SNum 7; SNum 8; l [SNum 9]].
Example C25_rebuild_ex : apply_synrules nums nonum nest [] [] 5 nest_use = Some (tail_of nest_use, 5).
Proof.
  apply (C25_rebuild nums nonum nest [] [] [] 5 nest_use (y "_") nest_pat).
  - intros i x [].
  - vm_compute. reflexivity.
  - exists [], []. split; [reflexivity|]. split; [|intros ? []]. left. exists (y "_"), nest_pat, (y "m"), (tail_of nest_use). split; [reflexivity|]. split; [reflexivity|].
    apply (proj1 (C25_bindings nest [] [] [] (y "_") nest_pat nest_pat (tail_of nest_use) (fun i x H => match H with end) ltac:(vm_compute; reflexivity) (or_introl eq_refl))).
    vm_compute. reflexivity.
  - intros v _ [].
Qed.
Example C25_bindings_ex :
  make_bindings (ellipsisp nest []) (literal nest) nest_pat (tail_of nest_use) [] =
  Some [(IdSym (codes "x"), BList [BLeaf (y "p"); BLeaf (y "q")]); (IdSym (codes "v"), BList [BList [BLeaf (SNum 1); BLeaf (SNum 2)]; BList []]);
        (IdSym (codes "a"), BLeaf (SStr [65])); (IdSym (codes "b"), BList [BLeaf (SNum 7); BLeaf (SNum 8)]); (IdSym (codes "c"), BLeaf (l [SNum 9]))].
Proof. vm_compute. reflexivity. Qed.

(** With literals the claim fails: a literal of the template is an identifier like any other and is renamed.
    (syntax-rules (else) [(_ else e) (else e)]) *)
Definition lit_pat := l [y "else"; y "e"].
Definition lit_rules := mksyn None [y "else"] [(SCons (y "_") lit_pat, lit_pat)].
Theorem C25_literals_refuted : exists numstr strnum r denv mac env id_n x k p, locals denv /\ compile_syntax_rules r denv = Some mac /\
  picks (fits_here r denv mac env) (rules r) x (SCons k p) p /\ apply_synrules numstr strnum r mac env id_n x <> Some (tail_of x, id_n) /\
  apply_synrules numstr strnum r mac env id_n x <> None.
Proof.
  exists nums, nonum, lit_rules, [], [], [], 0, (l [y "m"; y "else"; SNum 1]), (y "_"), lit_pat. split; [intros i x []|]. split; [vm_compute; reflexivity|]. split.
  - exists [], []. split; [reflexivity|]. split; [|intros ? []]. left. exists (y "_"), lit_pat, (y "m"), (l [y "else"; SNum 1]). split; [reflexivity|]. split; [reflexivity|].
    apply fit_pair; [intros e d [= <- <-]; vm_compute; reflexivity | | apply fit_pair; [intros e d [=] | | now apply fit_atom]].
    + apply fit_lit; try reflexivity.
    + apply fit_var; reflexivity.
  - split; vm_compute; discriminate.
Qed.
Print Assumptions C25_literals_refuted.

(** ** C26 *)
(** The identifiers a template inserts get numbers from [id_n] on, below the number the rest of the expansion starts from; the same
    identifier gets the same number, different identifiers get different ones, and each means what the identifier of the template
    means where the transformer was defined. *)
Theorem C26_renaming : forall numstr strnum r denv mac env id_n x out n', locals denv -> compile_syntax_rules r denv = Some mac -> env_below id_n env ->
  apply_synrules numstr strnum r mac env id_n x = Some (out, n') ->
  exists pat tmpl look ren num, picks (fits_here r denv mac env) (rules r) x pat tmpl /\
    instance (ellipsisp r mac) (fun k args => sbox_conv numstr strnum k args env) ren look tmpl out /\
    (forall v t, look v = Some t <-> took (ellipsisp r mac) (literal r) (tail_of pat) (tail_of x) v t) /\
    renaming id_n n' (fun v => occurs (ellipsisp r mac) tmpl v /\ look v = None) num /\
    forall t, inside t tmpl -> sidp t = true -> ellipsisp r mac t = false -> occurs (ellipsisp r mac) tmpl (sid_id t) -> look (sid_id t) = None ->
      sid_id (ren t) = IdNum (num (sid_id t)) /\ sid_name (ren t) = sid_name t /\ lookup_sid (ren t) env = lookup_sid t denv.
Proof.
  intros numstr strnum r denv mac env id_n x out n' L C EB A. assert (CO := compile_compiled _ _ _ L C).
  destruct (apply_cases numstr strnum r denv mac env id_n x CO) as [(pat & tmpl & P) | [_ X]]; [|congruence].
  assert (I : In (pat, tmpl) (rules r)) by (destruct P as (b & a & -> & _); apply in_or_app; right; now left).
  assert (Y : applies (fits_here r denv mac env) pat x) by (destruct P as (b & a & _ & Y & _); exact Y).
  destruct (rule_expansion numstr strnum r denv mac env CO id_n pat tmpl x I Y) as (look & ren & num & n1 & T & R & N & EX & _).
  unfold apply_synrules in A. rewrite (apply_rules_picks numstr strnum r denv mac env CO id_n x (rules r) (fun _ H => H) _ _ P) in A. apply EX in A. destruct A as [-> A].
  exists pat, tmpl, look, ren, num. split; [exact P|]. split; [exact A|]. split; [exact T|]. split; [exact R|].
  intros t J S E O K. rewrite (N t J S E K). cbn [sid_id sid_name]. split; [reflexivity|]. split; [reflexivity|].
  unfold lookup_sid at 1. cbn [sid_id sid_location]. destruct (assv (IdNum (num (sid_id t))) env) as [q|] eqn:Q; [|reflexivity].
  exfalso. apply assv_in in Q. apply EB in Q. destruct R as (_ & R & _). destruct (R _ (conj O K)). lia.
Qed.
Print Assumptions C26_renaming.

(** The identifiers in the result are those of the form and the inserted ones. *)
Theorem C26_inserted : forall numstr strnum r denv mac env id_n x out n' (P : Z -> Prop), locals denv -> compile_syntax_rules r denv = Some mac ->
  (forall s, ids_in P (strnum s)) -> ids_in P x -> apply_synrules numstr strnum r mac env id_n x = Some (out, n') ->
  id_n <= n' /\ ids_in (fun i => P i \/ id_n <= i < n') out.
Proof.
  intros numstr strnum r denv mac env id_n x out n' P L C S B A. apply (apply_below numstr strnum r denv mac env id_n x out n'); try assumption.
  - intros s. eapply below_mono; [|apply S]. auto.
  - now apply compile_compiled.
  - eapply below_mono; [|exact B]. auto.
  - auto.
Qed.
Print Assumptions C26_inserted.

(** If all numbers in the form are below [id_n], those in the result are below the number that the rest of the expansion starts
    from: so every further expansion of the result inserts identifiers that differ from all that occur in it. *)
Theorem C26_fresh : forall numstr strnum r denv mac env id_n x out n', locals denv -> compile_syntax_rules r denv = Some mac ->
  (forall n s, ids_below n (strnum s)) -> ids_below id_n x -> apply_synrules numstr strnum r mac env id_n x = Some (out, n') ->
  id_n <= n' /\ ids_below n' out.
Proof.
  intros numstr strnum r denv mac env id_n x out n' L C S B A. destruct (C26_inserted numstr strnum r denv mac env id_n x out n' _ L C (S id_n) B A) as [H I].
  split; [exact H|]. eapply below_mono; [|exact I]. cbn. lia.
Qed.
Print Assumptions C26_fresh.

(** (syntax-rules () [(_ a b) (let ((tmp a)) (set! a b) (set! b tmp))]) where let has location 3 *)
Definition swap := mksyn None [] [(l [y "_"; y "a"; y "b"], l [y "let"; l [l [y "tmp"; y "a"]]; l [y "set!"; y "a"; y "b"]; l [y "set!"; y "b"; y "tmp"]])].
Definition swap_use := l [y "swap!"; y "tmp"; SRen (codes "u") (IdNum 6) (LSym (codes "u"))].
Example C26_renaming_ex : compile_syntax_rules swap [(IdSym (codes "let"), LInt 3); (IdSym (codes "q"), LInt 4)] = Some [(IdSym (codes "let"), LInt 3)] /\
  apply_synrules nums nonum swap [(IdSym (codes "let"), LInt 3)] [(IdSym (codes "tmp"), LInt 9)] 7 swap_use =
  Some (let u := SRen (codes "u") (IdNum 6) (LSym (codes "u")) in
        let tmp := SRen (codes "tmp") (IdNum 8) (LSym (codes "tmp")) in
        let set := SRen (codes "set!") (IdNum 9) (LSym (codes "set!")) in
        l [SRen (codes "let") (IdNum 7) (LInt 3); l [l [tmp; y "tmp"]]; l [set; y "tmp"; u]; l [set; u; tmp]], 10).
Proof. split; vm_compute; reflexivity. Qed.
Example C26_fresh_ex : ids_below 7 swap_use /\ env_below 7 [(IdSym (codes "tmp"), LInt 9)] /\ forall n s, ids_below n (nonum s).
Proof. split; [cbn; repeat split; reflexivity|]. split; [|intros; exact Logic.I]. intros m q [[=]|[]]. Qed.

(** Different expansions do not always insert different identifiers: two uses side by side get the same ones. *)
Theorem C26_siblings_refuted : exists numstr strnum r mac env id_n x i, compile_syntax_rules r [] = Some mac /\
  forall res, In res (apply_each numstr strnum r mac env id_n [x; x]) -> exists out n, res = Some (out, n) /\ inside (SRen (codes "tmp") (IdNum i) (LSym (codes "tmp"))) out.
Proof.
  exists nums, nonum, swap, [], [], 0, (l [y "swap!"; y "p"; y "q"]), 1. split; [vm_compute; reflexivity|].
  assert (X : apply_each nums nonum swap [] [] 0 [l [y "swap!"; y "p"; y "q"]; l [y "swap!"; y "p"; y "q"]] =
    let tmp := SRen (codes "tmp") (IdNum 1) (LSym (codes "tmp")) in let set := SRen (codes "set!") (IdNum 2) (LSym (codes "set!")) in
    let o := Some (l [SRen (codes "let") (IdNum 0) (LSym (codes "let")); l [l [tmp; y "p"]]; l [set; y "p"; y "q"]; l [set; y "q"; tmp]], 3) in [o; o]) by (vm_compute; reflexivity).
  rewrite X. intros res I. cbv zeta in I. assert (res = Some (l [SRen (codes "let") (IdNum 0) (LSym (codes "let")); l [l [SRen (codes "tmp") (IdNum 1) (LSym (codes "tmp")); y "p"]]; l [SRen (codes "set!") (IdNum 2) (LSym (codes "set!")); y "p"; y "q"]; l [SRen (codes "set!") (IdNum 2) (LSym (codes "set!")); y "q"; SRen (codes "tmp") (IdNum 1) (LSym (codes "tmp"))]], 3)) as ->.
  { destruct I as [<- | [<- | []]]; reflexivity. }
  do 2 eexists. split; [reflexivity|]. apply ins_cdr, ins_car, ins_car, ins_car. constructor.
Qed.
Print Assumptions C26_siblings_refuted.
