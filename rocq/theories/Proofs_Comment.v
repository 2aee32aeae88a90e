(** Comments. *)
From Coq Require Import ZArith String List Bool Lia.
From Verif Require Import Base Model_Lit Model_Sym Model_Roots Model_Comment Spec_Mangle Spec_Comment.
Import ListNotations.
Open Scope Z_scope.

Lemma splice_cons c s : (c = 92 -> forall r, s <> 10 :: r) -> splice (c :: s) = c :: splice s.
Proof.
  intros H. destruct (Z.eq_dec c 92) as [->|N].
  - destruct s as [|d r]; [reflexivity|]. destruct (Z.eq_dec d 10) as [->|N']; [now destruct (H eq_refl r)|]. cbn [splice]. repeat (destruct d as [|d|d]; try reflexivity; try easy).
  - cbn [splice]. repeat (destruct c as [|c|c]; try reflexivity; try easy).
Qed.
Lemma splice_join r : splice (92 :: 10 :: r) = splice r.
Proof. reflexivity. Qed.
(** texts without backslashes *)
Lemma splice_plain p s : Forall (fun c => c <> 92) p -> splice (p ++ s) = p ++ splice s.
Proof. induction 1 as [|c p N _ IH]; [reflexivity|]. cbn [app]. rewrite splice_cons by congruence. now rewrite IH. Qed.
Lemma splice_app : forall n s c r, (length s < n)%nat -> c <> 10 -> splice (s ++ c :: r) = splice s ++ splice (c :: r).
Proof.
  induction n as [|n IH]; intros s c r L N; [lia|]. destruct s as [|d s]; [reflexivity|]. cbn in L. destruct (Z.eq_dec d 92) as [->|Nd].
  - destruct s as [|d2 s]; [cbn [app]; rewrite (splice_cons 92); [reflexivity | intros _ q [=]; congruence]|]. destruct (Z.eq_dec d2 10) as [->|N2].
    + cbn [app]. rewrite !splice_join. apply IH; [cbn in L; lia | assumption].
    + cbn [app]. rewrite !(splice_cons 92) by (intros _ q [=]; congruence). change (d2 :: s ++ c :: r) with ((d2 :: s) ++ c :: r). cbn [app]. f_equal. apply (IH (d2 :: s)); [cbn in *; lia | assumption].
  - cbn [app]. rewrite !(splice_cons d) by congruence. cbn [app]. f_equal. apply IH; [lia | assumption].
Qed.
Lemma splice_space s r : splice (s ++ 32 :: r) = splice s ++ 32 :: splice r.
Proof. rewrite (splice_app (S (length s)) s 32 r); [|lia|discriminate]. now rewrite (splice_cons 32) by discriminate. Qed.

Definition quiet (s : list Z) : Prop := forall a b, s <> a ++ [42; 47] ++ b.
Lemma quiet_cons c s : quiet (c :: s) -> quiet s.
Proof. intros Q a b ->. now apply (Q (c :: a) b). Qed.
Lemma strip_block c s : (c = 42 -> forall r, s <> 47 :: r) -> strip Block (c :: s) = strip Block s.
Proof.
  intros H. destruct (Z.eq_dec c 42) as [->|N].
  - destruct s as [|d r]; [reflexivity|]. destruct (Z.eq_dec d 47) as [->|N']; [now destruct (H eq_refl r)|]. cbn [strip]. repeat (destruct d as [|d|d]; try reflexivity; try easy).
  - cbn [strip]. repeat (destruct c as [|c|c]; try reflexivity; try easy).
Qed.
Lemma strip_end r : strip Block (42 :: 47 :: r) = strip Code r.
Proof. reflexivity. Qed.
Lemma strip_quiet u r : quiet u -> strip Block (u ++ 32 :: r) = strip Block r.
Proof.
  induction u as [|c u IH]; intros Q; [reflexivity|]. cbn [app]. rewrite strip_block; [now apply IH, (quiet_cons c)|]. intros -> q E. destruct u as [|d u]; cbn in E; [discriminate|]. injection E as -> E. now apply (Q [] u).
Qed.
(** code without quotes and slashes *)
Definition ordinary (c : Z) : Prop := c <> 34 /\ c <> 39 /\ c <> 47 /\ c <> 92.
Lemma strip_code c s : ordinary c -> strip Code (c :: s) = option_map (cons c) (strip Code s).
Proof.
  intros (A & B & C & D). assert (E : (c =? 34) || (c =? 39) = false) by (apply orb_false_intro; now apply Z.eqb_neq).
  transitivity (option_map (cons c) (strip (if (c =? 34) || (c =? 39) then Quoted c else Code) s)); [|now rewrite E].
  clear - C. cbn [strip]. repeat (destruct c as [|c|c]; try reflexivity; try easy).
Qed.
Lemma strip_ordinary p s : Forall ordinary p -> strip Code (p ++ s) = option_map (app p) (strip Code s).
Proof.
  induction 1 as [|c p O _ IH]; [cbn; now destruct (strip Code s)|]. cbn [app]. rewrite strip_code, IH by assumption. now destruct (strip Code s).
Qed.
Lemma ordinary_plain p : Forall ordinary p -> Forall (fun c => c <> 92) p.
Proof. intros H. eapply Forall_impl; [|exact H]. intros c (_ & _ & _ & N). exact N. Qed.
Lemma ident_ordinary c : c_letter c \/ c_digit c -> ordinary c.
Proof. unfold c_letter, c_digit, ordinary. lia. Qed.
Lemma quiet_ends s : ~ ends_comment s <-> quiet (splice s).
Proof. unfold ends_comment, quiet. split; [intros H a b E; apply H; eauto | intros H (a & b & E); now apply (H a b)]. Qed.

(** ** A comment: "/* " s " */" *)
Lemma comment_read pre s : Forall ordinary pre -> ~ ends_comment s -> forall rest,
  as_read (pre ++ [47; 42; 32] ++ s ++ [32; 42; 47] ++ rest) = option_map (fun t => pre ++ 32 :: t) (as_read rest).
Proof.
  intros O Q rest. apply quiet_ends in Q. unfold as_read. rewrite splice_plain by now apply ordinary_plain. change ([47; 42; 32] ++ s ++ [32; 42; 47] ++ rest) with ([47; 42; 32] ++ (s ++ [32; 42; 47] ++ rest)).
  rewrite (splice_plain [47; 42; 32]) by (repeat constructor; discriminate). change (s ++ [32; 42; 47] ++ rest) with (s ++ 32 :: ([42; 47] ++ rest)). rewrite splice_space, (splice_plain [42; 47]) by (repeat constructor; discriminate).
  rewrite strip_ordinary by assumption. change (strip Code ([47; 42; 32] ++ splice s ++ 32 :: [42; 47] ++ splice rest)) with (option_map (cons 32) (strip Block (32 :: splice s ++ 32 :: [42; 47] ++ splice rest))).
  rewrite strip_block by discriminate. rewrite strip_quiet by assumption. change ([42; 47] ++ splice rest) with (42 :: 47 :: splice rest). rewrite strip_end. now destruct (strip Code (splice rest)).
Qed.
Lemma quiet_app u w : quiet u -> quiet w -> quiet (u ++ 32 :: w).
Proof.
  induction u as [|c u IH]; intros Qu Qw a b E.
  - destruct a as [|x a]; [discriminate|]. injection E as _ E. now apply (Qw a b).
  - destruct a as [|x a].
    + injection E as -> E. destruct u as [|d u]; [discriminate|]. injection E as -> E. now apply (Qu [] u).
    + injection E as _ E. apply (IH (quiet_cons _ _ Qu) Qw a b E).
Qed.
Lemma ends_app s t : ~ ends_comment s -> ~ ends_comment t -> ~ ends_comment (s ++ 32 :: t).
Proof. rewrite !quiet_ends, splice_space. apply quiet_app. Qed.
Lemma names_ok : forall ns, ns <> [] -> Forall (fun n => ~ ends_comment n) ns -> exists w, names_text ns = w ++ [32] /\ ~ ends_comment w.
Proof.
  induction ns as [|n [|n' ns] IH]; intros N F; [easy | |].
  - exists n. inversion F; subst. split; [|assumption]. unfold names_text. cbn. now rewrite app_nil_r.
  - inversion F as [|? ? Fn Fr]; subst. destruct IH as (w & E & Q); [discriminate | assumption|]. exists (n ++ 32 :: w). split; [|now apply ends_app].
    change (names_text (n :: n' :: ns)) with ((n ++ [32]) ++ names_text (n' :: ns)). rewrite E, <- !app_assoc. reflexivity.
Qed.
Lemma label_read ns rest : Forall (fun n => ~ ends_comment n) ns -> as_read (label_text ns ++ rest) = option_map (cons 32) (as_read rest).
Proof.
  intros F. destruct ns as [|n ns].
  - unfold label_text, names_text. cbn [map concat app]. change ((codes "/* " ++ codes "*/") ++ rest) with ([47; 42; 32; 42; 47] ++ rest). unfold as_read. rewrite splice_plain by (repeat constructor; discriminate). reflexivity.
  - destruct (names_ok (n :: ns)) as (w & E & Q); [discriminate | assumption|]. unfold label_text. rewrite E.
    replace ((codes "/* " ++ (w ++ [32]) ++ codes "*/") ++ rest) with ([] ++ [47; 42; 32] ++ w ++ [32; 42; 47] ++ rest) by (cbn; now rewrite <- !app_assoc). exact (comment_read [] w (Forall_nil _) Q rest).
Qed.
Lemma newline_read rest : as_read (10 :: rest) = option_map (cons 10) (as_read rest).
Proof. unfold as_read. rewrite splice_cons by discriminate. apply strip_code. unfold ordinary. lia. Qed.
Lemma case_read g ns rest : Forall (fun n => ~ ends_comment n) ns -> (forall s, g = Some s -> ~ ends_comment s) -> as_read (case_text g ns ++ rest) = option_map (fun t => 32 :: 32 :: 10 :: t) (as_read rest).
Proof.
  intros F G. set (s := match g with Some s => s | None => codes "clo" end).
  assert (Q : ~ ends_comment s). { unfold s. destruct g as [s'|]; [now apply G|]. intros (a & b & E). vm_compute in E. destruct a as [|? [|? [|? [|]]]]; discriminate. }
  assert (X : exists w, s ++ [32] ++ names_text ns = w ++ [32] /\ ~ ends_comment w).
  { destruct ns as [|n ns]; [exists s; unfold names_text; cbn [map concat]; now rewrite app_nil_r|]. destruct (names_ok (n :: ns)) as (w & E & W); [discriminate | assumption|]. exists (s ++ 32 :: w). rewrite E. split; [|now apply ends_app]. rewrite <- app_assoc. reflexivity. }
  destruct X as (w & E & W). unfold case_text. fold s.
  replace ((codes " /* " ++ s ++ [32] ++ names_text ns ++ codes "*/" ++ [10]) ++ rest) with ([32] ++ [47; 42; 32] ++ w ++ [32; 42; 47] ++ 10 :: rest).
  - rewrite comment_read by (try assumption; repeat constructor; discriminate). rewrite newline_read. now destruct (as_read rest).
  - transitivity (codes " /* " ++ (s ++ [32] ++ names_text ns) ++ codes "*/" ++ 10 :: rest); [|rewrite <- !app_assoc; reflexivity]. rewrite E, <- !app_assoc. reflexivity.
Qed.
Lemma function_read s rest : ~ ends_comment s -> as_read (function_text s ++ rest) = option_map (fun t => 32 :: 10 :: t) (as_read rest).
Proof.
  intros Q. unfold function_text. replace ((codes "/* " ++ s ++ codes " */" ++ [10]) ++ rest) with ([] ++ [47; 42; 32] ++ s ++ [32; 42; 47] ++ 10 :: rest) by (rewrite <- !app_assoc; reflexivity).
  rewrite comment_read by (auto; constructor). rewrite newline_read. now destruct (as_read rest).
Qed.
Definition decl_head (d : decl) : list Z := match d with DStatic => codes "static obj " | DHere => codes "obj " | DExtern => codes "extern obj " end.
Lemma decl_read d m s rest : Forall (fun c => c_letter c \/ c_digit c) m -> ~ ends_comment s ->
  as_read (decl_text d m s ++ rest) = option_map (fun t => decl_head d ++ m ++ codes ";  " ++ 10 :: t) (as_read rest).
Proof.
  intros M Q. assert (Om : Forall ordinary m) by (eapply Forall_impl; [|exact M]; apply ident_ordinary).
  assert (K : forall s', ~ ends_comment s' -> as_read ((decl_head d ++ m ++ codes "; ") ++ [47; 42; 32] ++ s' ++ [32; 42; 47] ++ 10 :: rest) = option_map (fun t => decl_head d ++ m ++ codes ";  " ++ 10 :: t) (as_read rest)).
  { intros s' Q'. rewrite comment_read; [| |assumption].
    - rewrite newline_read. destruct (as_read rest); [|reflexivity]. cbn [option_map]. f_equal. now rewrite <- !app_assoc.
    - rewrite !Forall_app. split; [destruct d; repeat constructor; discriminate | split; [assumption | repeat constructor; discriminate]]. }
  destruct d; cbn [decl_text decl_head] in *.
  - rewrite <- (K (codes "constant " ++ s)); [rewrite <- !app_assoc; reflexivity|]. change (codes "constant " ++ s) with (codes "constant" ++ 32 :: s). apply ends_app; [|assumption]. intros (a & b & E). vm_compute in E.
    do 9 (destruct a as [|? a]; [discriminate|]). discriminate.
  - rewrite <- (K s Q). rewrite <- !app_assoc. reflexivity.
  - rewrite <- (K s Q). rewrite <- !app_assoc. reflexivity.
Qed.
