(** C25: tests and operations in boxes; what is an ellipsis. *)
From Coq Require Import ZArith String List Bool Lia.
From Verif Require Import Model_Lit Model_Core Model_Beta Model_Syntax Spec_SynBox.
Import ListNotations.
Open Scope Z_scope.

Lemma list_form_slist l : list_form l = slist l.
Proof. induction l; cbn; congruence. Qed.
Lemma elements_inv x : forall l, elements x = Some l -> x = list_form l.
Proof.
  induction x; intros l0 E; try discriminate; cbn in E.
  - now injection E as <-.
  - destruct (elements x2) as [d|] eqn:E2; [|discriminate]. injection E as <-. cbn. now rewrite (IHx2 d eq_refl).
Qed.
Lemma elements_list l : elements (list_form l) = Some l.
Proof. induction l as [|a l IH]; cbn; [reflexivity|]. now rewrite IH. Qed.
Lemma chars_inv x : forall s, chars x = Some s -> x = list_form (map SChr s).
Proof.
  induction x; intros s0 E; try discriminate; cbn in E; [now injection E as <-|]. destruct x1; try discriminate.
  destruct (chars x2) as [d|] eqn:E2; [|discriminate]. injection E as <-. cbn. now rewrite (IHx2 d eq_refl).
Qed.
Lemma chars_list s : chars (list_form (map SChr s)) = Some s.
Proof. induction s as [|c s IH]; cbn; [reflexivity|]. now rewrite IH. Qed.
Lemma strings_inv x : forall s, strings x = Some s -> exists ss, x = list_form (map SStr ss) /\ s = concat ss.
Proof.
  induction x; intros s0 E; try discriminate; cbn in E; [injection E as <-; now exists []|]. destruct x1 as [| | | | | | |s1| | |]; try discriminate.
  destruct (strings x2) as [d|] eqn:E2; [|discriminate]. injection E as <-. destruct (IHx2 d eq_refl) as (ss & -> & ->). now exists (s1 :: ss).
Qed.
Lemma strings_list ss : strings (list_form (map SStr ss)) = Some (concat ss).
Proof. induction ss as [|c ss IH]; cbn; [reflexivity|]. now rewrite IH. Qed.
Lemma numbers_inv f z x : forall r, numbers f z x = Some r -> exists zs, x = list_form (map SNum zs) /\ r = fold_right f z zs.
Proof.
  induction x; intros s0 E; try discriminate; cbn in E; [injection E as <-; now exists []|]. destruct x1 as [| | | | | |n| | | |]; try discriminate.
  destruct (numbers f z x2) as [d|] eqn:E2; [|discriminate]. injection E as <-. destruct (IHx2 d eq_refl) as (ss & -> & ->). now exists (n :: ss).
Qed.
Lemma numbers_list f z zs : numbers f z (list_form (map SNum zs)) = Some (fold_right f z zs).
Proof. induction zs as [|c zs IH]; cbn; [reflexivity|]. now rewrite IH. Qed.
Lemma list_form_inj l : forall l', list_form l = list_form l' -> l = l'.
Proof. induction l as [|a l IH]; intros [|b l'] E; try discriminate; [reflexivity|]. injection E as -> E. now rewrite (IH _ E). Qed.
Lemma sidp_form x : sidp x = true <-> ident_form x.
Proof. split; [destruct x; try discriminate; constructor | destruct 1; reflexivity]. Qed.

(** A box of a pattern admits exactly the forms its test is about. *)
Theorem C25_tests : forall b k p x, pattern_sbox b = Some (codes k, p) -> (sbox_test (codes k) x = true <-> tests k x).
Proof.
  intros b k p x B.
  assert (K : k = "number?"%string \/ k = "string?"%string \/ k = "id?"%string).
  { assert (Inj : forall a c, codes a = codes c -> a = c). { clear. induction a as [|h a IH]; intros [|h' c] E; try discriminate; [reflexivity|]. cbn in E. injection E as E1 E2.
      rewrite (IH _ E2). f_equal. rewrite <- (Ascii.ascii_N_embedding h), <- (Ascii.ascii_N_embedding h'). f_equal. lia. }
    destruct b as [| | | | |y | | | | |]; try discriminate. destruct y as [|a d| | | | | | | | |]; try discriminate. destruct a as [| |q| | | | | | | |]; try discriminate.
    destruct d as [|a d| | | | | | | | |]; try discriminate. destruct d; try discriminate. unfold pattern_sbox in B.
    destruct (zlist_dec q (codes "number?")) as [->|]; [injection B as B _; left; symmetry; now apply Inj|].
    destruct (zlist_dec q (codes "string?")) as [->|]; [injection B as B _; right; left; symmetry; now apply Inj|].
    destruct (zlist_dec q (codes "id?")) as [->|]; [injection B as B _; right; right; symmetry; now apply Inj | discriminate]. }
  destruct K as [-> | [-> | -> ]]; vm_compute codes; unfold sbox_test; cbn [zlist_dec].
  - split; [destruct x; try discriminate; constructor | inversion 1; reflexivity].
  - split; [destruct x; try discriminate; constructor | inversion 1; reflexivity].
  - change (sidp x = true <-> tests "id?" x). rewrite sidp_form. split; [now constructor | now inversion 1].
Qed.
Print Assumptions C25_tests.
Example C25_tests_ex : pattern_sbox (SBox (SCons (SSym (codes "string?")) (SCons (SSym (codes "x")) SNil))) = Some (codes "string?", SSym (codes "x")) /\
  tests "string?" (SStr [65]) /\ ~ tests "string?" (SChr 65).
Proof. split; [vm_compute; reflexivity|]. split; [constructor | inversion 1]. Qed.

Lemma codes_inj a : forall c, codes a = codes c -> a = c.
Proof.
  induction a as [|h a IH]; intros [|h' c] E; try discriminate; [reflexivity|]. cbn in E. injection E as E1 E2.
  rewrite (IH _ E2). f_equal. rewrite <- (Ascii.ascii_N_embedding h), <- (Ascii.ascii_N_embedding h'). f_equal. lia.
Qed.
Lemma sym_in_In k l : sym_in (codes k) l = true -> In k l.
Proof.
  unfold sym_in. intros E. apply existsb_exists in E. destruct E as (s & I & Q). destruct (zlist_dec (codes k) (codes s)) as [X|]; [|discriminate].
  now rewrite (codes_inj _ _ X).
Qed.
Definition box_names : list string := ["number->string"; "string->number"; "list->string"; "string->list"; "length"; "string-append"; "+"; "*"; "id->string"; "string->id"]%string.
Definition one_operand (k : string) : bool := negb (existsb (String.eqb k) ["string-append"; "+"; "*"]%string).
Lemma box_name k args : template_sboxp (SBox (SCons (SSym (codes k)) args)) = true -> In k box_names /\ (one_operand k = true -> exists x, args = SCons x SNil).
Proof.
  unfold template_sboxp. intros T.
  assert (L1 : list1p args = true -> exists x, args = SCons x SNil). { clear. destruct args as [|x d| | | | | | | | |]; try discriminate. destruct d; try discriminate. eauto. }
  destruct (sym_in (codes k) ["number->string"; "string->number"; "list->string"; "string->list"; "length"]%string) eqn:A.
  { apply sym_in_In in A. split; [|now auto]. unfold box_names. cbn in A |- *. tauto. }
  destruct (sym_in (codes k) ["string-append"; "+"; "*"]%string) eqn:B.
  { apply sym_in_In in B. split; [unfold box_names; cbn in B |- *; tauto|]. cbn in B. destruct B as [<- | [<- | [<- | []]]]; discriminate. }
  destruct (sym_in (codes k) ["id->string"; "string->id"]%string) eqn:C; [|discriminate].
  apply sym_in_In in C. split; [unfold box_names; cbn in C |- *; tauto | now auto].
Qed.
Lemma maps_one (f : list Z -> sexp) args : forall ss, list_form args = list_form (map f ss) -> args = map f ss.
Proof. intros ss. apply list_form_inj. Qed.

(** A box of a template does what its operation says, and fails if the operands are not as the operation wants them. *)
Theorem C25_operations : forall numstr strnum env k args r, template_sboxp (SBox (SCons (SSym (codes k)) (list_form args))) = true ->
  (sbox_conv numstr strnum (codes k) (list_form args) env = Some r <-> performs numstr strnum (fun s => lookup_sid (SSym s) env) k args r).
Proof.
  intros numstr strnum env k args r T. destruct (box_name _ _ T) as (I & One).
  assert (A : one_operand k = true -> exists x, args = [x]).
  { intros O. destruct (One O) as (x & E). exists x. apply (list_form_inj _ [x]). exact E. }
  clear T One. unfold box_names in I. cbn [In] in I.
  repeat (destruct I as [<-|I]); [..|destruct I];
    (match type of A with one_operand ?s = true -> _ => let v := eval vm_compute in (one_operand s) in
       match v with true => destruct (A eq_refl) as (x & ->) | false => idtac end end); clear A.
  - change (match x with SNum n => Some (SStr (numstr n)) | _ => None end = Some r <-> performs numstr strnum (fun s => lookup_sid (SSym s) env) "number->string" [x] r).
    split; [destruct x; try discriminate; intros [= <-]; constructor | inversion 1; reflexivity].
  - change (match x with SStr s => Some (strnum s) | _ => None end = Some r <-> performs numstr strnum (fun s => lookup_sid (SSym s) env) "string->number" [x] r).
    split; [destruct x; try discriminate; intros [= <-]; constructor | inversion 1; reflexivity].
  - change (option_map SStr (chars x) = Some r <-> performs numstr strnum (fun s => lookup_sid (SSym s) env) "list->string" [x] r). split.
    + destruct (chars x) as [s|] eqn:E; [|discriminate]. intros [= <-]. rewrite (chars_inv _ _ E). constructor.
    + inversion 1; subst. now rewrite chars_list.
  - change (match x with SStr s => Some (slist (map SChr s)) | _ => None end = Some r <-> performs numstr strnum (fun s => lookup_sid (SSym s) env) "string->list" [x] r).
    split; [destruct x; try discriminate; intros [= <-]; rewrite <- list_form_slist; apply pf_sl | inversion 1; subst; f_equal; symmetry; apply list_form_slist].
  - change (option_map (fun l => SNum (Z.of_nat (List.length l))) (elements x) = Some r <-> performs numstr strnum (fun s => lookup_sid (SSym s) env) "length" [x] r). split.
    + destruct (elements x) as [s|] eqn:E; [|discriminate]. intros [= <-]. rewrite (elements_inv _ _ E). constructor.
    + inversion 1; subst. now rewrite elements_list.
  - change (option_map SStr (strings (list_form args)) = Some r <-> performs numstr strnum (fun s => lookup_sid (SSym s) env) "string-append" args r). split.
    + destruct (strings (list_form args)) as [s|] eqn:E; [|discriminate]. intros [= <-]. destruct (strings_inv _ _ E) as (ss & E2 & ->). rewrite (list_form_inj _ _ E2). constructor.
    + inversion 1; subst. now rewrite strings_list.
  - change (option_map SNum (numbers Z.add 0 (list_form args)) = Some r <-> performs numstr strnum (fun s => lookup_sid (SSym s) env) "+" args r). split.
    + destruct (numbers Z.add 0 (list_form args)) as [s|] eqn:E; [|discriminate]. intros [= <-]. destruct (numbers_inv _ _ _ _ E) as (ss & E2 & ->). rewrite (list_form_inj _ _ E2). constructor.
    + inversion 1; subst. now rewrite numbers_list.
  - change (option_map SNum (numbers Z.mul 1 (list_form args)) = Some r <-> performs numstr strnum (fun s => lookup_sid (SSym s) env) "*" args r). split.
    + destruct (numbers Z.mul 1 (list_form args)) as [s|] eqn:E; [|discriminate]. intros [= <-]. destruct (numbers_inv _ _ _ _ E) as (ss & E2 & ->). rewrite (list_form_inj _ _ E2). constructor.
    + inversion 1; subst. now rewrite numbers_list.
  - change ((if sidp x then Some (SStr (sid_name x)) else None) = Some r <-> performs numstr strnum (fun s => lookup_sid (SSym s) env) "id->string" [x] r).
    split; [destruct x; try discriminate; intros [= <-]; constructor | inversion 1; reflexivity].
  - change (match x with SStr s => Some (make_sid s (IdSym s) (match assv (IdSym s) env with Some l => l | None => LSym s end)) | _ => None end = Some r <->
      performs numstr strnum (fun s => lookup_sid (SSym s) env) "string->id" [x] r).
    split; [destruct x as [| | | | | | |s| | |]; try discriminate; intros [= <-]; apply (pf_si numstr strnum (fun s => lookup_sid (SSym s) env)) | inversion 1; reflexivity].
Qed.
Print Assumptions C25_operations.
Example C25_operations_ex : template_sboxp (SBox (SCons (SSym (codes "*")) (list_form [SNum 6; SNum 7]))) = true /\
  performs (fun z => [z]) SStr LSym "*" [SNum 6; SNum 7] (SNum 42) /\ forall r, ~ performs (fun z => [z]) SStr LSym "*" [SNum 6; SChr 7] r.
Proof.
  split; [vm_compute; reflexivity|]. split; [apply (pf_product _ _ _ [6; 7])|]. intros r H. inversion H as [| | | | | | |zs E| | |]. destruct zs as [|? [|? ?]]; discriminate.
Qed.

(** An identifier is an ellipsis if it is the one named by the rules, whatever other identifiers of that name there are; or,
    if the rules name none, if it means the ellipsis of the standard. *)
Theorem C25_dots : forall r env x, ellipsisp r env x = true <->
  ident_form x /\ (ell_id r = Some (sid_id x) \/ ell_id r = None /\ lookup_sid x env = LSym (codes "...")).
Proof.
  intros r env x. unfold ellipsisp. rewrite andb_true_iff, sidp_form. unfold ident_eqb, loc_eqb, the_dots.
  destruct (ell_id r) as [i|].
  - destruct (ident_dec i (sid_id x)) as [->|N]; split; intros (A & B); split; auto; try discriminate. destruct B as [[= B]|(B & _)]; congruence.
  - destruct (loc_dec (LSym (codes "...")) (lookup_sid x env)) as [E|N]; split; intros (A & B); split; auto; try discriminate. destruct B as [B|(_ & B)]; congruence.
Qed.
Print Assumptions C25_dots.
Example C25_dots_ex : let r := mksyn (Some (IdNum 4)) [] [] in
  ellipsisp r [] (SRen (codes "etc") (IdNum 4) (LSym (codes "etc"))) = true /\ ellipsisp r [] (SRen (codes "etc") (IdNum 5) (LSym (codes "etc"))) = false /\
  ellipsisp r [] (SSym (codes "...")) = false.
Proof. vm_compute. auto. Qed.
