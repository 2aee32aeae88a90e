(** The reader returns on every plain text. *)
From Coq Require Import ZArith String List Bool Lia.
From Verif Require Import Base Model_Sym Model_Num Spec_Num Proofs_Num Model_Lit Spec_Lit Proofs_Lit Model_Read Spec_Read Proofs_Sym.
Import ListNotations.
Open Scope Z_scope.

Definition sub (i' i : text) : Prop := exists a, i = a ++ i'.
Definition ssub (i' i : text) : Prop := exists a, a <> [] /\ i = a ++ i'.
Lemma sub_refl i : sub i i. Proof. now exists []. Qed.
Lemma sub_trans a b c : sub a b -> sub b c -> sub a c.
Proof. intros [x ->] [y ->]. exists (y ++ x). now rewrite app_assoc. Qed.
Lemma ssub_sub a b : ssub a b -> sub a b. Proof. intros [x [_ ->]]. now exists x. Qed.
Lemma ssub_sub_trans a b c : ssub a b -> sub b c -> ssub a c.
Proof. intros [x [N ->]] [y ->]. exists (y ++ x). split; [|now rewrite app_assoc]. destruct y, x; try discriminate; contradiction. Qed.
Lemma sub_ssub_trans a b c : sub a b -> ssub b c -> ssub a c.
Proof. intros [x ->] [y [N ->]]. exists (y ++ x). split; [|now rewrite app_assoc]. destruct y; [contradiction|discriminate]. Qed.
Lemma ssub_cons c i : ssub i (c :: i). Proof. exists [c]. split; [discriminate|reflexivity]. Qed.
Lemma sub_cons c i' i : sub i' i -> ssub i' (c :: i).
Proof. intros S. exact (sub_ssub_trans _ _ _ S (ssub_cons c i)). Qed.
Lemma ssub_len a b : ssub a b -> (List.length a < List.length b)%nat.
Proof. intros [x [N ->]]. rewrite app_length. destruct x; [contradiction|cbn; lia]. Qed.
Lemma sub_len a b : sub a b -> (List.length a <= List.length b)%nat.
Proof. intros [x ->]. rewrite app_length. lia. Qed.
#[export] Hint Resolve sub_refl ssub_sub ssub_cons sub_cons : sub.

Lemma prefix_eq : forall h i i', input_prefix i h = Some i' -> i = h ++ i'.
Proof.
  induction h as [|c h IH]; intros [|x i] i' H; cbn [input_prefix] in H; try (now injection H as <-); [discriminate|]. destruct (Z.eqb_spec x c) as [->|]; [|discriminate]. cbn [app]. f_equal. now apply IH.
Qed.
Lemma prefix_sub h i i' : input_prefix i h = Some i' -> sub i' i.
Proof. intros H. apply prefix_eq in H. now exists h. Qed.
Lemma prefix_ssub c h i i' : input_prefix i (c :: h) = Some i' -> ssub i' i.
Proof. intros H. apply prefix_eq in H. exists (c :: h). split; [discriminate|assumption]. Qed.
Lemma prefix_ci_sub : forall h i i', input_prefix_ci i h = Some i' -> sub i' i.
Proof.
  induction h as [|c h IH]; intros [|x i] i' H; cbn [input_prefix_ci] in H; try (injection H as <-; auto with sub; fail); [discriminate|]. destruct (_ =? _); [|discriminate]. apply ssub_sub, sub_cons, IH, H.
Qed.
Lemma prefix_ci_ssub c h i i' : input_prefix_ci i (c :: h) = Some i' -> ssub i' i.
Proof.
  destruct i as [|x i]; cbn [input_prefix_ci]; [discriminate|]. destruct (_ =? _); [|discriminate]. intros H. apply sub_cons, (prefix_ci_sub _ _ _ H).
Qed.
Lemma dprefix_inv i h i' : delimited_prefix i h = Some i' -> input_prefix i h = Some i' /\ delimited i' = true.
Proof. unfold delimited_prefix. destruct (input_prefix i h) as [j|]; [|discriminate]. destruct (delimited j) eqn:D; [|discriminate]. intros E. injection E as ->. now split. Qed.
Lemma dprefix_ssub c h i i' : delimited_prefix i (c :: h) = Some i' -> ssub i' i.
Proof. intros H. apply dprefix_inv in H. destruct H as [H _]. exact (prefix_ssub _ _ _ _ H). Qed.
Lemma dprefix_ci_ssub c h i i' : delimited_prefix_ci i (c :: h) = Some i' -> ssub i' i.
Proof.
  unfold delimited_prefix_ci. destruct (input_prefix_ci i (c :: h)) as [j|] eqn:E; [|discriminate]. destruct (delimited j); [|discriminate].
  intros H. injection H as ->. exact (prefix_ci_ssub _ _ _ _ E).
Qed.
Lemma span_app p : forall i a b, span p i = (a, b) -> i = a ++ b /\ forallb p a = true /\ match b with c :: _ => p c = false | [] => True end.
Proof.
  induction i as [|c i IH]; intros a b H; cbn [span] in H; [injection H as <- <-; auto|].
  destruct (p c) eqn:P.
  - destruct (span p i) as [x y] eqn:E. injection H as <- <-. destruct (IH x y eq_refl) as [-> [F N]]. cbn [app forallb]. rewrite P. auto.
  - injection H as <- <-. auto.
Qed.
Lemma span_sub p i a b : span p i = (a, b) -> sub b i.
Proof. intros H. apply span_app in H. destruct H as [-> _]. now exists a. Qed.

(** ** data *)
Lemma ordinary_datum t l : In t ordinary_types -> ordinary (datum t l).
Proof. intros I. exists t, (xlist l). split; [exact I|reflexivity]. Qed.
Ltac ordi := apply ordinary_datum; vm_compute; tauto.
Lemma chars_datum_ord t l : In t ordinary_types -> ordinary (chars_datum t l).
Proof. intros I. unfold chars_datum. destruct (_ && _); now apply ordinary_datum. Qed.
Lemma char_datum_ord c : ordinary (char_datum c).
Proof. unfold char_datum. destruct (_ && _); ordi. Qed.
Definition okres (strict : bool) (i : text) (x : rres (sx * text)) : Prop :=
  match x with
  | ROk (d, i') => ordinary d /\ (if strict then ssub i' i else sub i' i)
  | RErr => True
  | _ => False
  end.
Lemma okres_weak i x : okres true i x -> okres false i x.
Proof. destruct x as [[d j]| | |]; cbn; auto. intros [O S]. auto with sub. Qed.
Lemma okres_sub b i j x : okres b j x -> sub j i -> okres b i x.
Proof.
  destruct x as [[d k]| | |]; cbn; auto. intros [O S] T. split; [exact O|]. destruct b; [exact (ssub_sub_trans _ _ _ S T)|exact (sub_trans _ _ _ S T)].
Qed.
Lemma okres_ssub i j x : okres false j x -> ssub j i -> okres true i x.
Proof. destruct x as [[d k]| | |]; cbn; auto. intros [O S] T. split; [exact O|]. exact (sub_ssub_trans _ _ _ S T). Qed.

(** ** numbers *)
Definition is_int (d : sx) : Prop := exists a b c e, d = datum "integer" [a; b; c; e].
Lemma is_int_ord d : is_int d -> ordinary d. Proof. intros [a [b [c [e ->]]]]. ordi. Qed.
Lemma xint0_int b : is_int (xint0 b). Proof. unfold xint0, is_int. eauto. Qed.
Lemma xint_int x : is_int (xint x). Proof. unfold xint, is_int. eauto. Qed.
Lemma comp_int d : is_int d -> exists x, component d 2 = ROk x. Proof. intros [a [b [c [e ->]]]]. eexists. reflexivity. Qed.
Lemma comp_int3 d : is_int d -> exists x, component d 3 = ROk x. Proof. intros [a [b [c [e ->]]]]. eexists. reflexivity. Qed.
Lemma decimal_datum_ok r a b c : is_int a -> is_int b -> is_int c -> exists d, decimal_datum r a b c = ROk d /\ ordinary d.
Proof.
  intros A B C. unfold decimal_datum. destruct (comp_int a A) as [x1 ->], (comp_int3 a A) as [x2 ->], (comp_int3 b B) as [x3 ->], (comp_int c C) as [x4 ->], (comp_int3 c C) as [x5 ->].
  cbn [Model_Read.rbind]. eexists. split; [reflexivity|ordi].
Qed.
Lemma uinteger_loop_sub radix neg : forall i digits,
  sub (snd (uinteger_loop radix neg i digits)) i /\
  (forall d, fst (uinteger_loop radix neg i digits) = Some d -> digits = [] -> ssub (snd (uinteger_loop radix neg i digits)) i).
Proof.
  induction i as [|c i IH]; intros digits; cbn [uinteger_loop].
  - split; [auto with sub|]. intros d E ->. discriminate E.
  - destruct (char_digit_value c radix).
    + destruct (IH (char_downcase c :: digits)) as [S _]. split; [auto with sub|]. intros. now apply sub_cons.
    + split; [auto with sub|]. intros d E ->. discriminate E.
Qed.
Lemma uinteger_ok radix i neg : okres true i (uinteger radix i neg) /\ (forall d j, uinteger radix i neg = ROk (d, j) -> is_int d).
Proof.
  unfold uinteger. destruct (uinteger_loop_sub radix neg i []) as [S T]. destruct (uinteger_loop radix neg i []) as [[d|] j]; cbn [lift_int okres fst snd] in *.
  - split; [|intros d0 j0 E; injection E as <- <-; apply xint_int]. split; [apply is_int_ord, xint_int|]. exact (T d eq_refl eq_refl).
  - split; [exact I|discriminate].
Qed.
Lemma integer_ok radix i : okres true i (integer radix i) /\ (forall d j, integer radix i = ROk (d, j) -> is_int d).
Proof.
  unfold integer, subread_integer. destruct i as [|c i]; [exact (uinteger_ok radix [] false)|].
  destruct (c =? 43); [|destruct (c =? 45)].
  - destruct (uinteger_ok radix i false) as [A B]. split; [|exact B]. apply okres_weak in A. exact (okres_ssub _ _ _ A (ssub_cons c i)).
  - destruct (uinteger_ok radix i true) as [A B]. split; [|exact B]. apply okres_weak in A. exact (okres_ssub _ _ _ A (ssub_cons c i)).
  - exact (uinteger_ok radix (c :: i) false).
Qed.
Lemma fraction_ok : forall i digits, digits <> [] \/ (exists c i', i = c :: i' /\ char_numeric c = true) ->
  exists d j, decimal_fraction i digits = ROk (d, j) /\ is_int d /\ sub j i.
Proof.
  induction i as [|c i IH]; intros digits H; cbn [decimal_fraction].
  - destruct H as [H|[c [i' [E _]]]]; [|discriminate E]. destruct digits; [contradiction|]. cbn [fraction_datum Model_Read.rbind].
    eexists. eexists. split; [reflexivity|]. split; [|auto with sub]. unfold is_int. eauto.
  - destruct (char_digit_value c 10) eqn:D.
    + destruct (IH (c :: digits) ltac:(left; discriminate)) as [d [j [E [I S]]]]. exists d, j. split; [exact E|]. split; [exact I|]. auto with sub.
    + destruct H as [H|[c0 [i' [E N]]]].
      * destruct digits; [contradiction|]. cbn [fraction_datum Model_Read.rbind]. eexists. eexists. split; [reflexivity|]. split; [|auto with sub]. unfold is_int. eauto.
      * injection E as -> ->. exfalso. unfold char_numeric in N. unfold char_digit_value, char_downcase in D.
        apply andb_prop in N. destruct N as [N1 N2]. apply Z.leb_le in N1, N2.
        destruct (Z.leb_spec 65 c0); [lia|]. cbn [andb] in D.
        destruct (Z.leb_spec 48 c0); [|lia]. destruct (Z.leb_spec c0 57); [|lia]. cbn [andb] in D. destruct (Z.leb_spec 10 (c0 - 48)); [lia|discriminate D].
Qed.
Section Num.
Variable radix : Z.
Lemma suffix_ok d1 d2 i : is_int d1 -> is_int d2 -> okres false i (decimal_suffix radix d1 d2 i).
Proof.
  intros A B. unfold decimal_suffix.
  assert (Z : forall j, okres false j (Model_Read.rbind (decimal_datum (sym "e") d1 d2 (xint0 false)) (fun d => ROk (d, j)))).
  { intros j. destruct (decimal_datum_ok (sym "e") d1 d2 (xint0 false) A B (xint0_int false)) as [d [-> O]]. cbn. auto with sub. }
  destruct i as [|c i]; [apply Z|]. destruct (char_exponent_marker c); [|apply Z].
  destruct (integer_ok radix i) as [K L]. destruct (integer radix i) as [[d3 j]| | |]; cbn [Model_Read.rbind okres] in *; auto.
  cbn [fst snd]. destruct (decimal_datum_ok (XSym [char_downcase c]) d1 d2 d3 A B (L d3 j eq_refl)) as [d [-> O]]. cbn [Model_Read.rbind okres].
  split; [exact O|]. destruct K as [_ K]. eauto using sub_trans, ssub_sub, ssub_cons.
Qed.
Lemma decimal_ok d1 i : is_int d1 ->
  (exists i', input_prefix i (str ".") = Some i') \/ (exists c i', i = c :: i' /\ char_exponent_marker c = true) ->
  okres false i (decimal radix d1 i) /\ (forall i', input_prefix i (str ".") = Some i' -> okres true i (decimal radix d1 i)).
Proof.
  intros A H. unfold decimal. destruct (input_prefix i (str ".")) as [i'|] eqn:P.
  - assert (S : okres true i (match i' with
       | [] => decimal_suffix radix d1 (xint0 false) i'
       | c :: _ => if char_numeric c then Model_Read.rbind (decimal_fraction i' []) (fun di => decimal_suffix radix d1 (fst di) (snd di))
                   else decimal_suffix radix d1 (xint0 false) i' end)).
    { apply prefix_ssub in P. destruct i' as [|c i1]; [exact (okres_ssub _ _ _ (suffix_ok d1 _ [] A (xint0_int false)) P)|].
      destruct (char_numeric c) eqn:N; [|exact (okres_ssub _ _ _ (suffix_ok d1 _ _ A (xint0_int false)) P)].
      destruct (fraction_ok (c :: i1) [] ltac:(right; eauto)) as [d [j [E [I J]]]]. rewrite E. cbn [Model_Read.rbind fst snd].
      pose proof (suffix_ok d1 d j A I) as K. exact (okres_ssub _ _ _ (okres_sub _ _ _ _ K J) P). }
    split; [exact (okres_weak _ _ S)|intros; exact S].
  - split; [|discriminate]. destruct H as [[i' H]|[c [i' [-> C]]]]; [discriminate H|]. rewrite C. apply suffix_ok; [exact A|apply xint0_int].
Qed.
Lemma real_ok i : okres true i (real radix i).
Proof.
  unfold real. destruct (integer_ok radix i) as [K L]. destruct (integer radix i) as [[d1 j]| | |]; cbn [Model_Read.rbind okres] in *; auto.
  destruct K as [O S]. specialize (L d1 j eq_refl).
  destruct (input_prefix j (str "/")) as [k|] eqn:P.
  - destruct (uinteger_ok radix k false) as [K _]. destruct (uinteger radix k false) as [[d2 m]| | |]; cbn [Model_Read.rbind okres] in *; auto.
    cbn [fst snd]. split; [ordi|]. destruct K as [_ K]. apply prefix_sub in P. exact (ssub_sub_trans _ _ _ K (sub_trans _ _ _ P (ssub_sub _ _ S))).
  - destruct ((radix =? 10) && match j with [] => false | c :: _ => char_exponent_marker c end) eqn:E.
    + apply andb_prop in E. destruct E as [_ E]. destruct j as [|c j]; [discriminate E|].
      destruct (decimal_ok d1 (c :: j) L ltac:(right; eauto)) as [D _]. exact (okres_ssub _ _ _ D S).
    + destruct ((radix =? 10) && match input_prefix j (str ".") with Some _ => true | None => false end) eqn:F.
      * apply andb_prop in F. destruct F as [_ F]. destruct (input_prefix j (str ".")) as [k|] eqn:Q; [|discriminate F].
        destruct (decimal_ok d1 j L ltac:(left; eauto)) as [D _]. exact (okres_ssub _ _ _ D S).
      * cbn [okres]. now split.
Qed.
Lemma prefix_tl c d i k : input_prefix i [c; d] = Some k -> exists i', tl i = i' /\ input_prefix i' [d] = Some k /\ ssub i' i.
Proof.
  intros H. apply prefix_eq in H. subst i. exists (d :: k). split; [reflexivity|]. split; [cbn [input_prefix]; rewrite Z.eqb_refl; now destruct k|]. cbn [app]. apply ssub_cons.
Qed.
Lemma naninf_ok i : okres true i (real_naninf radix i).
Proof.
  unfold real_naninf.
  destruct (delimited_prefix i (str "-nan.0")) as [j|] eqn:E1; [apply dprefix_ssub in E1; split; [ordi|exact E1]|].
  destruct (delimited_prefix i (str "+nan.0")) as [j|] eqn:E2; [apply dprefix_ssub in E2; split; [ordi|exact E2]|].
  destruct (delimited_prefix i (str "-inf.0")) as [j|] eqn:E3; [apply dprefix_ssub in E3; split; [ordi|exact E3]|].
  destruct (delimited_prefix i (str "+inf.0")) as [j|] eqn:E4; [apply dprefix_ssub in E4; split; [ordi|exact E4]|].
  destruct ((radix =? 10) && match input_prefix i (str ".") with Some _ => true | None => false end) eqn:F1.
  { apply andb_prop in F1. destruct F1 as [_ F]. destruct (input_prefix i (str ".")) as [k|] eqn:Q; [|discriminate F].
    destruct (decimal_ok (xint0 false) i (xint0_int false) ltac:(left; eauto)) as [_ D]. exact (D k Q). }
  destruct ((radix =? 10) && match input_prefix i (str "+.") with Some _ => true | None => false end) eqn:F2.
  { apply andb_prop in F2. destruct F2 as [_ F]. destruct (input_prefix i (str "+.")) as [k|] eqn:Q; [|discriminate F].
    destruct (prefix_tl 43 46 i k Q) as [i' [-> [P S]]].
    destruct (decimal_ok (xint0 false) i' (xint0_int false) ltac:(left; eauto)) as [D _]. exact (okres_ssub _ _ _ D S). }
  destruct ((radix =? 10) && match input_prefix i (str "-.") with Some _ => true | None => false end) eqn:F3.
  { apply andb_prop in F3. destruct F3 as [_ F]. destruct (input_prefix i (str "-.")) as [k|] eqn:Q; [|discriminate F].
    destruct (prefix_tl 45 46 i k Q) as [i' [-> [P S]]].
    destruct (decimal_ok (xint0 true) i' (xint0_int true) ltac:(left; eauto)) as [D _]. exact (okres_ssub _ _ _ D S). }
  apply real_ok.
Qed.
Lemma complex_ok i : okres true i (complex radix i).
Proof.
  unfold complex.
  destruct (delimited_prefix i (str "+i")) as [j|] eqn:E1; [apply dprefix_ssub in E1; split; [ordi|exact E1]|].
  destruct (delimited_prefix i (str "-i")) as [j|] eqn:E2; [apply dprefix_ssub in E2; split; [ordi|exact E2]|].
  pose proof (naninf_ok i) as K. destruct (real_naninf radix i) as [[d1 j]| | |]; cbn [Model_Read.rbind okres] in *; auto. destruct K as [O S].
  destruct (input_prefix j (str "@")) as [k|] eqn:P1.
  { pose proof (naninf_ok k) as K. destruct (real_naninf radix k) as [[d2 m]| | |]; cbn [Model_Read.rbind okres] in *; auto. cbn [fst snd].
    split; [ordi|]. destruct K as [_ K]. apply prefix_sub in P1. exact (ssub_sub_trans _ _ _ K (sub_trans _ _ _ P1 (ssub_sub _ _ S))). }
  destruct (input_prefix j (str "i")) as [k|] eqn:P2.
  { split; [ordi|]. apply prefix_sub in P2. exact (sub_ssub_trans _ _ _ P2 S). }
  assert (Q : okres true i (Model_Read.rbind (real_naninf radix j) (fun di => Model_Read.rbind (skip_expected (snd di) (str "i")) (fun i' => ROk (datum "rectangular" [d1; fst di], i'))))).
  { pose proof (naninf_ok j) as K. destruct (real_naninf radix j) as [[d2 m]| | |]; cbn [Model_Read.rbind okres] in *; auto. cbn [fst snd].
    unfold skip_expected. destruct (input_prefix m (str "i")) as [q|] eqn:P3; cbn [Model_Read.rbind okres]; auto. split; [ordi|].
    destruct K as [_ K]. apply prefix_sub in P3. exact (sub_ssub_trans _ _ _ (sub_trans _ _ _ P3 (ssub_sub _ _ K)) S). }
  destruct (input_prefix j (str "+")) as [w|]; [exact Q|]. destruct (input_prefix j (str "-")) as [w|]; [exact Q|]. now split.
Qed.
End Num.
Lemma number_ok i e radix : (e = None \/ e = Some "exact"%string \/ e = Some "inexact"%string) -> okres true i (subread_number i e radix).
Proof.
  intros E. unfold subread_number. pose proof (complex_ok radix i) as K. destruct (complex radix i) as [[d j]| | |]; cbn [Model_Read.rbind okres] in *; auto.
  cbn [fst snd]. unfold check_delimited. destruct (delimited j); cbn [Model_Read.rbind okres]; auto. destruct K as [O S]. split; [|exact S].
  destruct E as [-> | [-> | ->]]; [exact O|ordi|ordi].
Qed.

(** ** strings and characters *)
Lemma hex_value_eq : forall i digits,
  hex_value i digits = match uinteger_loop 16 false i digits with (Some d, j) => ROk (id_width d, id_digits d, j) | (None, _) => RErr end.
Proof.
  induction i as [|c i IH]; intros digits; cbn [hex_value uinteger_loop].
  - destruct digits; reflexivity.
  - destruct (char_digit_value c 16); [apply IH|]. destruct digits; reflexivity.
Qed.
Lemma hex_scalar_ok i : match hex_scalar_value i with ROk (n, j) => 0 <= n /\ ssub j i | RErr => True | _ => False end.
Proof.
  unfold hex_scalar_value. rewrite hex_value_eq. destruct (uinteger_loop_sub 16 false i []) as [S T].
  destruct (uinteger_split 16 false ltac:(unfold rok; lia) i []) as (ds & e & Ei & A & He & E). rewrite E in *. rewrite app_nil_r in *.
  destruct (integer_datum false (rev (map char_downcase ds)) 16) as [d|] eqn:D; cbn [Model_Read.rbind fst snd] in *; [|exact I].
  assert (N : ds <> []) by (intros ->; discriminate D).
  destruct (datum_of 16 false ds ltac:(vm_compute; tauto) A N) as (d' & Ed & Hneg & Hd). rewrite D in Ed. injection Ed as <-.
  destruct Hd as (n & Hn & Hnorm & Ev & Hrad & Hw). rewrite Hneg in Ev.
  destruct (id_width d) as [w|]; [|exact I]. destruct (Z.ltb_spec 24 w) as [|W]; [exact I|].
  assert (R : infx 8388608 n).
  { destruct Hw as (Iw & F & _). assert (2 ^ (w - 1) <= 2 ^ 23) by (apply Z.pow_le_mono_r; lia). unfold fits in F. unfold infx. change (2 ^ 23) with 8388608 in H. lia. }
  assert (Q : string_to_fixnum 8388608 (id_digits d) 16 = Some n).
  { apply string_to_fixnum_iff; [lia|lia| |].
    - apply (numeral_no_prefix 16 _ n ltac:(lia)). now apply num_pos.
    - split; [|exact R]. apply numeral_c. now apply num_pos. }
  rewrite Q. split; [|exact (T d eq_refl eq_refl)]. rewrite <- Ev. apply valfrom_nonneg; [lia|exact A|lia].
Qed.
Lemma escape_ok i : match string_escape i with ROk (_, j) => ssub j i | RErr => True | _ => False end.
Proof.
  unfold string_escape. destruct i as [|c i]; [exact I|].
  repeat match goal with |- context[if ?b then _ else _] => destruct b end; auto with sub.
  pose proof (hex_scalar_ok i) as H. destruct (hex_scalar_value i) as [[n j]| | |]; cbn [Model_Read.rbind fst snd]; auto.
  destruct j as [|x j]; [exact I|]. destruct (x =? 59); [|exact I]. destruct H as [_ H]. apply sub_cons.
  exact (sub_trans _ _ _ (ssub_sub _ _ (ssub_cons x j)) (ssub_sub _ _ H)).
Qed.
Lemma string_loop_ok : forall n i lst, (List.length i < n)%nat -> okres true i (string_loop n i lst).
Proof.
  induction n as [|n IH]; intros i lst L; [lia|]. cbn [string_loop]. destruct i as [|c i]; [exact I|]. cbn [List.length] in L.
  destruct (c =? 34); [split; [apply chars_datum_ord; vm_compute; tauto|apply ssub_cons]|]. destruct (c =? 92).
  - pose proof (escape_ok i) as H. destruct (string_escape i) as [[x j]| | |]; cbn [Model_Read.rbind fst snd]; auto.
    pose proof (ssub_len _ _ H). specialize (IH j (x :: lst) ltac:(lia)). apply (okres_sub _ _ _ _ IH). apply ssub_sub, sub_cons. now apply ssub_sub.
  - specialize (IH i (c :: lst) ltac:(lia)). exact (okres_sub _ _ _ _ IH (ssub_sub _ _ (ssub_cons c i))).
Qed.
Lemma string_ok i : okres true i (subread_string i).
Proof.
  unfold subread_string, skip_expected. destruct (input_prefix i [34]) as [j|] eqn:P; cbn [Model_Read.rbind]; [|exact I].
  apply prefix_sub in P. exact (okres_sub _ _ _ _ (string_loop_ok (S (List.length j)) j [] ltac:(lia)) P).
Qed.
Lemma names_ord : Forall (fun x => ordinary (snd x)) char_names.
Proof. unfold char_names. repeat (constructor; [cbn [snd]; ordi|]). constructor. Qed.
Lemma lookup_ord l s d : Forall (fun x => ordinary (snd x)) l -> lookup_name s l = Some d -> ordinary d.
Proof.
  induction 1 as [|[n x] l H _ IH]; cbn [lookup_name]; [discriminate|]. destruct (cstr_eqb s n); [|exact IH]. intros E. injection E as <-. exact H.
Qed.
Lemma char_ok i : okres false i (subread_char i).
Proof.
  unfold subread_char. destruct i as [|c i]; [exact I|]. destruct (delimited i); [split; [apply char_datum_ord|auto with sub]|].
  destruct (c =? 120).
  - pose proof (hex_scalar_ok i) as H. destruct (hex_scalar_value i) as [[n j]| | |]; cbn [Model_Read.rbind fst snd]; auto.
    destruct (delimited j); [|exact I]. split; [apply char_datum_ord|]. destruct H as [_ H]. apply ssub_sub, sub_cons, ssub_sub, H.
  - destruct (span char_alphabetic (c :: i)) as [name rest] eqn:E. destruct (delimited rest); [|exact I].
    destruct (lookup_name name char_names) as [d|] eqn:L; [|exact I]. split; [exact (lookup_ord _ _ _ names_ord L)|exact (span_sub _ _ _ _ E)].
Qed.

(** ** the lexer *)
Definition special (d : sx) : Prop := d = atmosphere \/ exists c, d = terminator c.
Definition good_lex (i : text) (l : lexed) : Prop :=
  match l with
  | LData d j => d = eof /\ j = [] \/ ssub j i /\ (ordinary d \/ special d)
  | LFail crash => crash = false
  | LSub w j => ssub j i /\ ((forall d, ordinary d -> ordinary (w d)) \/ (forall d, w d = atmosphere))
  | LList _ j | LVector j => ssub j i
  | LVerbatim j => i = str "#.(" ++ j
  | LReadAs name j => ssub j i /\ name <> [] /\ exists k j', Forall (fun c => c = 32 \/ c = 9) k /\ i = str "#read" ++ k ++ name ++ j'
  end.
Lemma lex_res_good i x : okres true i x -> good_lex i (lex_res x).
Proof. destruct x as [[d j]| | |]; cbn; try contradiction; auto. intros [O S]. right. auto. Qed.
Lemma ws_good : forall i d j, whitespace_loop i = (d, j) -> d = eof /\ j = [] \/ sub j i /\ d = atmosphere.
Proof.
  induction i as [|c i IH]; intros d j E; cbn [whitespace_loop] in E; [injection E as <- <-; auto|].
  destruct (char_whitespace c); [|injection E as <- <-; auto with sub]. destruct (IH d j E) as [H|[S H]]; [auto|]. right. auto with sub.
Qed.
Lemma line_good : forall i d j, line_loop i = (d, j) -> d = eof /\ j = [] \/ sub j i /\ d = atmosphere.
Proof.
  induction i as [|c i IH]; intros d j E; cbn [line_loop] in E; [injection E as <- <-; auto|].
  destruct (c =? 10); [injection E as <- <-; auto 10 with sub|]. destruct (IH d j E) as [H|[S H]]; [auto|]. right. auto 10 with sub.
Qed.
Lemma block_good : forall n i depth, (List.length i <= n)%nat ->
  match block_loop depth i with ROk (d, j) => d = atmosphere /\ sub j i | RErr => True | _ => False end.
Proof.
  induction n as [|n IH]; intros i depth L; destruct i as [|c i]; cbn [block_loop]; try exact I; cbn [List.length] in L; [lia|].
  destruct i as [|x i]; [cbn; exact I|]. cbn [List.length] in L.
  assert (Up : forall k, match block_loop k i with ROk (d, j) => d = atmosphere /\ sub j (c :: x :: i) | RErr => True | _ => False end).
  { intros k. specialize (IH i k ltac:(lia)). destruct (block_loop k i) as [[d j]| | |]; auto. destruct IH as [-> S]. auto 10 with sub. }
  destruct ((c =? 124) && (x =? 35)); [destruct depth; [auto 10 with sub|apply Up]|]. destruct ((c =? 35) && (x =? 124)); [apply Up|].
  specialize (IH (x :: i) depth ltac:(cbn [List.length]; lia)). destruct (block_loop depth (x :: i)) as [[d j]| | |]; auto. destruct IH as [-> S]. auto 10 with sub.
Qed.
Lemma here_tag_ok : forall i lst, match here_tag i lst with ROk (_, j) => sub j i | RErr => True | _ => False end.
Proof.
  induction i as [|c i IH]; intros lst; cbn [here_tag]; [exact I|]. destruct (c =? 10); [destruct lst; auto 10 with sub|].
  specialize (IH (c :: lst)). destruct (here_tag i (c :: lst)) as [[t j]| | |]; auto. auto 10 with sub.
Qed.
Lemma here_body_ok rtag : forall i lst res, okres false i (here_body rtag i lst res).
Proof.
  induction i as [|c i IH]; intros lst res; cbn [here_body].
  - destruct (cstr_eqb lst rtag); [|exact I]. split; [apply chars_datum_ord; vm_compute; tauto|auto with sub].
  - destruct (c =? 10); [destruct (cstr_eqb lst rtag)|].
    + split; [apply chars_datum_ord; vm_compute; tauto|auto with sub].
    + apply (okres_sub _ _ i); [apply IH|auto with sub].
    + apply (okres_sub _ _ i); [apply IH|auto with sub].
Qed.
Lemma blank_iff c : blank c = true <-> c = 32 \/ c = 9. Proof. unfold blank. lia. Qed.
Lemma read_as_ok i : match read_as_head i with
  | ROk (name, j) => sub j i /\ name <> [] /\ exists k j', Forall (fun c => c = 32 \/ c = 9) k /\ i = k ++ name ++ j'
  | RErr => True | _ => False end.
Proof.
  unfold read_as_head. destruct (span blank i) as [k i1] eqn:E1. apply span_app in E1. destruct E1 as (-> & F1 & N1).
  destruct i1 as [|c i1]; [exact I|]. destruct (span _ (c :: i1)) as [name i2] eqn:E2.
  assert (M : name = [] -> c :: i1 = i2 /\ char_whitespace c = true).
  { intros ->. apply span_app in E2. destruct E2 as (X0 & _ & X). cbn [app] in X0. subst i2. split; [reflexivity|]. now destruct (char_whitespace c). }
  destruct i2 as [|x i2]; [exact I|]. destruct (span blank (x :: i2)) as [k3 i3] eqn:E3. destruct i3 as [|y i3]; [exact I|].
  unfold skip_expected. destruct (input_prefix (y :: i3) (str "as")) as [i4|] eqn:P; cbn [Model_Read.rbind]; [|exact I]. destruct (delimited i4); [|exact I].
  pose proof (prefix_sub _ _ _ P) as S4. pose proof (span_sub _ _ _ _ E3) as S3. pose proof (span_sub _ _ _ _ E2) as S2.
  split; [|split].
  - apply (sub_trans _ _ _ S4), (sub_trans _ _ _ S3), (sub_trans _ _ _ S2). now exists k.
  - intros X. destruct (M X) as [Y W]. injection Y as <- <-. cbn [span] in E3. rewrite N1 in E3. injection E3 as <- <- <-.
    apply prefix_eq in P. injection P as -> _. discriminate W.
  - exists k, (x :: i2). apply span_app in E2. destruct E2 as (-> & _). split; [|reflexivity].
    rewrite forallb_forall in F1. apply Forall_forall. intros z Z. apply blank_iff, F1, Z.
Qed.
Lemma find_number_ok i : forall l j e r, Forall (fun x => fst x <> [] /\ (fst (snd x) = None \/ fst (snd x) = Some "exact"%string \/ fst (snd x) = Some "inexact"%string)) l ->
  find_number_prefix i l = Some (j, (e, r)) -> ssub j i /\ (e = None \/ e = Some "exact"%string \/ e = Some "inexact"%string).
Proof.
  induction 1 as [|[p er] l [H1 H2] _ IH]; cbn [find_number_prefix]; [discriminate|]. cbn [fst snd] in H1, H2. destruct (input_prefix_ci i p) as [k|] eqn:P; [|exact IH].
  intros E. injection E as <- ->. split; [|exact H2]. destruct p; [contradiction|]. exact (prefix_ci_ssub _ _ _ _ P).
Qed.
Lemma prefixes_good : Forall (fun x : text * (option string * Z) => fst x <> [] /\ (fst (snd x) = None \/ fst (snd x) = Some "exact"%string \/ fst (snd x) = Some "inexact"%string)) number_prefixes.
Proof. unfold number_prefixes. repeat (constructor; [cbn [fst snd]; split; [discriminate|tauto]|]). constructor. Qed.
Lemma lex_good i : good_lex i (lex i).
Proof.
  unfold lex. destruct i as [|c i]; [now left|].
  destruct (char_whitespace c).
  { destruct (whitespace_loop i) as [d j] eqn:E. destruct (ws_good _ _ _ E) as [H|[S ->]]; [now left|]. right. split; [auto with sub|]. right. now left. }
  destruct (c =? 59).
  { destruct (line_loop i) as [d j] eqn:E. destruct (line_good _ _ _ E) as [H|[S ->]]; [now left|]. right. split; [auto with sub|]. right. now left. }
  destruct (char_initial c).
  { destruct (span char_subsequent i) as [s j] eqn:E. right. split; [apply sub_cons, (span_sub _ _ _ _ E)|]. left. apply chars_datum_ord. vm_compute; tauto. }
  destruct (input_prefix_ci (c :: i) (str "->")) as [j|] eqn:P1.
  { destruct (span char_subsequent j) as [s k] eqn:E. right. split; [exact (sub_ssub_trans _ _ _ (span_sub _ _ _ _ E) (prefix_ci_ssub _ _ _ _ P1))|]. left. apply chars_datum_ord. vm_compute; tauto. }
  destruct (delimited_prefix (c :: i) (str ".")) as [j|] eqn:P2.
  { right. split; [exact (dprefix_ssub _ _ _ _ P2)|]. right. right. eauto. }
  destruct (delimited_prefix (c :: i) (str "+")) as [j|] eqn:P3; [right; split; [exact (dprefix_ssub _ _ _ _ P3)|left; ordi]|].
  destruct (delimited_prefix (c :: i) (str "-")) as [j|] eqn:P4; [right; split; [exact (dprefix_ssub _ _ _ _ P4)|left; ordi]|].
  destruct (delimited_prefix (c :: i) (str "...")) as [j|] eqn:P5; [right; split; [exact (dprefix_ssub _ _ _ _ P5)|left; ordi]|].
  destruct (delimited_prefix_ci (c :: i) (str "#t")) as [j|] eqn:P6; [right; split; [exact (dprefix_ci_ssub _ _ _ _ P6)|left; ordi]|].
  destruct (delimited_prefix_ci (c :: i) (str "#f")) as [j|] eqn:P7; [right; split; [exact (dprefix_ci_ssub _ _ _ _ P7)|left; ordi]|].
  destruct (find_number_prefix (c :: i) number_prefixes) as [[j [e r]]|] eqn:P8.
  { destruct (find_number_ok _ _ _ _ _ prefixes_good P8) as [S H]. apply lex_res_good. exact (okres_sub _ _ _ _ (number_ok j e r H) (ssub_sub _ _ S)). }
  destruct (char_number_initial c); [apply lex_res_good, number_ok; now left|].
  destruct (input_prefix (c :: i) [35; 92]) as [j|] eqn:P9.
  { apply lex_res_good. exact (okres_ssub _ _ _ (char_ok j) (prefix_ssub _ _ _ _ P9)). }
  destruct (c =? 34); [apply lex_res_good, string_ok|].
  destruct (input_prefix (c :: i) (str "#<<")) as [j|] eqn:P10.
  { apply lex_res_good. pose proof (here_tag_ok j []) as T. destruct (here_tag j []) as [[t k]| | |]; cbn [Model_Read.rbind fst snd]; try exact T; try exact I.
    exact (okres_ssub _ _ _ (here_body_ok t k [] []) (sub_ssub_trans _ _ _ T (prefix_ssub _ _ _ _ P10))). }
  destruct (input_prefix (c :: i) [39]) as [j|] eqn:P11.
  { split; [exact (prefix_ssub _ _ _ _ P11)|]. left. intros; ordi. }
  destruct (delimited_prefix (c :: i) (str "#fload")) as [j|] eqn:P12.
  { split; [exact (dprefix_ssub _ _ _ _ P12)|]. left. intros; ordi. }
  destruct (delimited_prefix (c :: i) (str "#read")) as [j|] eqn:P13.
  { pose proof (read_as_ok j) as T. destruct (read_as_head j) as [[n k]| | |]; try contradiction T; [|reflexivity].
    destruct T as (S & N & b & j' & B & E). pose proof (dprefix_ssub _ _ _ _ P13) as SS. apply dprefix_inv in P13. destruct P13 as [P13 _]. apply prefix_eq in P13.
    split; [exact (sub_ssub_trans _ _ _ S SS)|]. split; [exact N|]. exists b, j'. split; [exact B|]. now rewrite P13, E. }
  destruct (input_prefix (c :: i) (str "#;")) as [j|] eqn:P14.
  { split; [exact (prefix_ssub _ _ _ _ P14)|]. right. reflexivity. }
  destruct (input_prefix (c :: i) (str "#|")) as [j|] eqn:P15.
  { pose proof (block_good _ j 0 (le_n _)) as T. destruct (block_loop 0 j) as [[d k]| | |]; try contradiction T; [|reflexivity].
    destruct T as [-> S]. right. split; [exact (sub_ssub_trans _ _ _ S (prefix_ssub _ _ _ _ P15))|]. right. now left. }
  destruct ((c =? 41) || (c =? 93) || (c =? 125)); [right; split; [apply ssub_cons|right; right; eauto]|].
  destruct (c =? 40); [apply ssub_cons|]. destruct (c =? 91); [apply ssub_cons|].
  destruct (input_prefix (c :: i) (str "#(")) as [j|] eqn:P16; [exact (prefix_ssub _ _ _ _ P16)|].
  destruct (input_prefix (c :: i) (str "#&")) as [j|] eqn:P17; [split; [exact (prefix_ssub _ _ _ _ P17)|left; intros; ordi]|].
  destruct (input_prefix (c :: i) (str "#.(")) as [j|] eqn:P18; [|reflexivity]. now apply prefix_eq in P18.
Qed.

(** ** extensions *)
Lemma plain_sub i j : plain i -> sub j i -> plain j.
Proof.
  intros [A B] [x ->]. split.
  - intros a b E. apply (A (x ++ a) b). now rewrite E, <- app_assoc.
  - intros a k b F E. apply (B (x ++ a) k b F). now rewrite E, <- app_assoc.
Qed.
Lemma ord_type d t : ordinary d -> ~ In t (map codes ordinary_types) -> forall s, codes s = t -> type_is d s = false.
Proof.
  intros (u & cc & I & ->) N s <-. cbn [type_is is_sym]. destruct (cstr_eqb (codes u) (codes s)) eqn:E; [|reflexivity].
  apply cstr_eqb_eq in E. exfalso. apply N. rewrite <- E. now apply in_map.
Qed.
Ltac notin := vm_compute; intros X; repeat (destruct X as [X|X]; [discriminate X|]); exact X.
Lemma ord_types d : ordinary d -> type_is d "eof" = false /\ type_is d "atmosphere" = false /\ type_is d "read-as" = false /\ type_is d "terminator" = false.
Proof.
  intros O. split; [|split; [|split]].
  - apply (ord_type d (codes "eof") O); [notin|reflexivity].
  - apply (ord_type d (codes "atmosphere") O); [notin|reflexivity].
  - apply (ord_type d (codes "read-as") O); [notin|reflexivity].
  - apply (ord_type d (codes "terminator") O); [notin|reflexivity].
Qed.
Lemma unwrap_safe : forall d, match unwrap d with ROk _ | RErr => True | _ => False end.
Proof.
  fix F 1. intros d. destruct d as [s|s|z|c| | |t rest]; try exact I. cbn [unwrap]. destruct (unwrap_atom t rest); [exact I|].
  destruct (_ && _); [exact I|]. destruct (is_sym t "pair").
  - destruct rest as [| | | | | |a [| | | | | |b []]]; try exact I. pose proof (F a) as A. pose proof (F b) as B.
    destruct (unwrap a); cbn [Model_Read.rbind]; auto. destruct (unwrap b); cbn [Model_Read.rbind]; auto.
  - destruct (is_sym t "list"); [|exact I]. clear - F.
    set (G := fix all (l : sx) : rres sx := match l with XNil => ROk XNil
       | XCons a l' => Model_Read.rbind (unwrap a) (fun x => Model_Read.rbind (all l') (fun r => ROk (XCons x r))) | _ => RErr end).
    revert rest. fix H 1. intros rest. destruct rest as [| | | | | |a l]; try exact I. cbn [G]. fold G.
    pose proof (F a) as A. destruct (unwrap a); cbn [Model_Read.rbind]; auto. pose proof (H l) as B. destruct (G l); cbn [Model_Read.rbind]; auto.
Qed.
Lemma replace_safe p d : forall td, match template_replace p d td with ROk _ | RErr => True | _ => False end.
Proof.
  induction td as [s|s|z|c| | |a A b B]; cbn [template_replace]; try (destruct (sx_eqb _ _); exact I).
  - destruct (sx_eqb _ _); [exact I|]. destruct (cstr_eqb s _); [exact I|]. destruct (cstr_eqb s _); [apply unwrap_safe|exact I].
  - destruct (sx_eqb _ _); [exact I|]. destruct (template_replace p d a); cbn [Model_Read.rbind]; auto.
    destruct (template_replace p d b); cbn [Model_Read.rbind]; auto.
Qed.
Lemma tag_not_param p t : In t ordinary_types -> cstr_eqb (codes t) (str "parsed-" ++ param_name p) = false /\ cstr_eqb (codes t) (param_name p) = false.
Proof.
  intros I. assert (H : forallb (fun t => negb (cstr_eqb (codes t) (str "parsed-" ++ param_name p)) && negb (cstr_eqb (codes t) (param_name p))) ordinary_types = true)
    by (destruct p; vm_compute; reflexivity).
  rewrite forallb_forall in H. specialize (H t I). apply andb_prop in H. destruct H as [H1 H2]. split; now apply negb_true_iff.
Qed.
Lemma replace_ord p d td x : ordinary d -> ordinary td -> template_replace p d td = ROk x -> ordinary x.
Proof.
  intros O (t & cc & I & ->). cbn [template_replace]. destruct (sx_eqb _ _); [intros E; now injection E as <-|].
  replace (sx_eqb (XSym (codes t)) (datum "symbol" [XStr (param_name p)])) with false by reflexivity.
  destruct (tag_not_param p t I) as [-> ->]. cbn [Model_Read.rbind]. destruct (template_replace p d cc) as [y| | |]; cbn [Model_Read.rbind]; try discriminate.
  intros E. injection E as <-. exists t, y. auto.
Qed.
Lemma elems_xlist l : elems (xlist l) = Some l.
Proof. induction l as [|a l IH]; cbn [xlist elems]; [reflexivity|now rewrite IH]. Qed.
Lemma chars_of_map l : chars_of (map XChr l) = Some l.
Proof. induction l as [|a l IH]; cbn [map chars_of]; [reflexivity|now rewrite IH]. Qed.
Lemma extend_ok r name d : Forall plain_ext r -> ordinary d -> name <> [] -> hd 0 name <> 60 ->
  match extend_reader r (datum "read-as" [xlist (map XChr name); d]) with ROk r' => Forall plain_ext r' | RErr => True | _ => False end.
Proof.
  intros R O N H. unfold extend_reader, datum. cbn [elems]. rewrite elems_xlist. cbn [option_map].
  rewrite elems_xlist, chars_of_map. destruct (span _ name) as [pfx tail] eqn:E.
  assert (P : pfx <> []).
  { intros ->. destruct name as [|c name]; [contradiction|]. cbn [span hd] in *. destruct (Z.eqb_spec c 60); [contradiction|]. cbn [negb] in E.
    destruct (span _ name); discriminate E. }
  destruct tail; [constructor; [now split|exact R]|].
  repeat match goal with |- context[if ?b then _ else _] => destruct b end; try exact I; (constructor; [now split|exact R]).
Qed.
Lemma find_ext_ok r i e j : Forall plain_ext r -> find_ext r i = Some (e, j) -> plain_ext e /\ ssub j i.
Proof.
  induction 1 as [|x r X _ IH]; cbn [find_ext]; [discriminate|]. destruct (ext_match x i) as [k|] eqn:M; [|exact IH].
  intros E. injection E as <- <-. split; [exact X|]. destruct X as [N _]. unfold ext_match in M.
  destruct (e_pfx x) as [|c p]; [contradiction|].
  destruct (e_param x) as [q|]; [|exact (dprefix_ssub _ _ _ _ M)]. destruct (input_prefix i (c :: p)) as [m|] eqn:P; [|discriminate].
  apply prefix_ssub in P. destruct q; [now injection M as <-| |];
  (destruct m as [|y m]; [discriminate M|]); destruct (y =? _); try discriminate M; now injection M as <-.
Qed.

(** ** the engine *)
Definition rd_ok (i : text) (x : rres (sx * text)) : Prop :=
  match x with
  | ROk (d, j) => d = eof /\ j = [] \/
      ssub j i /\ (ordinary d \/ special d \/
        exists name d0, d = datum "read-as" [xlist (map XChr name); d0] /\ ordinary d0 /\ name <> [] /\ hd 0 name <> 60)
  | RErr => True
  | _ => False
  end.
Definition term_ok (vec : bool) (i : text) (x : rres (sx * text)) : Prop :=
  match x with ROk (d, j) => (vec = true \/ ordinary d) /\ ssub j i | RErr => True | _ => False end.
Lemma engine_ok : forall n r i, Forall plain_ext r -> plain i ->
  ((2 * List.length i + 1 <= n)%nat -> rd_ok i (rd n r i)) /\
  ((2 * List.length i + 2 <= n)%nat -> okres true i (subread n r i)) /\
  (forall tc dotted rdefs vec limit, (vec = true -> dotted = false /\ limit = None) -> (2 * List.length i + 2 <= n)%nat ->
     term_ok vec i (toterm n r i tc dotted rdefs vec limit)).
Proof.
  induction n as [|n IH]; intros r i R P; [repeat split; intros; lia|]. split; [|split].
  - intros L. cbn [rd]. destruct (find_ext r i) as [[e i1]|] eqn:FE.
    { destruct (find_ext_ok _ _ _ _ R FE) as [[N T] S]. pose proof (ssub_len _ _ S) as SL. pose proof (plain_sub _ _ P (ssub_sub _ _ S)) as P1.
      destruct (e_param e) as [p|]; [|cbn; auto].
      assert (Q : forall x, okres true i x -> rd_ok i (Model_Read.rbind x (fun di => Model_Read.rbind (template_replace p (fst di) (e_tmpl e)) (fun d => ROk (d, snd di))))).
      { intros [[d j]| | |] X; cbn [Model_Read.rbind fst snd rd_ok okres] in *; auto. destruct X as [O SJ].
        pose proof (replace_safe p d (e_tmpl e)) as K. destruct (template_replace p d (e_tmpl e)) as [y| | |] eqn:E; cbn [Model_Read.rbind]; try exact K; try exact I.
        right. split; [exact SJ|]. left. exact (replace_ord _ _ _ _ O T E). }
      apply Q. destruct p.
      - destruct (IH r i1 R P1) as (_ & H & _). apply (okres_sub _ _ i1); [apply H; lia|apply ssub_sub, S].
      - assert (S2 : sub (tl i1) i1) by (destruct i1; [apply sub_refl|apply ssub_sub, ssub_cons]). pose proof (sub_len _ _ S2).
        destruct (IH r (tl i1) R (plain_sub _ _ P1 S2)) as (_ & _ & H'). specialize (H' 41 true true false None ltac:(discriminate) ltac:(lia)).
        destruct (toterm n r (tl i1) 41 true true false None) as [[d j]| | |]; cbn [term_ok okres] in *; auto. destruct H' as [[X|O] SJ]; [discriminate X|].
        split; [exact O|]. exact (ssub_sub_trans _ _ _ SJ (sub_trans _ _ _ S2 (ssub_sub _ _ S))).
      - exact (okres_sub _ _ _ _ (string_ok i1) (ssub_sub _ _ S)). }
    pose proof (lex_good i) as G. destruct (lex i) as [d j|crash|w j|tc j|j|j|name j]; cbn [good_lex] in G.
    + cbn [rd_ok]. destruct G as [G|[S [G|G]]]; auto.
    + subst crash. exact I.
    + destruct G as [S G]. pose proof (ssub_len _ _ S). destruct (IH r j R (plain_sub _ _ P (ssub_sub _ _ S))) as (_ & K & _). specialize (K ltac:(lia)).
      destruct (subread n r j) as [[d k]| | |]; cbn [Model_Read.rbind fst snd okres rd_ok] in *; auto. destruct K as [O SK]. right.
      split; [exact (ssub_sub_trans _ _ _ SK (ssub_sub _ _ S))|]. destruct G as [G|G]; [left; now apply G|]. right. left. left. apply G.
    + pose proof (ssub_len _ _ G). destruct (IH r j R (plain_sub _ _ P (ssub_sub _ _ G))) as (_ & _ & K). specialize (K tc true true false None ltac:(discriminate) ltac:(lia)).
      destruct (toterm n r j tc true true false None) as [[d k]| | |]; cbn [term_ok rd_ok] in *; auto. destruct K as [[X|O] SK]; [discriminate X|]. right.
      split; [exact (ssub_sub_trans _ _ _ SK (ssub_sub _ _ G))|auto].
    + pose proof (ssub_len _ _ G). destruct (IH r j R (plain_sub _ _ P (ssub_sub _ _ G))) as (_ & _ & K). specialize (K 41 false true true None ltac:(auto) ltac:(lia)).
      destruct (toterm n r j 41 false true true None) as [[d k]| | |]; cbn [Model_Read.rbind fst snd term_ok rd_ok] in *; auto. destruct K as [_ SK]. right.
      split; [exact (ssub_sub_trans _ _ _ SK (ssub_sub _ _ G))|]. left. exists "vector"%string, d. split; [vm_compute; tauto|reflexivity].
    + exfalso. destruct P as [P _]. now apply (P [] j).
    + destruct G as (S & N & k & j' & B & E). pose proof (ssub_len _ _ S). destruct (IH r j R (plain_sub _ _ P (ssub_sub _ _ S))) as (_ & K & _). specialize (K ltac:(lia)).
      destruct (subread n r j) as [[d m]| | |]; cbn [Model_Read.rbind fst snd okres rd_ok] in *; auto. destruct K as [O SK]. right.
      split; [exact (ssub_sub_trans _ _ _ SK (ssub_sub _ _ S))|]. right. right. exists name, d. split; [reflexivity|]. split; [exact O|]. split; [exact N|].
      destruct name as [|c name]; [contradiction|]. cbn [hd]. intros ->. destruct P as [_ P]. apply (P [] k (name ++ j') B). now rewrite E.
  - intros L. cbn [subread]. destruct (IH r i R P) as (K & _ & _). specialize (K ltac:(lia)).
    destruct (rd n r i) as [[d j]| | |]; cbn [Model_Read.rbind rd_ok okres] in *; auto.
    destruct K as [[-> ->]|[S K]]; [exact I|]. pose proof (ssub_len _ _ S). destruct K as [O|[[->|[c ->]]|(name & d0 & -> & _)]].
    + destruct (ord_types d O) as (-> & -> & -> & ->). split; [exact O|exact S].
    + cbn [type_is atmosphere datum]. change (is_sym (sym "atmosphere") "eof") with false. change (is_sym (sym "atmosphere") "atmosphere") with true. cbv iota.
      destruct (IH r j R (plain_sub _ _ P (ssub_sub _ _ S))) as (_ & K & _). exact (okres_sub _ _ _ _ (K ltac:(lia)) (ssub_sub _ _ S)).
    + exact I.
    + exact I.
  - intros tc dotted rdefs vec limit HV L. cbn [toterm]. destruct (IH r i R P) as (K & _ & _). specialize (K ltac:(lia)).
    destruct (rd n r i) as [[d j]| | |]; cbn [Model_Read.rbind rd_ok term_ok] in *; auto.
    destruct K as [[-> ->]|[S K]]; [exact I|]. pose proof (ssub_len _ _ S). pose proof (plain_sub _ _ P (ssub_sub _ _ S)) as PJ.
    assert (Up : forall y, term_ok vec j y -> term_ok vec i y).
    { intros [[y k]| | |]; cbn; auto. intros [A B]. split; [exact A|]. exact (ssub_sub_trans _ _ _ B (ssub_sub _ _ S)). }
    destruct K as [O|[[->|[c ->]]|(name & d0 & -> & O & NN & NH)]].
    + destruct (ord_types d O) as (-> & -> & -> & ->). destruct (IH r j R PJ) as (_ & _ & K).
      specialize (K tc dotted rdefs vec (dec limit) ltac:(intros Z; destruct (HV Z) as [-> ->]; auto) ltac:(lia)). apply Up in K.
      destruct (toterm n r j tc dotted rdefs vec (dec limit)) as [[x k]| | |]; cbn [Model_Read.rbind fst snd term_ok] in *; auto.
      destruct K as [_ SK]. split; [|exact SK]. destruct vec; [now left|]. right.
      destruct limit as [l|]; [destruct (l =? 1); [exact O|]|]; unfold kons; ordi.
    + change (type_is atmosphere "eof") with false. change (type_is atmosphere "atmosphere") with true. cbv iota.
      apply Up. destruct (IH r j R PJ) as (_ & _ & K). apply K; [exact HV|lia].
    + change (type_is (terminator c) "eof") with false. change (type_is (terminator c) "atmosphere") with false.
      change (type_is (terminator c) "read-as") with false. change (type_is (terminator c) "terminator") with true. cbv iota. cbn [term_char terminator datum xlist Model_Read.rbind].
      destruct (dotted && (c =? 46)) eqn:D.
      { apply Up. destruct (IH r j R PJ) as (_ & _ & K). apply K; [|lia]. intros Z. destruct (HV Z) as [-> _]. discriminate D. }
      assert (Nil : term_ok vec i (ROk (knil vec, j))).
      { cbn [term_ok]. split; [|exact S]. destruct vec; [now left|]. right. unfold knil. ordi. }
      destruct (c =? tc); [|exact I]. destruct limit as [l|]; [destruct (l =? 0); [exact Nil|exact I]|exact Nil].
    + change (type_is (datum "read-as" [xlist (map XChr name); d0]) "eof") with false.
      change (type_is (datum "read-as" [xlist (map XChr name); d0]) "atmosphere") with false.
      change (type_is (datum "read-as" [xlist (map XChr name); d0]) "read-as") with true. cbv iota.
      destruct rdefs; cbn [negb]; [|exact I]. pose proof (extend_ok r name d0 R O NN NH) as K.
      destruct (extend_reader r _) as [r'| | |]; cbn [Model_Read.rbind]; try exact K; try exact I.
      apply Up. destruct (IH r' j K PJ) as (_ & _ & Q). apply Q; [exact HV|lia].
Qed.
Lemma top_ok : forall n r i, Forall plain_ext r -> plain i -> (2 * List.length i + 2 <= n)%nat ->
  match subread_top n r i with
  | ROk (d, j, r') => Forall plain_ext r' /\ (d = eof /\ j = [] \/ ordinary d /\ ssub j i)
  | RErr => True
  | _ => False
  end.
Proof.
  induction n as [|n IH]; intros r i R P L; [lia|]. cbn [subread_top]. destruct (engine_ok n r i R P) as (K & _). specialize (K ltac:(lia)).
  destruct (rd n r i) as [[d j]| | |]; cbn [Model_Read.rbind rd_ok] in *; auto.
  destruct K as [[-> ->]|[S K]]; [cbn; auto|]. pose proof (ssub_len _ _ S). pose proof (plain_sub _ _ P (ssub_sub _ _ S)) as PJ.
  assert (Up : forall r', Forall plain_ext r' -> match subread_top n r' j with
    | ROk (d, k, r') => Forall plain_ext r' /\ (d = eof /\ k = [] \/ ordinary d /\ ssub k i) | RErr => True | _ => False end).
  { intros r' R'. specialize (IH r' j R' PJ ltac:(lia)). destruct (subread_top n r' j) as [[[y k] q]| | |]; auto. destruct IH as [A [B|[B C]]]; auto.
    split; [exact A|]. right. split; [exact B|]. exact (ssub_sub_trans _ _ _ C (ssub_sub _ _ S)). }
  destruct K as [O|[[->|[c ->]]|(name & d0 & -> & O & NN & NH)]].
  - destruct (ord_types d O) as (_ & -> & -> & ->). auto.
  - change (type_is atmosphere "atmosphere") with true. cbv iota. now apply Up.
  - exact I.
  - change (type_is (datum "read-as" [xlist (map XChr name); d0]) "atmosphere") with false.
    change (type_is (datum "read-as" [xlist (map XChr name); d0]) "read-as") with true. cbv iota.
    pose proof (extend_ok r name d0 R O NN NH) as K. destruct (extend_reader r _) as [r'| | |]; cbn [Model_Read.rbind]; try exact K; try exact I.
    now apply Up.
Qed.

(** ** a greater depth does not change the result *)
Definition stable {A} (x y : rres A) : Prop := x <> RFuel -> y = x.
Lemma stable_bind {A B} (x y : rres A) (f g : A -> rres B) : stable x y -> (forall a, stable (f a) (g a)) -> stable (Model_Read.rbind x f) (Model_Read.rbind y g).
Proof.
  intros S T N. destruct x; cbn [Model_Read.rbind] in *; try (rewrite S by discriminate; cbn [Model_Read.rbind]; auto; now apply T). contradiction.
Qed.
Lemma stable_refl {A} (x : rres A) : stable x x. Proof. intros _. reflexivity. Qed.
Lemma engine_mono : forall n r i,
  stable (rd n r i) (rd (S n) r i) /\ stable (subread n r i) (subread (S n) r i) /\
  (forall tc dotted rdefs vec limit, stable (toterm n r i tc dotted rdefs vec limit) (toterm (S n) r i tc dotted rdefs vec limit)).
Proof.
  induction n as [|n IH]; intros r i; [repeat split; intros; intros X; now contradiction X|].
  assert (Hr : forall r i, stable (rd n r i) (rd (S n) r i)) by (intros; apply IH).
  assert (Hs : forall r i, stable (subread n r i) (subread (S n) r i)) by (intros; apply IH).
  assert (Ht : forall r i tc dotted rdefs vec limit, stable (toterm n r i tc dotted rdefs vec limit) (toterm (S n) r i tc dotted rdefs vec limit)) by (intros; apply IH).
  remember (S n) as m eqn:Em. split; [|split].
  - rewrite Em at 1. cbn [rd]. destruct (find_ext r i) as [[e i1]|].
    { destruct (e_param e) as [p|]; [|apply stable_refl]. apply stable_bind; [destruct p; auto using stable_refl|intros; apply stable_refl]. }
    destruct (lex i); try (apply stable_refl); try (apply Ht); apply stable_bind; auto; intros; apply stable_refl.
  - rewrite Em at 1. cbn [subread]. apply stable_bind; [apply Hr|]. intros [d j]. destruct (type_is d "eof"); [apply stable_refl|].
    destruct (type_is d "atmosphere"); [apply Hs|apply stable_refl].
  - intros. rewrite Em at 1. cbn [toterm]. apply stable_bind; [apply Hr|]. intros [d j]. destruct (type_is d "eof"); [apply stable_refl|].
    destruct (type_is d "atmosphere"); [apply Ht|]. destruct (type_is d "read-as").
    { destruct (negb rdefs); [apply stable_refl|]. apply stable_bind; [apply stable_refl|intros; apply Ht]. }
    destruct (type_is d "terminator").
    { apply stable_bind; [apply stable_refl|]. intros c. destruct (dotted && (c =? 46)); [apply Ht|apply stable_refl]. }
    apply stable_bind; [apply Ht|intros; apply stable_refl].
Qed.
Lemma top_mono : forall n r i, stable (subread_top n r i) (subread_top (S n) r i).
Proof.
  induction n as [|n IH]; intros r i; [intros X; now contradiction X|]. remember (S n) as m eqn:Em. rewrite Em at 1. cbn [subread_top].
  apply stable_bind; [rewrite Em; apply engine_mono|]. intros [d j]. destruct (type_is d "atmosphere"); [apply IH|].
  destruct (type_is d "read-as"); [apply stable_bind; [apply stable_refl|intros; apply IH]|apply stable_refl].
Qed.
Lemma top_mono_le n m r i : (n <= m)%nat -> stable (subread_top n r i) (subread_top m r i).
Proof.
  induction 1 as [|m L IH]; [apply stable_refl|]. intros N. specialize (IH N). rewrite <- IH. apply top_mono. now rewrite IH.
Qed.

(** ** consequences *)
Lemma read_text_ok r i : Forall plain_ext r -> plain i -> exists x, returns r i x /\ x = read_text r i /\
  (x = RErr \/ exists d i' r', x = ROk (d, i', r') /\ Forall plain_ext r' /\ (d = eof /\ i' = [] \/ ordinary d /\ exists a, a <> [] /\ i = a ++ i')).
Proof.
  intros R P. exists (read_text r i). pose proof (top_ok (enough i) r i R P ltac:(unfold enough; lia)) as K. fold (read_text r i) in K. split; [|split; [reflexivity|]].
  - exists (enough i). intros n L. apply (top_mono_le (enough i) n r i L). fold (read_text r i). intros X. now rewrite X in K.
  - destruct (read_text r i) as [[[d j] r']| | |]; try contradiction K; [|now left]. right. exists d, j, r'. split; [reflexivity|]. destruct K as [A B]. split; [exact A|]. exact B.
Qed.
Lemma file_ok : forall n r i, (List.length i <= n)%nat -> Forall plain_ext r -> plain i -> exists l b, file_reads r i l b /\ (List.length l <= List.length i)%nat.
Proof.
  induction n as [|n IH]; intros r i L R P; destruct (read_text_ok r i R P) as (x & _ & -> & [E|(d & i' & r' & E & R' & C)]).
  - exists [], false. split; [now constructor|cbn; lia].
  - destruct C as [[-> ->]|[O [a [N ->]]]].
    + exists [], true. split; [econstructor; eauto|cbn; lia].
    + destruct a; [contradiction|]. cbn [List.length app] in L. lia.
  - exists [], false. split; [now constructor|cbn; lia].
  - destruct C as [[-> ->]|[O [a [N ->]]]].
    + exists [], true. split; [econstructor; eauto|cbn; lia].
    + rewrite app_length in L. destruct a as [|c a]; [contradiction|]. cbn [List.length] in L.
      destruct (IH r' i' ltac:(lia) R' (plain_sub _ _ P ltac:(now exists (c :: a)))) as (l & b & F & Len).
      exists (d :: l), b. split; [econstructor; eauto|]. cbn [List.length]. rewrite app_length. cbn [List.length]. lia.
Qed.

(** an extension with an empty prefix *)
Lemma empty_prefix_loops t : forall n j, rd n [mkext [] (Some PDatum) t] j = RFuel /\ subread n [mkext [] (Some PDatum) t] j = RFuel.
Proof.
  induction n as [|n IH]; intros j; [split; reflexivity|]. split.
  - cbn [rd find_ext]. unfold ext_match. cbn [e_param e_pfx]. replace (input_prefix j []) with (Some j) by (now destruct j). cbn [e_param].
    destruct (IH j) as [_ ->]. reflexivity.
  - cbn [subread]. destruct (IH j) as [-> _]. reflexivity.
Qed.
Lemma stable_rd_le n m r i : (n <= m)%nat -> stable (rd n r i) (rd m r i).
Proof. induction 1 as [|m L IH]; [apply stable_refl|]. intros N. specialize (IH N). rewrite <- IH. apply engine_mono. now rewrite IH. Qed.
Lemma read_loops : forall n, subread_top n [] (codes "#read <datum> as x y") = RFuel.
Proof.
  assert (A : rd 4 [] (codes "#read <datum> as x y") = ROk (datum "read-as" [xlist (map XChr (codes "<datum>")); datum "symbol" [XStr (codes "x")]], codes " y")) by (vm_compute; reflexivity).
  assert (B : forall n, subread_top (S (4 + n)) [] (codes "#read <datum> as x y") = RFuel).
  { intros n. change (S (4 + n)) with (S (4 + n))%nat. cbn [subread_top]. rewrite (stable_rd_le 4 (4 + n) [] _ ltac:(lia)) by (rewrite A; discriminate). rewrite A. cbn [Model_Read.rbind].
    change (type_is (datum "read-as" [xlist (map XChr (codes "<datum>")); datum "symbol" [XStr (codes "x")]]) "atmosphere") with false.
    change (type_is (datum "read-as" [xlist (map XChr (codes "<datum>")); datum "symbol" [XStr (codes "x")]]) "read-as") with true. cbv iota.
    replace (extend_reader [] (datum "read-as" [xlist (map XChr (codes "<datum>")); datum "symbol" [XStr (codes "x")]]))
      with (ROk [mkext [] (Some PDatum) (datum "symbol" [XStr (codes "x")])]) by (vm_compute; reflexivity).
    cbn [Model_Read.rbind]. destruct (4 + n)%nat as [|m]; [reflexivity|]. cbn [subread_top]. destruct (empty_prefix_loops (datum "symbol" [XStr (codes "x")]) m (codes " y")) as [-> _]. reflexivity. }
  intros n. destruct (subread_top n [] (codes "#read <datum> as x y")) eqn:E; [exfalso| exfalso|exfalso|reflexivity];
    (pose proof (top_mono_le n (S (4 + n)) [] (codes "#read <datum> as x y") ltac:(lia)) as S; rewrite E in S; specialize (S ltac:(discriminate)); rewrite B in S; discriminate S).
Qed.
