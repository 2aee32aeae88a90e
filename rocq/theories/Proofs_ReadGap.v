(** Spaced-out texts read as the trees they are written from. *)
From Coq Require Import ZArith String List Bool Lia.
From Verif Require Import Base Model_Sym Model_Num Model_Lit Model_Read Spec_Read Proofs_Sym Proofs_ReadTerm Proofs_ReadLex.
Import ListNotations.
Open Scope Z_scope.

Lemma white_iff c : char_whitespace c = true <-> white c.
Proof. unfold char_whitespace, isspace, white. lia. Qed.
Lemma prefix_firstn : forall h i j, input_prefix i h = Some j -> firstn (List.length h) i = h.
Proof. intros h i j E. apply prefix_eq in E. subst i. rewrite firstn_app, firstn_all, Nat.sub_diag. cbn. apply app_nil_r. Qed.
Lemma start_none a : token_start a ->
  input_prefix a [39] = None /\ delimited_prefix a (str "#fload") = None /\ delimited_prefix a (str "#read") = None /\ input_prefix a (str "#;") = None /\
  input_prefix a (str "#|") = None /\ input_prefix a (str "#(") = None /\ input_prefix a (str "#&") = None /\ input_prefix a (str "#.(") = None /\
  input_prefix a (str "#<<") = None.
Proof.
  intros T. destruct a as [|c a]; [contradiction T|]. destruct T as (W & N & S). cbn [In] in N.
  assert (H : forall h, (c = 35 -> match a with [] => False | c' :: _ => hd 0 h <> c' end) -> h <> [] -> input_prefix (c :: a) (35 :: h) = None).
  { intros h Q Hh. cbn [input_prefix]. destruct (Z.eqb_spec c 35) as [E|]; [|reflexivity]. specialize (Q E). destruct h as [|x h]; [contradiction|]. destruct a as [|y a]; [contradiction Q|].
    cbn [input_prefix hd] in *. destruct (Z.eqb_spec y x); [congruence|reflexivity]. }
  assert (K : forall x, In x [40; 38; 59; 124; 60; 46] -> forall h, input_prefix (c :: a) (35 :: x :: h) = None).
  { intros x I h. apply H; [|discriminate]. intros E. specialize (S E). destruct a as [|y a]; [exact S|]. destruct S as [S _]. cbn [hd]. intros <-. now apply S. }
  assert (F : forall h, firstn (List.length h) a <> h -> delimited_prefix (c :: a) (35 :: h) = None \/ c <> 35).
  { intros h Q. destruct (Z.eq_dec c 35) as [->|E]; [|now right]. left. unfold delimited_prefix. destruct (input_prefix (35 :: a) (35 :: h)) as [j|] eqn:P; [|reflexivity].
    exfalso. cbn [input_prefix] in P. rewrite Z.eqb_refl in P. now apply prefix_firstn in P. }
  assert (G : forall h, (c = 35 -> firstn (List.length h) a <> h) -> delimited_prefix (c :: a) (35 :: h) = None).
  { intros h Q. destruct (Z.eq_dec c 35) as [E|E].
    - destruct (F h (Q E)) as [X|X]; [exact X|contradiction].
    - unfold delimited_prefix. cbn [input_prefix]. destruct (Z.eqb_spec c 35); [contradiction|reflexivity]. }
  split. { cbn [input_prefix]. destruct (Z.eqb_spec c 39); [exfalso; apply N; auto|reflexivity]. }
  split. { apply (G (codes "fload")). intros E. specialize (S E). destruct a; [contradiction S|]. apply S. }
  split. { apply (G (codes "read")). intros E. specialize (S E). destruct a; [contradiction S|]. apply S. }
  split; [apply (K 59); cbn [In]; tauto|]. split; [apply (K 124); cbn [In]; tauto|]. split; [apply (K 40); cbn [In]; tauto|].
  split; [apply (K 38); cbn [In]; tauto|]. split; [apply (K 46); cbn [In]; tauto|]. apply (K 60); cbn [In]; tauto.
Qed.
Definition tok_result (l : lexed) : Prop := match l with LData d _ => ordinary d \/ exists c, d = terminator c | LFail _ => True | _ => False end.
Lemma tok_res b i x : okres b i x -> tok_result (lex_res x).
Proof. destruct x as [[d j]| | |]; cbn; try contradiction; auto. intros [O _]. now left. Qed.
Lemma start_lex a : token_start a -> tok_result (lex a).
Proof.
  intros T. pose proof (start_none a T) as (N1 & N2 & N3 & N4 & N5 & N6 & N7 & N8 & N9).
  destruct a as [|c a]; [contradiction T|]. destruct T as (W & N & _). cbn [In] in N. unfold lex. rewrite N1, N2, N3, N4, N5, N6, N7, N8, N9.
  destruct (char_whitespace c) eqn:Wc; [now apply white_iff in Wc|]. destruct (Z.eqb_spec c 59); [exfalso; apply N; auto|].
  destruct (char_initial c). { destruct (span char_subsequent a). left. apply chars_datum_ord. vm_compute; tauto. }
  destruct (input_prefix_ci _ _) as [j|]. { destruct (span char_subsequent j). left. apply chars_datum_ord. vm_compute; tauto. }
  destruct (delimited_prefix _ (str ".")) as [j|]; [right; eauto|].
  destruct (delimited_prefix _ (str "+")) as [j|]; [left; ordi|]. destruct (delimited_prefix _ (str "-")) as [j|]; [left; ordi|].
  destruct (delimited_prefix _ (str "...")) as [j|]; [left; ordi|]. destruct (delimited_prefix_ci _ (str "#t")) as [j|]; [left; ordi|].
  destruct (delimited_prefix_ci _ (str "#f")) as [j|]; [left; ordi|].
  destruct (find_number_prefix (c :: a) number_prefixes) as [[j [e r]]|] eqn:P8.
  { destruct (find_number_ok _ _ _ _ _ prefixes_good P8) as [_ H]. exact (tok_res _ _ _ (number_ok j e r H)). }
  destruct (char_number_initial c); [exact (tok_res _ _ _ (number_ok (c :: a) None 10 (or_introl eq_refl)))|].
  destruct (input_prefix (c :: a) [35; 92]) as [j|]; [exact (tok_res _ _ _ (char_ok j))|].
  destruct (c =? 34); [exact (tok_res _ _ _ (string_ok (c :: a)))|].
  destruct (_ || _); [right; eauto|]. destruct (Z.eqb_spec c 40); [exfalso; apply N; auto|]. destruct (Z.eqb_spec c 91); [exfalso; apply N; auto|]. exact I.
Qed.
Lemma token_lex a d : token a d -> lex a = LData d [] /\ input_prefix a (str "#<<") = None /\ ordinary d.
Proof.
  intros (T & R & O). split; [|split; [apply (start_none a T)|exact O]]. pose proof (start_lex a T) as K.
  unfold reads_as, read_text in R. unfold enough in R. replace (2 * List.length a + 4)%nat with (S (S (2 * List.length a + 2))) in R by lia.
  remember (2 * List.length a + 2)%nat as m eqn:Em. clear Em. cbn [subread_top rd find_ext] in R. destruct (lex a) as [d' j|b|w j|tc j|j|j|n j]; cbn [tok_result] in K; try contradiction K; cbn [Model_Read.rbind] in R.
  - destruct K as [K|[c ->]]; [|discriminate R]. destruct (ord_types d' K) as (E1 & E2 & E3 & E4). rewrite E2, E3, E4 in R. now injection R as -> ->.
  - destruct b; discriminate R.
Qed.
Lemma token_lex_app a d rest : token a d -> ends_token rest \/ hd 0 a = 34 -> lex (a ++ rest) = LData d rest.
Proof.
  intros T E. destruct (token_lex a d T) as (L & H & O). destruct E as [E|E]; [apply ends_delimited in E; now apply lex_token|].
  destruct a as [|c a]; [discriminate E|]. cbn [hd] in E. subst c. now apply lex_string_token.
Qed.

(** ** extensions that stay aside *)
Definition away (i : text) : Prop := match i with [] => True | c :: i' => c <> 96 /\ c <> 44 /\ (c = 35 -> hd 0 i' <> 117) end.
Lemma aside_none r i : Forall aside r -> away i -> find_ext r i = None.
Proof.
  intros R A. induction R as [|e r (c & p & E & C) _ IH]; cbn [find_ext]; [reflexivity|].
  assert (P : input_prefix i (e_pfx e) = None).
  { rewrite E. destruct i as [|x i]; [reflexivity|]. cbn [input_prefix away] in *. destruct (Z.eqb_spec x c) as [->|]; [|reflexivity].
    destruct A as (A1 & A2 & A3). destruct C as [C|[C|[C H]]]; try contradiction. specialize (A3 C). destruct p as [|y p]; [discriminate H|]. cbn [hd] in H. subst y.
    destruct i as [|y i]; [reflexivity|]. cbn [input_prefix hd] in *. destruct (Z.eqb_spec y 117); [contradiction|reflexivity]. }
  unfold ext_match, delimited_prefix. rewrite P. destruct (e_param e); exact IH.
Qed.
Lemma data_away i d j : lex i = LData d j -> away i.
Proof.
  destruct i as [|c i]; [exact (fun _ => I)|]. intros L. cbn [away]. split; [|split].
  - intros ->. discriminate L.
  - intros ->. discriminate L.
  - intros -> H. destruct i as [|x i]; [discriminate H|]. cbn [hd] in H. subst x. discriminate L.
Qed.

(** ** reading, with as much depth as it takes *)
Section Reader.
Variable r : list ext.
Hypothesis R : Forall aside r.
Definition subR (i : text) (x : rres (sx * text)) : Prop := x <> RFuel /\ exists n, subread n r i = x.
Definition termR (i : text) (tc : Z) (dotted vec : bool) (limit : option Z) (x : rres (sx * text)) : Prop :=
  x <> RFuel /\ exists n, toterm n r i tc dotted true vec limit = x.
Definition topR (i : text) (x : rres (sx * text * list ext)) : Prop := x <> RFuel /\ exists n, subread_top n r i = x.
Definition rdR (i : text) (x : rres (sx * text)) : Prop := x <> RFuel /\ exists n, rd n r i = x.
Lemma rd_le n m i : (n <= m)%nat -> stable (rd n r i) (rd m r i).
Proof. induction 1 as [|m L IH]; [apply stable_refl|]. intros N. specialize (IH N). rewrite <- IH. apply engine_mono. now rewrite IH. Qed.
Lemma sub_le n m i : (n <= m)%nat -> stable (subread n r i) (subread m r i).
Proof. induction 1 as [|m L IH]; [apply stable_refl|]. intros N. specialize (IH N). rewrite <- IH. apply engine_mono. now rewrite IH. Qed.
Lemma term_le n m i tc dotted vec limit : (n <= m)%nat -> stable (toterm n r i tc dotted true vec limit) (toterm m r i tc dotted true vec limit).
Proof. induction 1 as [|m L IH]; [apply stable_refl|]. intros N. specialize (IH N). rewrite <- IH. apply engine_mono. now rewrite IH. Qed.

Lemma top_returns i x : topR i x -> returns r i x.
Proof. intros [N [n E]]. exists n. intros m L. rewrite <- E. apply top_mono_le; [exact L|now rewrite E]. Qed.
Lemma returns_fun i x y : returns r i x -> returns r i y -> x = y.
Proof. intros [n A] [m B]. rewrite <- (A (Nat.max n m)), <- (B (Nat.max n m)); [reflexivity|lia|lia]. Qed.

(** ** gaps *)
(** skipping: what is read after [j] is read from [i] *)
Definition skips (i j : text) : Prop :=
  (forall x, subR j x -> subR i x) /\ (forall x, topR j x -> topR i x) /\
  (forall tc dotted vec limit x, termR j tc dotted vec limit x -> termR i tc dotted vec limit x).
Lemma skips_refl i : skips i i. Proof. split; [auto|split; auto]. Qed.
Lemma skips_trans i j k : skips i j -> skips j k -> skips i k.
Proof. intros (A & B & C) (D & E & F). split; [auto|split; auto]. Qed.
Lemma atm_skips i j : rdR i (ROk (atmosphere, j)) -> skips i j.
Proof.
  intros [_ [n E]]. split; [|split].
  - intros x [N [m M]]. split; [exact N|]. exists (S (Nat.max n m)). cbn [subread].
    rewrite (rd_le n (Nat.max n m) i ltac:(lia)) by (rewrite E; discriminate). rewrite E. cbn [Model_Read.rbind].
    change (type_is atmosphere "eof") with false. change (type_is atmosphere "atmosphere") with true. cbv iota.
    rewrite (sub_le m (Nat.max n m) j ltac:(lia)); [exact M|now rewrite M].
  - intros x [N [m M]]. split; [exact N|]. exists (S (Nat.max n m)). cbn [subread_top].
    rewrite (rd_le n (Nat.max n m) i ltac:(lia)) by (rewrite E; discriminate). rewrite E. cbn [Model_Read.rbind].
    change (type_is atmosphere "atmosphere") with true. cbv iota.
    rewrite (top_mono_le m (Nat.max n m) r j ltac:(lia)); [exact M|now rewrite M].
  - intros tc dotted vec limit x [N [m M]]. split; [exact N|]. exists (S (Nat.max n m)). cbn [toterm].
    rewrite (rd_le n (Nat.max n m) i ltac:(lia)) by (rewrite E; discriminate). rewrite E. cbn [Model_Read.rbind].
    change (type_is atmosphere "eof") with false. change (type_is atmosphere "atmosphere") with true. cbv iota.
    rewrite (term_le m (Nat.max n m) j tc dotted vec limit ltac:(lia)); [exact M|now rewrite M].
Qed.
Lemma lex_rd i d j : lex i = LData d j -> rdR i (ROk (d, j)).
Proof. intros L. split; [discriminate|]. exists 1%nat. cbn [rd]. now rewrite (aside_none r i R (data_away _ _ _ L)), L. Qed.
(** the same first step *)
Lemma same_rd_skips i j : (forall n, rd n r i = rd n r j) -> skips i j.
Proof.
  intros H. split; [|split].
  - intros x [N [n E]]. split; [exact N|]. exists n. rewrite <- E. destruct n; [reflexivity|]. cbn [subread]. now rewrite H.
  - intros x [N [n E]]. split; [exact N|]. exists n. rewrite <- E. destruct n; [reflexivity|]. cbn [subread_top]. now rewrite H.
  - intros tc dotted vec limit x [N [n E]]. split; [exact N|]. exists n. rewrite <- E. destruct n; [reflexivity|]. cbn [toterm]. now rewrite H.
Qed.
Lemma lex_white c i : white c -> lex (c :: i) = let (d, j) := whitespace_loop i in LData d j.
Proof. intros W. unfold lex. apply white_iff in W. now rewrite W. Qed.
Lemma skip_white c i : white c -> skips (c :: i) i.
Proof.
  intros W. destruct i as [|x i].
  - apply same_rd_skips. intros [|n]; [reflexivity|]. cbn [rd].
    assert (L : lex [c] = LData eof []) by now rewrite (lex_white c [] W). rewrite L, (aside_none r [c] R (data_away _ _ _ L)).
    now rewrite (aside_none r [] R I).
  - destruct (char_whitespace x) eqn:X.
    + apply same_rd_skips. intros [|n]; [reflexivity|]. cbn [rd]. pose proof (proj1 (white_iff x) X) as W'.
      assert (L : lex (c :: x :: i) = lex (x :: i)) by (rewrite (lex_white c _ W), (lex_white x _ W'); cbn [whitespace_loop]; now rewrite X).
      assert (A : forall y k, white y -> away (y :: k)) by (unfold white; intros; cbn [away]; lia).
      rewrite L, (aside_none r _ R (A c _ W)), (aside_none r _ R (A x _ W')). reflexivity.
    + apply atm_skips, lex_rd. rewrite (lex_white c _ W). cbn [whitespace_loop]. now rewrite X.
Qed.
Lemma line_loop_app l i : ~ In 10 l -> line_loop (l ++ 10 :: i) = (atmosphere, i).
Proof.
  induction l as [|c l IH]; intros N; [reflexivity|]. cbn [app line_loop]. destruct (Z.eqb_spec c 10) as [->|]; [exfalso; apply N; now left|].
  apply IH. intros H. apply N. now right.
Qed.
Lemma skip_line l i : ~ In 10 l -> skips (59 :: l ++ 10 :: i) i.
Proof.
  intros N. apply atm_skips, lex_rd. change (lex (59 :: l ++ 10 :: i)) with (let (d, j) := line_loop (l ++ 10 :: i) in LData d j). now rewrite line_loop_app.
Qed.
(** block comments *)
Lemma quiet_tail c t : quiet (c :: t) -> quiet t.
Proof. intros Q a b. destruct (Q (c :: a) b) as [Q1 Q2]. split; intros ->; [now apply Q1|now apply Q2]. Qed.
Lemma block_quiet depth y i : forall t, quiet (t ++ [y]) -> block_loop depth (t ++ y :: i) = block_loop depth (y :: i).
Proof.
  induction t as [|c t IH]; intros Q; [reflexivity|]. cbn [app]. specialize (IH (quiet_tail c _ Q)).
  destruct (t ++ y :: i) as [|x u] eqn:E; [now destruct t|].
  assert (X : ((c =? 124) && (x =? 35)) = false /\ ((c =? 35) && (x =? 124)) = false).
  { assert (Y : exists b, (c :: t) ++ [y] = c :: x :: b).
    { destruct t as [|x' t]; cbn [app] in E; injection E as -> _; cbn [app]; eauto. }
    destruct Y as [b Y]. destruct (Q [] b) as [Q1 Q2]. rewrite Y in Q1, Q2. cbn [app] in *. split.
    - destruct (Z.eqb_spec c 124) as [->|]; [|reflexivity]. destruct (Z.eqb_spec x 35) as [->|]; [now contradiction Q2|reflexivity].
    - destruct (Z.eqb_spec c 35) as [->|]; [|reflexivity]. destruct (Z.eqb_spec x 124) as [->|]; [now contradiction Q1|reflexivity]. }
  destruct X as [X1 X2]. cbn [block_loop]. rewrite X1, X2. exact IH.
Qed.
Lemma block_body b : comment_body b -> forall depth i, block_loop depth (b ++ i) = match depth with O => ROk (atmosphere, i) | S k => block_loop k i end.
Proof.
  induction 1 as [t Q|t n k Q Hn IHn Hk IHk]; intros depth i.
  - rewrite <- app_assoc. cbn [app]. rewrite (block_quiet depth 124 _ t Q). reflexivity.
  - rewrite <- !app_assoc. cbn [app]. rewrite (block_quiet depth 35 _ t Q).
    change (block_loop depth (35 :: 124 :: n ++ k ++ i)) with (block_loop (S depth) (n ++ k ++ i)). rewrite IHn. apply IHk.
Qed.
Lemma skip_block b i : comment_body b -> skips (35 :: 124 :: b ++ i) i.
Proof.
  intros B. apply atm_skips, lex_rd. replace (lex (35 :: 124 :: b ++ i)) with (lex_res (block_loop 0 (b ++ i))) by (now destruct (b ++ i)). now rewrite (block_body b B).
Qed.
Lemma skip_datum i d k : subR i (ROk (d, k)) -> skips (35 :: 59 :: i) k.
Proof.
  intros [_ [n E]]. apply atm_skips. split; [discriminate|]. exists (S n). cbn [rd]. rewrite aside_none; [|exact R|cbn; lia].
  replace (lex (35 :: 59 :: i)) with (LSub (fun _ => atmosphere) i) by (now destruct i). rewrite E. reflexivity.
Qed.

(** ** data *)
Definition joined (vec : bool) (limit : option Z) (d : sx) (y : rres (sx * text)) : rres (sx * text) :=
  Model_Read.rbind y (fun di1 => ROk (match limit with Some l => if l =? 1 then d else kons vec d (fst di1) | None => kons vec d (fst di1) end, snd di1)).
Definition gives (d : sx) (i k : text) : Prop :=
  subR i (ROk (d, k)) /\ topR i (ROk (d, k, r)) /\
  (forall tc dotted vec limit y, termR k tc dotted vec (dec limit) y -> termR i tc dotted vec limit (joined vec limit d y)).
Lemma joined_fuel vec limit d y : y <> RFuel -> joined vec limit d y <> RFuel.
Proof. unfold joined. destruct y; cbn [Model_Read.rbind]; congruence. Qed.
Lemma rd_gives i d k : rdR i (ROk (d, k)) -> ordinary d -> gives d i k.
Proof.
  intros [_ [n E]] O. destruct (ord_types d O) as (E1 & E2 & E3 & E4). split; [|split].
  - split; [discriminate|]. exists (S n). cbn [subread]. rewrite E. cbn [Model_Read.rbind]. now rewrite E1, E2, E3, E4.
  - split; [discriminate|]. exists (S n). cbn [subread_top]. rewrite E. cbn [Model_Read.rbind]. now rewrite E2, E3, E4.
  - intros tc dotted vec limit y [N [m M]]. split; [now apply joined_fuel|]. exists (S (Nat.max n m)). cbn [toterm].
    rewrite (rd_le n (Nat.max n m) i ltac:(lia)) by (rewrite E; discriminate). rewrite E. cbn [Model_Read.rbind]. rewrite E1, E2, E3, E4.
    rewrite (term_le m (Nat.max n m) k tc dotted vec (dec limit) ltac:(lia)); [|now rewrite M]. rewrite M. reflexivity.
Qed.
Lemma skips_gives i j d k : skips i j -> gives d j k -> gives d i k.
Proof. intros (A & B & C) (D & E & F). split; [auto|]. split; [auto|]. auto. Qed.
(** a list in which [None] is a dot, closed by [c] *)
Fixpoint outcome (c : Z) (k : text) (tc : Z) (dotted vec : bool) (l : list (option sx)) (limit : option Z) : rres (sx * text) :=
  match l with
  | [] => if c =? tc then match limit with None => ROk (knil vec, k) | Some l => if l =? 0 then ROk (knil vec, k) else RErr end else RErr
  | None :: l' => if dotted then outcome c k tc dotted vec l' (Some 1) else RErr
  | Some d :: l' => joined vec limit d (outcome c k tc dotted vec l' (dec limit))
  end.
Definition fits_item (it : item) (o : option sx) : Prop :=
  match it, o with IDat t, Some d => means t d /\ ordinary d | IDot, None => True | _, _ => False end.
Lemma outcome_fuel c k tc dotted vec : forall l limit, outcome c k tc dotted vec l limit <> RFuel.
Proof.
  induction l as [|[d|] l IH]; intros limit; cbn [outcome].
  - destruct (c =? tc); [|discriminate]. destruct limit as [l|]; [destruct (l =? 0)|]; discriminate.
  - apply joined_fuel, IH.
  - destruct dotted; [apply IH|discriminate].
Qed.
Lemma term_close c k tc dotted vec limit : In c [41; 93] -> termR (c :: k) tc dotted vec limit (outcome c k tc dotted vec [] limit).
Proof.
  intros I. split; [apply outcome_fuel|]. exists 2%nat. cbn [toterm rd].
  assert (L : lex (c :: k) = LData (terminator c) k) by (cbn [In] in I; destruct I as [<-|[<-|I]]; [reflexivity|reflexivity|contradiction I]).
  rewrite (aside_none r _ R (data_away _ _ _ L)), L. cbn [Model_Read.rbind].
  change (type_is (terminator c) "eof") with false. change (type_is (terminator c) "atmosphere") with false.
  change (type_is (terminator c) "read-as") with false. change (type_is (terminator c) "terminator") with true. cbv iota. cbn [term_char terminator datum xlist Model_Read.rbind].
  replace (c =? 46) with false by (cbn [In] in I; lia). rewrite andb_false_r. reflexivity.
Qed.
Lemma term_dot j tc dotted vec limit y : ends_token j -> In tc [41; 93] -> (dotted = true -> termR j tc dotted vec (Some 1) y) -> (dotted = false -> y = RErr) ->
  termR (46 :: j) tc dotted vec limit y.
Proof.
  intros E I H1 H2. apply ends_delimited in E.
  assert (L : lex (46 :: j) = LData (terminator 46) j).
  { unfold lex. change (char_whitespace 46) with false. change (46 =? 59) with false. change (char_initial 46) with false. cbv iota.
    replace (input_prefix_ci (46 :: j) (str "->")) with (@None text) by reflexivity.
    unfold delimited_prefix. replace (input_prefix (46 :: j) (str ".")) with (Some j) by (now destruct j). now rewrite E. }
  assert (X : forall n, toterm (S (S n)) r (46 :: j) tc dotted true vec limit = if dotted then toterm (S n) r j tc dotted true vec (Some 1) else RErr).
  { intros n. cbn [toterm]. cbn [rd]. rewrite (aside_none r _ R (data_away _ _ _ L)), L. cbn [Model_Read.rbind].
    change (type_is (terminator 46) "eof") with false. change (type_is (terminator 46) "atmosphere") with false.
    change (type_is (terminator 46) "read-as") with false. change (type_is (terminator 46) "terminator") with true. cbv iota. cbn [term_char terminator datum xlist Model_Read.rbind].
    change (46 =? 46) with true. rewrite andb_true_r. destruct dotted; [reflexivity|]. replace (46 =? tc) with false by (cbn [In] in I; lia). reflexivity. }
  destruct dotted.
  - destruct (H1 eq_refl) as [N [m M]]. split; [exact N|]. exists (S (S m)). rewrite X. rewrite (term_le m (S m) j tc true vec (Some 1) ltac:(lia)); [exact M|now rewrite M].
  - rewrite (H2 eq_refl). split; [discriminate|]. exists 2%nat. apply X.
Qed.
Lemma rd_open (op tc : Z) i l c k : (op = 40 /\ tc = 41 \/ op = 91 /\ tc = 93) ->
  (forall tc dotted vec limit, In tc [41; 93] -> termR i tc dotted vec limit (outcome c k tc dotted vec l limit)) ->
  rdR (op :: i) (outcome c k tc true false l None).
Proof.
  intros H T. destruct (T tc true false None ltac:(cbn [In]; lia)) as [N [n E]]. split; [exact N|]. exists (S n). cbn [rd].
  rewrite aside_none; [|exact R|cbn [away]; lia]. replace (lex (op :: i)) with (LList tc i) by (destruct H as [[-> ->]|[-> ->]]; reflexivity). exact E.
Qed.
Lemma rd_vector i l c k d j : (forall tc dotted vec limit, In tc [41; 93] -> termR i tc dotted vec limit (outcome c k tc dotted vec l limit)) ->
  outcome c k 41 false true l None = ROk (d, j) -> rdR (35 :: 40 :: i) (ROk (XCons (sym "vector") d, j)).
Proof.
  intros T O. destruct (T 41 false true None ltac:(cbn [In]; lia)) as [N [n E]]. split; [discriminate|]. exists (S n). cbn [rd].
  rewrite aside_none; [|exact R|cbn [away hd]; lia]. replace (lex (35 :: 40 :: i)) with (LVector i) by (now destruct i). rewrite E, O. reflexivity.
Qed.
Lemma outcome_list c k vec dotted : forall ds, outcome c k c dotted vec (map Some ds) None = ROk (if vec then xlist ds else pairs ds (datum "null" []), k).
Proof.
  induction ds as [|d ds IH]; cbn [map outcome].
  - rewrite Z.eqb_refl. now destruct vec.
  - cbn [dec option_map]. rewrite IH. unfold joined. cbn [Model_Read.rbind fst snd]. unfold kons. now destruct vec.
Qed.
Lemma outcome_dot c k e : forall ds, outcome c k c true false (map Some ds ++ [None; Some e]) None = ROk (pairs ds e, k).
Proof.
  induction ds as [|d ds IH]; cbn [map outcome app].
  - cbn [dec option_map]. rewrite Z.eqb_refl. reflexivity.
  - cbn [dec option_map]. rewrite IH. reflexivity.
Qed.
Lemma items_data l : forall os, Forall2 fits_item (map IDat l) os -> exists ds, os = map Some ds /\ Forall2 (fun t d => means t d /\ ordinary d) l ds.
Proof.
  induction l as [|t l IH]; intros os F; inversion F as [|it o its os' H F' E1 E2]; subst; [exists []; auto|].
  destruct (IH os' F') as (ds & -> & G). destruct o as [d|]; [|contradiction H]. exists (d :: ds). auto.
Qed.
Lemma means_list : forall l ds, Forall2 (fun t d => means t d /\ ordinary d) l ds -> means (TList l) (pairs ds (datum "null" [])).
Proof. induction 1 as [|t d l ds [H _] _ IH]; cbn [pairs]; now constructor. Qed.
Lemma means_dot u e : means u e -> forall l ds, Forall2 (fun t d => means t d /\ ordinary d) l ds -> l <> [] -> means (TDot l u) (pairs ds e).
Proof.
  intros U. induction 1 as [|t d l ds [H _] F IH]; intros N; [contradiction|]. cbn [pairs]. destruct l as [|t' l].
  - inversion F; subst. now constructor.
  - constructor; [exact H|]. apply IH. discriminate.
Qed.
Lemma pairs_ord ds : ordinary (pairs ds (datum "null" [])). Proof. destruct ds; cbn [pairs]; ordi. Qed.
Lemma pairs_ord' ds e : ordinary e -> ordinary (pairs ds e). Proof. destruct ds; cbn [pairs]; [auto|intros; ordi]. Qed.
Lemma wrap_gives i k d w t pre : means t d -> ordinary d -> gives d i k -> (forall d, ordinary (w d)) -> away (pre ++ i) -> lex (pre ++ i) = LSub w i -> gives (w d) (pre ++ i) k.
Proof.
  intros M O ([_ [n E]] & _) W A L. apply rd_gives; [|apply W]. split; [discriminate|]. exists (S n). cbn [rd]. rewrite (aside_none r _ R A), L, E. reflexivity.
Qed.
End Reader.

Scheme gap_mind := Minimality for gap Sort Prop
  with wrote_mind := Minimality for wrote Sort Prop
  with seq_mind := Minimality for seq Sort Prop.
Combined Scheme spaced_mind from gap_mind, wrote_mind, seq_mind.

Section Main.
Variable r : list ext.
Hypothesis R : Forall aside r.
Definition reads_tree (t : tree) (i k : text) : Prop := exists d, means t d /\ ordinary d /\ gives r d i k.
Definition reads_seq (l : list item) (c : Z) (i k : text) : Prop :=
  In c [41; 93] /\ exists os, Forall2 fits_item l os /\
    forall tc dotted vec limit, In tc [41; 93] -> termR r i tc dotted vec limit (outcome c k tc dotted vec os limit).
Lemma open_ok op c l i k : (op = 40 /\ c = 41 \/ op = 91 /\ c = 93) -> reads_seq (map IDat l) c i k -> reads_tree (TList l) (op :: i) k.
Proof.
  intros H (_ & os & F & T). destruct (items_data l os F) as (ds & -> & G). exists (pairs ds (datum "null" [])).
  split; [now apply means_list|]. split; [apply pairs_ord|]. apply rd_gives; [|apply pairs_ord].
  pose proof (rd_open r R op c i (map Some ds) c k H T) as Q. now rewrite outcome_list in Q.
Qed.
Lemma dot_ok op c l t i k : (op = 40 /\ c = 41 \/ op = 91 /\ c = 93) -> l <> [] -> reads_seq (map IDat l ++ [IDot; IDat t]) c i k -> reads_tree (TDot l t) (op :: i) k.
Proof.
  intros H N (_ & os & F & T). apply Forall2_app_inv_l in F. destruct F as (o1 & o2 & F1 & F2 & ->).
  destruct (items_data l o1 F1) as (ds & -> & G). inversion F2 as [|a b c0 d0 X1 X2 X3 X4]; subst. inversion X2 as [|a' b' c1 d1 Y1 Y2 Y3 Y4]; subst. inversion Y2; subst.
  destruct b as [|]; [contradiction X1|]. destruct b' as [e|]; [|contradiction Y1]. destruct Y1 as [Y1 O1]. exists (pairs ds e).
  split; [now apply means_dot with (l := l)|]. split; [now apply pairs_ord'|]. apply rd_gives; [|now apply pairs_ord'].
  pose proof (rd_open r R op c i _ c k H T) as Q. now rewrite outcome_dot in Q.
Qed.
Theorem spaced :
  (forall i j, gap i j -> skips r i j) /\ (forall t i k, wrote t i k -> reads_tree t i k) /\ (forall l c i k, seq l c i k -> reads_seq l c i k).
Proof.
  apply spaced_mind.
  - apply skips_refl.
  - intros c i j W _ IH. exact (skips_trans _ _ _ _ (skip_white r R c i W) IH).
  - intros l i j N _ IH. exact (skips_trans _ _ _ _ (skip_line r R l i N) IH).
  - intros b i j B _ IH. exact (skips_trans _ _ _ _ (skip_block r R b i B) IH).
  - intros t i k j _ (d & _ & _ & G & _) _ IH. exact (skips_trans _ _ _ _ (skip_datum r R i d k G) IH).
  - intros t i j k _ S _ (d & M & O & G). exists d. split; [exact M|]. split; [exact O|]. exact (skips_gives r i j d k S G).
  - intros a d k T E. exists d. split; [now constructor|]. destruct (token_lex a d T) as (_ & _ & O). split; [exact O|].
    apply rd_gives; [|exact O]. apply (lex_rd r R). now apply token_lex_app.
  - intros t i k _ (d & M & O & G). eexists. split; [apply mn_quote; exact M|]. split; [ordi|].
    apply (wrap_gives r R i k d (fun d => datum "list" [datum "symbol" [XStr (codes "quote")]; d]) t [39] M O G); [intros; ordi|cbn [app away]; lia|now destruct i].
  - intros t i k E _ (d & M & O & G). eexists. split; [apply mn_load; exact M|]. split; [ordi|].
    apply (wrap_gives r R i k d (fun d => datum "list" [datum "symbol" [XStr (codes "load")]; d]) t (codes "#fload") M O G); [intros; ordi|change (codes "#fload") with [35; 102; 108; 111; 97; 100]; cbn [app away hd]; lia|].
    apply ends_delimited in E. change (codes "#fload") with [35; 102; 108; 111; 97; 100]. cbn [app].
    assert (P : delimited_prefix (35 :: 102 :: 108 :: 111 :: 97 :: 100 :: i) (str "#fload") = Some i).
    { unfold delimited_prefix. replace (input_prefix (35 :: 102 :: 108 :: 111 :: 97 :: 100 :: i) (str "#fload")) with (Some i) by (now destruct i). now rewrite E. }
    unfold lex. rewrite P. reflexivity.
  - intros t i k _ (d & M & O & G). eexists. split; [apply mn_box; exact M|]. split; [ordi|].
    apply (wrap_gives r R i k d (fun d => datum "box" [d]) t [35; 38] M O G); [intros; ordi|cbn [app away hd]; lia|now destruct i].
  - intros l i k _ H. apply (open_ok 40 41); [lia|exact H].
  - intros l i k _ H. apply (open_ok 91 93); [lia|exact H].
  - intros l t i k N _ H. apply (dot_ok 40 41); [lia|exact N|exact H].
  - intros l t i k N _ H. apply (dot_ok 91 93); [lia|exact N|exact H].
  - intros l i k _ (_ & os & F & T). destruct (items_data l os F) as (ds & -> & G). exists (XCons (sym "vector") (xlist ds)).
    assert (O : ordinary (XCons (sym "vector") (xlist ds))) by (exists "vector"%string, (xlist ds); split; [vm_compute; tauto|reflexivity]).
    split; [apply mn_vec; clear - G; induction G as [|t d l ds [H _] _ IH]; constructor; auto|]. split; [exact O|]. apply rd_gives; [|exact O].
    apply (rd_vector r R i (map Some ds) 41 k (xlist ds) k T). now rewrite outcome_list.
  - intros c i k I _ (_ & _ & S). split; [exact I|]. exists []. split; [constructor|]. intros tc dotted vec limit It. apply S. now apply term_close.
  - intros t l c i j k _ (d & M & O & _ & _ & G) _ (I & os & F & T). split; [exact I|]. exists (Some d :: os). split; [constructor; [now split|exact F]|].
    intros tc dotted vec limit It. cbn [outcome]. apply G. now apply T.
  - intros l c i j k _ (_ & _ & S) E _ (I & os & F & T). split; [exact I|]. exists (None :: os). split; [constructor; [exact Logic.I|exact F]|].
    intros tc dotted vec limit It. apply S. apply term_dot; [exact R|exact E|exact It| |]; intros ->; cbn [outcome]; [now apply T|reflexivity].
Qed.
End Main.
