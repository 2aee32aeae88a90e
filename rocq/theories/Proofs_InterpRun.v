(** Compiled code does what the expression means. *)
From Coq Require Import ZArith NArith String List Bool Lia FinFun.
From Verif Require Import Model_Interp Spec_Interp Proofs_Interp.
Import ListNotations.

(** ** Lists *)
Lemma put_spec {A} (l : list A) k v : (k < List.length l)%nat -> exists l', put l k v = Some l' /\ List.length l' = List.length l /\ nth_error l' k = Some v /\ forall j, j <> k -> nth_error l' j = nth_error l j.
Proof.
  revert k. induction l as [|a l IH]; intros k H; cbn in H; [lia|]. destruct k as [|k]; cbn [put].
  - exists (v :: l). repeat split. intros [|j] Nj; [congruence | reflexivity].
  - destruct (IH k) as (l' & E & L & N & O); [lia|]. rewrite E. exists (a :: l'). cbn. repeat split; auto. intros [|j] Nj; [reflexivity|]. apply O. congruence.
Qed.
Lemma replace_length {A} (l : list A) k v : List.length (replace l k v) = List.length l.
Proof. revert k. induction l as [|a l IH]; intros [|k]; cbn; auto. Qed.
Lemma replace_nth {A} (l : list A) k v j : nth_error (replace l k v) j = if Nat.eqb j k then match nth_error l k with Some _ => Some v | None => None end else nth_error l j.
Proof.
  revert k j. induction l as [|a l IH]; intros [|k] [|j]; cbn; auto. now destruct (Nat.eqb j k).
Qed.
Lemma put_at {A} (pre : list A) x post v : put (pre ++ x :: post) (List.length pre) v = Some (pre ++ v :: post).
Proof. induction pre as [|a pre IH]; cbn; [reflexivity|]. now rewrite IH. Qed.
Lemma fill_spec l : forall pre post i, i = S (List.length pre) -> (List.length l <= List.length post)%nat -> fill (List.length l) i (pre ++ post) l = Some (pre ++ l ++ skipn (List.length l) post).
Proof.
  induction l as [|v l IH]; intros pre post i -> H; [reflexivity|]. destruct post as [|x post]; [cbn in H; lia|]. cbn [List.length fill pred].
  rewrite put_at. assert (E : forall t, pre ++ v :: t = (pre ++ [v]) ++ t) by (intros; now rewrite <- app_assoc). rewrite E.
  rewrite (IH (pre ++ [v]) post); [|rewrite app_length; cbn; lia | cbn in H; lia]. rewrite <- app_assoc. reflexivity.
Qed.
Lemma fill_rest_spec k : forall l pre post i, i = S (List.length pre) -> List.length post = S k -> (k <= List.length l)%nat ->
  fill_rest k i (pre ++ post) l = Some (pre ++ firstn k l ++ [vlist (skipn k l)]).
Proof.
  induction k as [|k IH]; intros l pre post i -> Lp H; destruct post as [|x post]; try discriminate Lp; cbn [fill_rest pred].
  - destruct post; [|discriminate Lp]. apply put_at.
  - destruct l as [|v l]; [cbn in H; lia|]. rewrite put_at. assert (E : forall t, pre ++ v :: t = (pre ++ [v]) ++ t) by (intros; now rewrite <- app_assoc). rewrite E.
    rewrite (IH l (pre ++ [v]) post); [|rewrite app_length; cbn; lia | cbn in Lp; lia | cbn in H; lia]. cbn [firstn skipn]. now rewrite <- app_assoc.
Qed.

(** ** Number of arguments *)
Lemma ann_fixed k ac : (0 <= k -> 0 <= ac < 1000 -> argc_ok (argc_annotation k) ac = (ac =? k))%Z.
Proof.
  intros Hk Ha. unfold argc_ok, argc_annotation. rewrite Z.quot_div_nonneg, Z.rem_mod_nonneg by lia.
  destruct (Z.ltb_spec k 1000) as [L|L].
  - rewrite <- (Z.div_unique (k * 1000 + k) 1000 k k), <- (Z.mod_unique (k * 1000 + k) 1000 k k) by lia.
    destruct (Z.leb_spec k ac), (Z.leb_spec ac k), (Z.eqb_spec ac k); cbn; lia.
  - assert (D : (1000 <= (k * 1000 + k) / 1000)%Z) by (apply Z.div_le_lower_bound; lia).
    destruct (Z.leb_spec ((k * 1000 + k) / 1000) ac), (Z.eqb_spec ac k); cbn; lia.
Qed.
Lemma ann_rest k ac : (0 < k -> 0 <= ac < 1000 -> argc_ok (rest_argc_annotation k) ac = (k - 1 <=? ac))%Z.
Proof.
  intros Hk Ha. unfold argc_ok, rest_argc_annotation. rewrite Z.quot_div_nonneg, Z.rem_mod_nonneg by lia.
  rewrite <- (Z.div_unique ((k - 1) * 1000 + 999) 1000 (k - 1) 999), <- (Z.mod_unique ((k - 1) * 1000 + 999) 1000 (k - 1) 999) by lia.
  destruct (Z.leb_spec (k - 1) ac), (Z.leb_spec ac 999); cbn; lia.
Qed.
Definition entry_of (rest : bool) (n : nat) : entry :=
  if rest then match n with 1 => Er1 | 2 => Er2 | 3 => Er3 | _ => ErN n end%nat
  else match n with 0 => E0 | 1 => E1 | 2 => E2 | 3 => E3 | 4 => E4 | _ => EN n end%nat.
Definition ann_of (rest : bool) (n : nat) : Z := if rest then rest_argc_annotation (Z.of_nat n) else argc_annotation (Z.of_nat n).
Lemma spread_fixed ps : forall args, spread ps false args = if Nat.eqb (List.length args) (List.length ps) then Some args else None.
Proof.
  induction ps as [|p ps IH]; intros [|a args]; cbn [spread List.length Nat.eqb]; try reflexivity; [now destruct ps|]. rewrite IH.
  destruct ps; cbn [List.length]; now destruct (Nat.eqb _ _).
Qed.
Lemma spread_rest ps : ps <> [] -> forall args, spread ps true args = if Nat.leb (pred (List.length ps)) (List.length args) then Some (firstn (pred (List.length ps)) args ++ [vlist (skipn (pred (List.length ps)) args)]) else None.
Proof.
  induction ps as [|p ps IH]; [congruence|]. intros _ args. destruct ps as [|q ps]; [now destruct args|]. destruct args as [|a args]; [reflexivity|].
  change (spread (p :: q :: ps) true (a :: args)) with (option_map (cons a) (spread (q :: ps) true args)). rewrite IH by discriminate.
  cbn [List.length pred Nat.leb]. now destruct (Nat.leb _ _).
Qed.
Lemma bind_fixed n args : List.length args = n -> bind_args (entry_of false n) args = Some (match n with O => None | _ => Some args end).
Proof.
  intros <-. destruct args as [|a [|b [|c [|d [|e l]]]]]; try reflexivity. set (n := List.length (a :: b :: c :: d :: e :: l)).
  change (entry_of false n) with (EN n). cbn [bind_args].
  assert (F : fill 4 1 (repeat (VLit LVoid) n) [a; b; c; d] = Some ([a; b; c; d] ++ repeat (VLit LVoid) (List.length (e :: l)))) by reflexivity.
  rewrite F. replace (n - 4)%nat with (List.length (e :: l)) by (cbn; lia). rewrite fill_spec; [|reflexivity | now rewrite repeat_length].
  cbn [option_map]. rewrite skipn_all2 by now rewrite repeat_length. rewrite app_nil_r. reflexivity.
Qed.
Lemma bind_rest n args : (pred n <= List.length args)%nat -> n <> O -> bind_args (entry_of true n) args = Some (Some (firstn (pred n) args ++ [vlist (skipn (pred n) args)])).
Proof.
  intros H N. destruct n as [|[|[|[|n]]]]; [congruence| | | |]; cbn [pred] in *.
  - reflexivity.
  - destruct args as [|a l]; [cbn in H; lia | reflexivity].
  - destruct args as [|a [|b l]]; [cbn in H; lia.. | reflexivity].
  - destruct args as [|a [|b [|c l]]]; [cbn in H; lia..|]. change (entry_of true (S (S (S (S n))))) with (ErN (S (S (S (S n))))). cbn [bind_args].
    assert (F : fill 3 1 (repeat (VLit LVoid) (S (S (S (S n))))) [a; b; c] = Some ([a; b; c] ++ repeat (VLit LVoid) (S n))) by reflexivity.
    rewrite F. replace (S (S (S (S n))) - 4)%nat with n by lia. rewrite fill_rest_spec; [|reflexivity | apply repeat_length | cbn in H; lia]. reflexivity.
Qed.

(** ** Relations between the two kinds of states *)
Record wd : Type := mkwd { locs : list (nat * nat); parents : list rte; gn : list sym }.
Definition wext (W W' : wd) : Prop := prefix (locs W) (locs W') /\ prefix (parents W) (parents W') /\ prefix (gn W) (gn W').
Lemma wext_refl W : wext W W. Proof. repeat split; apply prefix_refl. Qed.
Lemma wext_trans A B C : wext A B -> wext B C -> wext A C.
Proof. intros (a & b & c) (d & e & f). repeat split; eapply prefix_trans; eauto. Qed.

Inductive erel (W : wd) : list (list sym) -> list (sym * nat) -> rte -> Prop :=
| er_nil r : erel W [] [] r
| er_cons xs cte ls env a p : List.length ls = List.length xs -> nth_error (parents W) a = Some p ->
  (forall k l, nth_error ls k = Some l -> nth_error (locs W) l = Some (a, S k)) -> erel W cte env p ->
  erel W (xs :: cte) (combine xs ls ++ env) (Some a).
Definition crel (W : wd) (c : sclo) (p : proc) : Prop :=
  let 'mkclo ps rest b env := c in
  exists G cte, prefix G (gn W) /\ (rest = true -> ps <> []) /\ comps G (cons_cte ps cte) b (p_body p) /\ handy b /\ erel W cte env (p_rte p) /\
  p_ann p = ann_of rest (List.length ps) /\ p_entry p = entry_of rest (List.length ps).
Definition vrel (W : wd) : sval -> value -> Prop := alike (crel W).

Lemma erel_ext W W' cte env r : wext W W' -> erel W cte env r -> erel W' cte env r.
Proof.
  intros (A & B & C). induction 1 as [|xs cte ls env a p L P K _ IH]; [constructor|]. econstructor; eauto using prefix_nth.
Qed.
Lemma crel_ext W W' c p : wext W W' -> crel W c p -> crel W' c p.
Proof.
  intros E. destruct c as [ps rest b env]. intros (G & cte & P & N & K & H & R & A & Z). exists G, cte. repeat split; auto.
  - destruct E as (_ & _ & C). now apply prefix_trans with (gn W).
  - now apply (erel_ext W).
Qed.
Lemma alike_impl {C D} (R S : C -> D -> Prop) v v' : (forall c d, R c d -> S c d) -> alike R v v' -> alike S v v'.
Proof. intros H. induction 1; constructor; auto. Qed.
Lemma vrel_ext W W' v v' : wext W W' -> vrel W v v' -> vrel W' v v'.
Proof. intros E. apply alike_impl. intros c d. now apply crel_ext. Qed.
Lemma vrels_ext W W' l l' : wext W W' -> Forall2 (vrel W) l l' -> Forall2 (vrel W') l l'.
Proof. intros E. induction 1; constructor; auto. now apply (vrel_ext W). Qed.
Lemma alike_quoted {C D} (R : C -> D -> Prop) d : alike R (quoted d) (quoted d).
Proof. induction d; cbn; now constructor. Qed.
Lemma alike_vlist {C D} (R : C -> D -> Prop) l l' : Forall2 (alike R) l l' -> alike R (vlist l) (vlist l').
Proof. induction 1; cbn; now constructor. Qed.
Lemma alike_falsy {C D} (R : C -> D -> Prop) v v' : alike R v v' -> falsy v = falsy v'.
Proof. now destruct 1. Qed.
Lemma alike_face {C D} (R : C -> D -> Prop) v v' : alike R v v' -> face v = face v'.
Proof. induction 1; cbn; congruence. Qed.

Section Sim.
Context {Wd : Type}.
Variable prim : forall C : Type, N -> list (val C) -> Wd -> pres C * Wd.
Hypothesis quiet : discreet prim.
Variable hole : nat -> option lit.
Hypothesis Hhole : forall n h, hole n = Some h -> h = if Nat.leb n 3 then LBool false else LVoid.
Definition partial : Prop := exists k, hole k = None.
Definition late_op (n : nat) : bool := Nat.leb 5 n.
Notation ev := (ev prim late_op hole).
Notation exec := (exec prim).
Notation mem := (@mem Wd). Notation state := (@state Wd).

Definition slot (h : list frame) (p : nat * nat) : option value :=
  match snd p with S k => match nth_error h (fst p) with Some f => nth_error (slots f) k | None => None end | O => None end.
Record mrel (W : wd) (m : mem) (s : state) : Prop := {
  m_len : List.length (locs W) = List.length (cells m);
  m_inj : NoDup (locs W);
  m_par : map parent (heap s) = parents W;
  m_cell : forall l p, nth_error (locs W) l = Some p -> exists v', slot (heap s) p = Some v' /\ (nth_error (cells m) l = Some None -> partial) /\ forall v, nth_error (cells m) l = Some (Some v) -> vrel W v v';
  m_gn : gnames (store s) = gn W;
  m_gnd : NoDup (gn W);
  m_glo : forall i x, nth_error (gn W) i = Some x -> exists v', glo_ref (store s) i = Some v' /\ vrel W (globals m x) v';
  m_own : forall x, ~ In x (gn W) -> globals m x = VSym x;
  m_wld : outside m = world s }.

Definition rr {A B} (W : wd) (P : wd -> A -> B -> Prop) (a : @sres Wd A) (b : @res Wd B) : Prop :=
  match a, b with
  | SUndef, _ => partial
  | SOk v m, Ok v' s => exists W', wext W W' /\ mrel W' m s /\ P W' v v'
  | SErr e m, Err e' s => e = e' /\ exists W', wext W W' /\ mrel W' m s
  | SMore, Timeout => True
  | _, _ => False
  end.
Lemma rr_ext {A B} W W' (P : wd -> A -> B -> Prop) a b : wext W W' -> rr W' P a b -> rr W P a b.
Proof.
  intros E. destruct a as [v m|e m| |], b as [v' s|e' s| |]; cbn; auto.
  - intros (W2 & E2 & R & H). exists W2. split; [now apply wext_trans with W' | auto].
  - intros (-> & W2 & E2 & R). split; [auto|]. exists W2. split; [now apply wext_trans with W' | auto].
Qed.
Lemma rr_bind {A B A' B'} W (P : wd -> A -> B -> Prop) (Q : wd -> A' -> B' -> Prop) a b f g : rr W P a b ->
  (forall W' v v' m s, wext W W' -> mrel W' m s -> P W' v v' -> rr W' Q (f v m) (g v' s)) -> rr W Q (sbind a f) (bind b g).
Proof.
  intros H K. destruct a as [v m|e m| |], b as [v' s|e' s| |]; cbn in *; auto; try contradiction.
  destruct H as (W' & E & R & H). apply (rr_ext W W'); auto.
Qed.
Lemma rr_ok {A B} W (P : wd -> A -> B -> Prop) v v' m s : mrel W m s -> P W v v' -> rr W P (SOk v m) (Ok v' s).
Proof. intros R H. exists W. split; [apply wext_refl | auto]. Qed.

(** *** Addresses *)
Fixpoint anc (ps : list rte) (up : nat) (r : rte) : option rte :=
  match up with O => Some r | S u => match r with Some a => match nth_error ps a with Some p => anc ps u p | None => None end | None => None end end.
Lemma frame_ref_0 h r : frame_ref h r 0 = match r with Some a => nth_error (map parent h) a | None => None end.
Proof. destruct r as [a|]; [|reflexivity]. unfold frame_ref, vector_ref. rewrite nth_error_map. now destruct (nth_error h a). Qed.
Lemma run_ref_anc h over : forall up r r', anc (map parent h) up r = Some r' -> run_ref h (gen_rte_ref up over) r = vector_ref h r' over.
Proof.
  fix IH 1. intros [|[|up]] r r' H; cbn [gen_rte_ref run_ref].
  - cbn in H. now injection H as ->.
  - rewrite frame_ref_0. destruct r as [a|]; [|discriminate]. cbn in H. destruct (nth_error (map parent h) a); [|discriminate]. now injection H as ->.
  - rewrite frame_ref_0. destruct r as [a|]; [|discriminate]. cbn in H. destruct (nth_error (map parent h) a) as [p|]; [|discriminate].
    rewrite frame_ref_0. destruct p as [a'|]; [|discriminate]. destruct (nth_error (map parent h) a') as [p'|]; [|discriminate]. now apply IH.
Qed.
Lemma anc_split ps up r r' : anc ps (S (S up)) r = Some r' -> exists p, anc ps 1 r = Some p /\ exists q, anc ps up p = Some q /\ anc ps 1 q = Some r'.
Proof.
  intros H. cbn [anc] in H. destruct r as [a|]; [|discriminate]. destruct (nth_error ps a) as [p|] eqn:Ea; [|discriminate].
  exists p. split; [cbn; now rewrite Ea|]. clear a Ea. change (anc ps (S up) p = Some r') in H. revert p H. induction up as [|up IH]; intros p H.
  - exists p. split; [reflexivity | exact H].
  - cbn [anc] in H |- *. destruct p as [b|]; [|discriminate]. destruct (nth_error ps b) as [p|]; [|discriminate]. apply IH. exact H.
Qed.
Lemma loop2_shift f x o : loop2 f x (S o) = option_map S (loop2 f x o).
Proof. revert o. induction f as [|y f IH]; intros o; cbn; [reflexivity|]. destruct (String.eqb y x); auto. Qed.
Lemma find_frame x xs : forall ls env, List.length ls = List.length xs ->
  find (combine xs ls ++ env) x = match loop2 xs x 1 with Some (S k) => nth_error ls k | Some O => None | None => find env x end /\
  match loop2 xs x 1 with Some o => exists k, o = S k /\ (k < List.length xs)%nat | None => True end.
Proof.
  induction xs as [|y xs IH]; intros [|l ls] env L; try discriminate L; cbn [combine app find loop2]; [auto|].
  destruct (String.eqb y x); [split; [reflexivity|]; exists O; split; [reflexivity | cbn; lia]|].
  destruct (IH ls env) as (A & B); [cbn in L; lia|]. rewrite A, (loop2_shift xs x 1). destruct (loop2 xs x 1) as [o|]; [|auto].
  destruct B as (k & -> & Lk). split; [reflexivity|]. exists (S k). split; [reflexivity | cbn; lia].
Qed.
Lemma loop1_shift cte x u : loop1 cte x (S u) = option_map (fun p => (S (fst p), snd p)) (loop1 cte x u).
Proof. revert u. induction cte as [|f cte IH]; intros u; cbn [loop1]; [reflexivity|]. destruct (loop2 f x 1); [reflexivity | apply IH]. Qed.
Lemma address W cte env r x : erel W cte env r ->
  match lookup cte x with
  | Some (up, over) => exists l a k, find env x = Some l /\ nth_error (locs W) l = Some (a, over) /\ over = S k /\ anc (parents W) up r = Some (Some a)
  | None => find env x = None
  end.
Proof.
  unfold lookup. induction 1 as [|xs cte ls env a p L P K _ IH]; [reflexivity|]. cbn [loop1].
  destruct (find_frame x xs ls env L) as (F & B). rewrite F. destruct (loop2 xs x 1) as [o|].
  - destruct B as (k & -> & Lk). destruct (nth_error ls k) as [l|] eqn:El; [|apply nth_error_None in El; lia].
    exists l, a, k. repeat split. now apply K.
  - rewrite (loop1_shift cte x 0). destruct (loop1 cte x 0) as [(up, over)|]; cbn [option_map fst snd]; [|exact IH].
    destruct IH as (l & b & k & A & Bl & -> & C). exists l, b, k. repeat split; auto. cbn [anc]. now rewrite P.
Qed.
Lemma vector_ref_slot h a k : vector_ref h (Some a) (S k) = option_map HV (slot h (a, S k)).
Proof. unfold vector_ref, slot. cbn [fst snd]. now destruct (nth_error h a). Qed.

Lemma read_local W cte env r m s x up over : erel W cte env r -> mrel W m s -> lookup cte x = Some (up, over) ->
  rr W vrel (read env x m) match run_ref (heap s) (gen_rte_ref up over) r with Some (HV v) => Ok v s | _ => UB end.
Proof.
  intros E R L. assert (A := address W cte env r x E). rewrite L in A. destruct A as (l & a & k & F & Lo & -> & An).
  rewrite (run_ref_anc (heap s) (S k) up r (Some a)) by (now rewrite (m_par _ _ _ R)). rewrite vector_ref_slot.
  destruct (m_cell _ _ _ R l (a, S k) Lo) as (v' & -> & Hn & Hv). cbn [option_map]. unfold read. rewrite F.
  destruct (nth_error (cells m) l) as [[v|]|] eqn:Ec; cbn; auto; [exists W; split; [apply wext_refl|]; auto|].
  apply nth_error_None in Ec. rewrite <- (m_len _ _ _ R) in Ec. apply nth_error_None in Ec. congruence.
Qed.
Lemma read_global W env m s x i : mrel W m s -> find env x = None -> nth_error (gn W) i = Some x -> rr W vrel (read env x m) (read_glo s i).
Proof.
  intros R F G. unfold read, read_glo. rewrite F. destruct (m_glo _ _ _ R i x G) as (v' & -> & H). now apply rr_ok.
Qed.

Lemma vector_set_ok W m s l a k v v' : mrel W m s -> nth_error (locs W) l = Some (a, S k) -> vrel W v v' ->
  exists h, vector_set (heap s) (Some a) (S k) v' = Some h /\ mrel W (set_cell m l v) (mkst h (store s) (world s)).
Proof.
  intros R L V. destruct (m_cell _ _ _ R l _ L) as (v0 & Sl & _). unfold slot in Sl. cbn [fst snd] in Sl. unfold vector_set.
  destruct (nth_error (heap s) a) as [f|] eqn:Ef; [|discriminate].
  destruct (put_spec (slots f) k v') as (sl & E1 & _ & N1 & O1); [apply nth_error_Some; congruence|]. rewrite E1.
  destruct (put_spec (heap s) a (mkframe (parent f) sl)) as (h & E2 & L2 & N2 & O2); [apply nth_error_Some; congruence|]. rewrite E2.
  exists h. split; [reflexivity|].
  assert (Sp : forall p, slot h p = if Nat.eqb (fst p) a && Nat.eqb (snd p) (S k) then Some v' else slot (heap s) p).
  { intros (b, [|j]); unfold slot; cbn [fst snd]; [now rewrite andb_false_r|]. cbn [Nat.eqb]. destruct (Nat.eqb_spec b a) as [->|Nb]; cbn [andb].
    - rewrite N2, Ef. cbn [slots]. destruct (Nat.eqb_spec j k) as [->|Nj]; [exact N1 | now apply O1].
    - now rewrite O2. }
  constructor; cbn [heap store world cells set_cell globals outside].
  - rewrite replace_length. apply (m_len _ _ _ R).
  - apply (m_inj _ _ _ R).
  - rewrite <- (m_par _ _ _ R). apply nth_ext with (d := None) (d' := None); [now rewrite !map_length|]. intros j _.
    destruct (Nat.eq_dec j a) as [->|Nj].
    + assert (A1 := map_nth_error parent _ _ N2). assert (A2 := map_nth_error parent _ _ Ef). cbn in A1. now rewrite (nth_error_nth _ _ _ A1), (nth_error_nth _ _ _ A2).
    + destruct (nth_error (heap s) j) as [g|] eqn:Eg.
      * assert (Eh : nth_error h j = Some g) by (rewrite O2; auto). assert (A1 := map_nth_error parent _ _ Eh). assert (A2 := map_nth_error parent _ _ Eg).
        now rewrite (nth_error_nth _ _ _ A1), (nth_error_nth _ _ _ A2).
      * apply nth_error_None in Eg. rewrite !nth_overflow; auto; rewrite map_length; lia.
  - intros l' p L'. rewrite Sp. destruct (m_cell _ _ _ R l' p L') as (w & Sw & Hn & Hw). rewrite replace_nth. destruct (Nat.eqb_spec l' l) as [->|Nl].
    + assert (p = (a, S k)) as -> by congruence. cbn [fst snd]. rewrite !Nat.eqb_refl. cbn [andb]. exists v'. split; [reflexivity|]. split; [destruct (nth_error (cells m) l); discriminate|].
      intros u Eu. destruct (nth_error (cells m) l); [|discriminate]. now injection Eu as <-.
    + assert (Np : p <> (a, S k)).
      { intros ->. apply Nl. eapply NoDup_nth_error; [apply (m_inj _ _ _ R) | apply nth_error_Some; congruence | congruence]. }
      assert (Nat.eqb (fst p) a && Nat.eqb (snd p) (S k) = false) as ->.
      { destruct p as (b, j). cbn [fst snd]. destruct (Nat.eqb_spec b a) as [->|]; [|reflexivity]. destruct (Nat.eqb_spec j (S k)) as [->|]; [congruence | reflexivity]. }
      eauto.
  - apply (m_gn _ _ _ R).
  - apply (m_gnd _ _ _ R).
  - apply (m_glo _ _ _ R).
  - apply (m_own _ _ _ R).
  - apply (m_wld _ _ _ R).
Qed.
Lemma glo_set_ok W m s i x v v' env : mrel W m s -> nth_error (gn W) i = Some x -> find env x = None -> vrel W v v' ->
  exists vs, glo_set (store s) i v' = Some vs /\ mrel W (write env x v m) (mkst (heap s) vs (world s)).
Proof.
  intros R G F V. unfold write. rewrite F. unfold glo_set. assert (Gn := m_gn _ _ _ R). unfold gnames in Gn.
  assert (G' := G). rewrite <- Gn, nth_error_map in G'. destruct (nth_error (rev (store s)) i) as [(y, v0)|] eqn:E0; [|discriminate]. cbn in G'. injection G' as ->.
  destruct (put_spec (rev (store s)) i (x, v')) as (l & E1 & L1 & N1 & O1); [apply nth_error_Some; congruence|]. rewrite E1. exists (rev l). split; [reflexivity|].
  constructor; cbn [heap store world cells globals outside].
  - apply (m_len _ _ _ R).
  - apply (m_inj _ _ _ R).
  - apply (m_par _ _ _ R).
  - apply (m_cell _ _ _ R).
  - rewrite <- Gn. unfold gnames. rewrite rev_involutive. apply nth_ext with (d := x) (d' := x); [now rewrite !map_length|]. intros j Hj. rewrite map_length in Hj.
    destruct (nth_error (rev (store s)) j) as [e|] eqn:Ej; [|apply nth_error_None in Ej; lia].
    assert (A2 := map_nth_error fst _ _ Ej). destruct (Nat.eq_dec j i) as [->|Nj].
    + assert (A1 := map_nth_error fst _ _ N1). rewrite (nth_error_nth _ _ _ A1), (nth_error_nth _ _ _ A2). rewrite E0 in Ej. now injection Ej as <-.
    + assert (El : nth_error l j = Some e) by (rewrite O1; auto). assert (A1 := map_nth_error fst _ _ El). now rewrite (nth_error_nth _ _ _ A1), (nth_error_nth _ _ _ A2).
  - apply (m_gnd _ _ _ R).
  - intros j y Gj. unfold glo_ref. rewrite rev_involutive. destruct (Nat.eq_dec j i) as [->|Nj].
    + rewrite N1. assert (y = x) as -> by congruence. rewrite String.eqb_refl. exists v'. auto.
    + rewrite O1 by auto. destruct (String.eqb_spec x y) as [<-|_]; [|apply (m_glo _ _ _ R j y Gj)].
      exfalso. apply Nj. eapply NoDup_nth_error; [apply (m_gnd _ _ _ R) | apply nth_error_Some; congruence | congruence].
  - intros y Ny. destruct (String.eqb_spec x y) as [<-|_]; [|apply (m_own _ _ _ R y Ny)]. exfalso. apply Ny. eapply nth_error_In; eauto.
  - apply (m_wld _ _ _ R).
Qed.

(** *** New frames *)
Definition wnew (W : wd) (a n : nat) (r : rte) : wd := mkwd (locs W ++ map (fun k => (a, S k)) (seq 0 n)) (parents W ++ [r]) (gn W).
Lemma wnew_ext W a n r : wext W (wnew W a n r).
Proof. repeat split; [apply prefix_app | apply prefix_app | apply prefix_refl]. Qed.
Lemma nth_error_seq a n k : nth_error (seq a n) k = if Nat.ltb k n then Some (a + k)%nat else None.
Proof.
  revert a k. induction n as [|n IH]; intros a [|k]; cbn [seq nth_error]; try reflexivity; [now rewrite Nat.add_0_r|]. rewrite IH.
  change (Nat.ltb (S k) (S n)) with (Nat.ltb k n). destruct (Nat.ltb k n); [f_equal; lia | reflexivity].
Qed.
Lemma frame_new W m s xs ovs vs' r cte env : mrel W m s -> erel W cte env r -> List.length ovs = List.length xs ->
  Forall2 (fun ov v' => (ov = None -> partial) /\ forall v, ov = Some v -> vrel W v v') ovs vs' ->
  let '(env', m') := extend xs ovs env m in let '(x, s') := new_frame s r vs' in
  exists W', wext W W' /\ mrel W' m' s' /\ erel W' (xs :: cte) env' x /\
  (forall k, (k < List.length xs)%nat -> nth_error (locs W') (List.length (cells m) + k) = Some (List.length (heap s), S k)) /\ x = Some (List.length (heap s)).
Proof.
  intros R E Le F. unfold extend, new_frame. set (a := List.length (heap s)). set (W' := wnew W a (List.length xs) r).
  assert (X : wext W W') by apply wnew_ext. exists W'. split; [exact X|].
  assert (Lv : List.length vs' = List.length xs) by (rewrite <- Le; symmetry; clear -F; induction F; cbn; congruence).
  assert (Pa : List.length (parents W) = a) by (rewrite <- (m_par _ _ _ R); apply map_length).
  assert (Ll := m_len _ _ _ R).
  assert (Nw : forall k, (k < List.length xs)%nat -> nth_error (locs W') (List.length (cells m) + k) = Some (a, S k)).
  { intros k Hk. cbn [locs wnew W']. rewrite nth_error_app2 by lia. replace (_ + k - _)%nat with k by lia. rewrite nth_error_map, nth_error_seq.
    assert (Nat.ltb k (List.length xs) = true) as -> by (now apply Nat.ltb_lt). reflexivity. }
  assert (Old : forall l p, nth_error (locs W) l = Some p -> (fst p < a)%nat).
  { intros l p Hl. destruct (m_cell _ _ _ R l p Hl) as (v & Sv & _). unfold slot in Sv. destruct p as (b, [|j]); cbn [fst snd] in *; [discriminate|].
    destruct (nth_error (heap s) b) eqn:Eb; [|discriminate]. apply nth_error_Some. congruence. }
  split; [|split; [|split; [exact Nw | reflexivity]]].
  - constructor; cbn [heap store world cells globals outside].
    + cbn [locs wnew W']. rewrite !app_length, map_length, seq_length. lia.
    + cbn [locs wnew W']. clear Nw. assert (Nd := m_inj _ _ _ R).
      assert (K : forall n, NoDup (map (fun k => (a, S k)) (seq 0 n))).
      { intros n. apply Injective_map_NoDup; [intros i j [= H]; exact H | apply seq_NoDup]. }
      assert (D : forall p, In p (locs W) -> ~ In p (map (fun k => (a, S k)) (seq 0 (List.length xs)))).
      { intros p Hp Hq. apply In_nth_error in Hp. destruct Hp as (l & Hl). apply Old in Hl. apply in_map_iff in Hq. destruct Hq as (k & <- & _). cbn in Hl. lia. }
      specialize (K (List.length xs)). revert Nd D K. generalize (locs W) (map (fun k => (a, S k)) (seq 0 (List.length xs))). clear. intros l1 l2 N1 D N2.
      induction N1 as [|p l H N1 IH]; cbn; [exact N2|]. constructor; [|apply IH; intros; apply D; now right].
      rewrite in_app_iff. intros [I|I]; [auto|]. apply (D p); [now left | exact I].
    + rewrite map_app, (m_par _ _ _ R). reflexivity.
    + intros l p Hl. destruct (Nat.ltb_spec l (List.length (cells m))) as [Lt|Ge].
      * assert (Hl' : nth_error (locs W) l = Some p) by (cbn [locs wnew W'] in Hl; rewrite nth_error_app1 in Hl by lia; exact Hl).
        destruct (m_cell _ _ _ R l p Hl') as (v' & Sv & Hn & Hv). exists v'. split; [|split].
        -- unfold slot in *. destruct p as (b, [|j]); cbn [fst snd] in *; [discriminate|]. apply Old in Hl'. cbn in Hl'. now rewrite nth_error_app1.
        -- rewrite nth_error_app1 by auto. exact Hn.
        -- rewrite nth_error_app1 by auto. intros v Ev. apply (vrel_ext W); auto.
      * assert (Hk : (l - List.length (cells m) < List.length xs)%nat).
        { assert (Z : (l < List.length (locs W'))%nat) by (apply nth_error_Some; congruence). cbn [locs wnew W'] in Z. rewrite app_length, map_length, seq_length in Z. lia. }
        assert (E1 := Nw _ Hk). replace (_ + (l - _))%nat with l in E1 by lia. assert (p = (a, S (l - List.length (cells m)))) as -> by congruence.
        unfold slot. cbn [fst snd]. rewrite nth_error_app2 by (fold a; lia). fold a. rewrite Nat.sub_diag. cbn [nth_error slots].
        rewrite nth_error_app2 by lia. set (k := (l - List.length (cells m))%nat) in *.
        assert (Fk : forall k, (k < List.length ovs)%nat -> exists ov v', nth_error ovs k = Some ov /\ nth_error vs' k = Some v' /\ (ov = None -> partial) /\ forall v, ov = Some v -> vrel W v v').
        { clear -F. induction F as [|o v l l' H F IH]; intros k Hk; cbn in Hk; [lia|]. destruct k; cbn; [eauto|]. apply IH. lia. }
        destruct (Fk k) as (ov & v' & E2 & E3 & Hn & Hv); [lia|]. exists v'. split; [exact E3|]. split; [rewrite E2; intros [= ->]; auto|]. intros v. rewrite E2. intros [= ->]. apply (vrel_ext W); auto.
    + apply (m_gn _ _ _ R).
    + apply (m_gnd _ _ _ R).
    + intros i x Gi. destruct (m_glo _ _ _ R i x Gi) as (v' & A & B). exists v'. split; [exact A | now apply (vrel_ext W)].
    + apply (m_own _ _ _ R).
    + apply (m_wld _ _ _ R).
  - econstructor.
    + now rewrite seq_length.
    + cbn [parents wnew W']. rewrite nth_error_app2 by lia. rewrite Pa, Nat.sub_diag. reflexivity.
    + intros k l Hl. rewrite nth_error_seq in Hl. destruct (Nat.ltb_spec k (List.length xs)); [|discriminate]. injection Hl as <-. now apply Nw.
    + now apply (erel_ext W).
Qed.

(** *** Loops of the two evaluators *)
Definition operands n env := fix operands (l : list aexp) (m : mem) {struct l} : sres (list sval) :=
  match l with
  | [] => SOk [] m
  | e :: l' => sbind (ev n e env m) (fun v m => sbind (operands l' m) (fun vs m => SOk (v :: vs) m))
  end.
Definition evaluate n r := fix evaluate (l : list code) (s : state) {struct l} : res (list value) :=
  match l with
  | [] => Ok [] s
  | c :: l' => bind (exec n c r s) (fun v s => bind (evaluate l' s) (fun vs s => Ok (v :: vs) s))
  end.
Definition inits n env' := fix inits (l : list aexp) (loc : nat) (m : mem) {struct l} : sres unit :=
  match l with
  | [] => SOk tt m
  | e :: l' => sbind (ev n e env' m) (fun v m => inits l' (S loc) (set_cell m loc v))
  end.
Definition init n x := fix init (l : list code) (i : nat) (s : state) {struct l} : res unit :=
  match l with
  | [] => Ok tt s
  | c :: l' => bind (exec n c x s) (fun v s => bind (set_heap s (vector_set (heap s) x i v)) (fun _ s => init l' (S i) s))
  end.
Definition scall n (f : sval) (args : list sval) (m : mem) : sres sval :=
  match f with
  | VClo (mkclo ps rest b env') =>
    match spread ps rest args with
    | Some vs => let (env', m) := extend ps (map Some vs) env' m in ev n b env' m
    | None => SErr BadArgc m
    end
  | VPrim p =>
    match prim sclo p args (outside m) with
    | (POk v, w) => SOk v (mkmem (cells m) (globals m) w)
    | (PErr e, w) => SErr (PrimError e) (mkmem (cells m) (globals m) w)
    end
  | _ => SErr BadProc m
  end.
Definition call n (argc : nat) (f : value) (args : list value) (s : state) : res value :=
  match f with
  | VClo p =>
    if argc_ok (p_ann p) (Z.of_nat argc) then
      match bind_args (p_entry p) args with
      | Some (Some l) => let (x, s) := new_frame s (p_rte p) l in exec n (p_body p) x s
      | Some None => exec n (p_body p) (p_rte p) s
      | None => UB
      end
    else Err BadArgc s
  | VPrim p =>
    match prim proc p args (world s) with
    | (POk v, w) => Ok v (mkst (heap s) (store s) w)
    | (PErr e, w) => Err (PrimError e) (mkst (heap s) (store s) w)
    end
  | _ => Err BadProc s
  end.
Lemma exec_comb n f cs r s : exec (S n) (gen_combination f cs) r s = bind (exec n f r s) (fun f s => bind (evaluate n r cs s) (fun l s => call n (List.length cs) f l s)).
Proof. destruct cs as [|a [|b [|c [|d [|e l]]]]]; reflexivity. Qed.
Lemma exec_glo n i cs r s : exec (S n) (code_glo i cs) r s =
  if late_op (List.length cs) then bind (evaluate n r cs s) (fun l s => bind (read_glo s i) (fun f s => call n (List.length cs) f l s))
  else bind (read_glo s i) (fun f s => bind (evaluate n r cs s) (fun l s => call n (List.length cs) f l s)).
Proof. destruct cs as [|a [|b [|c [|d [|e l]]]]]; reflexivity. Qed.
Definition hole_of (n : nat) : value := VLit (if Nat.leb n 3 then LBool false else LVoid).
Lemma exec_letrec n cs b r s : cs <> [] -> exec (S n) (gen_letrec cs b) r s =
  let (x, s) := new_frame s r (repeat (hole_of (List.length cs)) (List.length cs)) in bind (init n x cs 1 s) (fun _ s => exec n b x s).
Proof. destruct cs as [|a [|c [|d [|e l]]]]; [congruence|..]; reflexivity. Qed.
Lemma exec_lam n (rest : bool) k c r s :
  exec (S n) ((if rest then gen_lambda_rest else gen_lambda) k c) r s = Ok (VClo (mkproc (ann_of rest k) (entry_of rest k) c r)) s.
Proof. destruct rest; destruct k as [|[|[|[|[|k]]]]]; reflexivity. Qed.
Lemma ev_app n f args env m : ev (S n) (AApp f args) env m =
  match is_var f with
  | Some x =>
    if match find env x with None => late_op (List.length args) | Some _ => false end
    then sbind (operands n env args m) (fun l m => sbind (read env x m) (fun f m => scall n f l m))
    else sbind (read env x m) (fun f m => sbind (operands n env args m) (fun l m => scall n f l m))
  | None => sbind (ev n f env m) (fun f m => sbind (operands n env args m) (fun l m => scall n f l m))
  end.
Proof. reflexivity. Qed.
Lemma ev_letrec n xs es b env m : ev (S n) (ALetrec xs es b) env m =
  let (env', m') := extend xs (repeat (option_map VLit (hole (List.length xs))) (List.length xs)) env m in
  sbind (inits n env' es (List.length (cells m)) m') (fun _ m => ev n b env' m).
Proof. reflexivity. Qed.

Definition sim (n : nat) : Prop := forall G cte e c W env r m s,
  prefix G (gn W) -> comps G cte e c -> handy e -> erel W cte env r -> mrel W m s -> rr W vrel (ev n e env m) (exec n c r s).

Lemma operands_sim n G cte args cs : sim n -> Forall2 (comps G cte) args cs -> Forall handy args -> forall W env r m s,
  prefix G (gn W) -> erel W cte env r -> mrel W m s ->
  rr W (fun W l l' => Forall2 (vrel W) l l' /\ List.length l = List.length args) (operands n env args m) (evaluate n r cs s).
Proof.
  intros IH F. induction F as [|e c args cs H F IHf]; intros Ha W env r m s P E R; [now apply rr_ok|].
  inversion Ha as [|? ? H1 H2]; subst. cbn [operands evaluate].
  apply rr_bind with (P := vrel); [apply (IH G cte); auto|]. intros W1 v v' m1 s1 X1 R1 V1.
  assert (P1 : prefix G (gn W1)) by (destruct X1 as (_ & _ & X1); now apply prefix_trans with (gn W)).
  eapply rr_bind; [apply IHf; auto; now apply (erel_ext W)|]. intros W2 l l' m2 s2 X2 R2 (V2 & L2). apply rr_ok; [exact R2|].
  split; [constructor; [now apply (vrel_ext W1) | exact V2] | cbn; congruence].
Qed.
Lemma forall2_firstn {A B} (R : A -> B -> Prop) l l' k : Forall2 R l l' -> Forall2 R (firstn k l) (firstn k l').
Proof. intros F. revert k. induction F; intros [|k]; cbn; constructor; auto. Qed.
Lemma forall2_skipn {A B} (R : A -> B -> Prop) l l' k : Forall2 R l l' -> Forall2 R (skipn k l) (skipn k l').
Proof. intros F. revert k. induction F; intros [|k]; cbn; auto. Qed.
Lemma forall2_len {A B} (R : A -> B -> Prop) l l' : Forall2 R l l' -> List.length l = List.length l'.
Proof. induction 1; cbn; congruence. Qed.
(** the parameters of a procedure get the same values *)
Lemma args_sim W ps (rest : bool) args args' : (rest = true -> ps <> []) -> (List.length args < 1000)%nat -> Forall2 (vrel W) args args' ->
  match spread ps rest args with
  | Some vs => argc_ok (ann_of rest (List.length ps)) (Z.of_nat (List.length args)) = true /\ List.length vs = List.length ps /\
    exists vs', bind_args (entry_of rest (List.length ps)) args' = Some (match ps with [] => None | _ => Some vs' end) /\ Forall2 (vrel W) vs vs'
  | None => argc_ok (ann_of rest (List.length ps)) (Z.of_nat (List.length args)) = false
  end.
Proof.
  intros Hr La F. assert (Lf := forall2_len _ _ _ F). destruct rest; cbn [ann_of].
  - specialize (Hr eq_refl). rewrite spread_rest by exact Hr. set (n := List.length ps) in *. assert (N : n <> O) by (destruct ps; [congruence | discriminate]).
    rewrite ann_rest by lia. destruct (Nat.leb_spec (pred n) (List.length args)) as [L|L]; [|apply Z.leb_gt; lia].
    split; [apply Z.leb_le; lia|]. split; [rewrite app_length, firstn_length; cbn; lia|].
    exists (firstn (pred n) args' ++ [vlist (skipn (pred n) args')]). split; [rewrite bind_rest by (auto; lia); destruct ps; [congruence | reflexivity]|].
    apply Forall2_app; [now apply forall2_firstn|]. constructor; [|constructor]. apply alike_vlist. now apply forall2_skipn.
  - rewrite spread_fixed, ann_fixed by lia. destruct (Nat.eqb_spec (List.length args) (List.length ps)) as [L|L]; [|apply Z.eqb_neq; lia].
    split; [apply Z.eqb_eq; lia|]. split; [exact L|]. exists args'. split; [|exact F]. rewrite bind_fixed by lia. now destruct ps.
Qed.
Lemma world_sim W m s w : mrel W m s -> mrel W (mkmem (cells m) (globals m) w) (mkst (heap s) (store s) w).
Proof. intros []. constructor; auto. Qed.
Lemma mem_same (m : mem) : mkmem (cells m ++ []) (globals m) (outside m) = m.
Proof. rewrite app_nil_r. now destruct m. Qed.
Lemma call_sim n W f f' args args' m s : sim n -> mrel W m s -> vrel W f f' -> Forall2 (vrel W) args args' -> (List.length args < 1000)%nat ->
  rr W vrel (scall n f args m) (call n (List.length args) f' args' s).
Proof.
  intros IH R V F L. destruct V as [s0|k| |a b a' b' _ _|c p C|p]; cbn [scall call];
    try (split; [reflexivity|]; exists W; split; [apply wext_refl | exact R]).
  - destruct c as [ps rest b env]. destruct C as (G & cte & P & Ne & K & Hb & E & -> & ->).
    assert (A := args_sim W ps rest args args' Ne L F). destruct (spread ps rest args) as [vs|].
    + destruct A as (-> & Lv & vs' & -> & Fv). destruct ps as [|q ps].
      * destruct vs; [|discriminate Lv]. unfold extend. cbn [combine List.length seq map app]. rewrite mem_same. apply (IH G cte); auto.
      * assert (Z := frame_new W m s (q :: ps) (map Some vs) vs' (p_rte p) cte env R E). rewrite map_length in Z. specialize (Z Lv).
        destruct (extend (q :: ps) (map Some vs) env m) as (env2, m2). destruct (new_frame s (p_rte p) vs') as (x, s2).
        destruct Z as (W2 & X2 & R2 & E2 & _).
        { clear -Fv. induction Fv; cbn; constructor; auto. split; [discriminate|]. intros v [= <-]. auto. }
        apply (rr_ext W W2 _ _ _ X2). apply (IH G ((q :: ps) :: cte)); auto. destruct X2 as (_ & _ & X2). now apply prefix_trans with (gn W).
    + rewrite A. split; [reflexivity|]. exists W. split; [apply wext_refl | exact R].
  - rewrite <- (m_wld _ _ _ R). assert (Q := quiet sclo proc (crel W) p args args' (outside m) F).
    destruct (prim sclo p args (outside m)) as ([v|e], w), (prim proc p args' (outside m)) as ([v'|e'], w'); try contradiction.
    + destruct Q as (Q & <-). apply rr_ok; [now apply world_sim | exact Q].
    + destruct Q as (<- & <-). split; [reflexivity|]. exists W. split; [apply wext_refl | now apply world_sim].
Qed.
Lemma inits_sim n G cte es cs env x a : sim n -> Forall2 (comps G cte) es cs -> Forall handy es -> forall W m s loc i,
  prefix G (gn W) -> erel W cte env x -> mrel W m s -> x = Some a -> i <> O ->
  (forall k, (k < List.length es)%nat -> nth_error (locs W) (loc + k) = Some (a, (i + k)%nat)) ->
  rr W (fun _ _ _ => True) (inits n env es loc m) (init n x cs i s).
Proof.
  intros IH F. induction F as [|e c es cs H F IHf]; intros Ha W m s loc i P E R -> Ni Lo; [now apply rr_ok|].
  inversion Ha as [|? ? H1 H2]; subst. cbn [inits init].
  apply rr_bind with (P := vrel); [apply (IH G cte); auto|]. intros W1 v v' m1 s1 X1 R1 V1.
  assert (P1 : prefix G (gn W1)) by (destruct X1 as (_ & _ & X); now apply prefix_trans with (gn W)).
  destruct i as [|k]; [congruence|].
  assert (L0 : nth_error (locs W1) loc = Some (a, S k)).
  { destruct X1 as (X & _). apply (prefix_nth _ _ _ _ X). assert (Z := Lo O). rewrite !Nat.add_0_r in Z. apply Z. cbn. lia. }
  destruct (vector_set_ok W1 m1 s1 loc a k v v' R1 L0 V1) as (h & Eh & R2). rewrite Eh. cbn [set_heap bind].
  apply (IHf H2 W1); auto; [now apply (erel_ext W)|]. intros j Hj. destruct X1 as (X & _). apply (prefix_nth _ _ _ _ X).
  replace (S loc + j)%nat with (loc + S j)%nat by lia. replace (S (S k) + j)%nat with (S k + S j)%nat by lia. apply Lo. cbn. lia.
Qed.

Lemma set_sim n G cte x e c up over W env r m s : sim n -> prefix G (gn W) -> lookup cte x = Some (up, over) -> comps G cte e c -> handy e -> erel W cte env r -> mrel W m s ->
  rr W vrel (sbind (ev n e env m) (fun v m => SOk (VLit LVoid) (write env x v m))) (exec (S n) (gen_rte_set up over c) r s).
Proof.
  intros IH P L K H E R.
  assert (Fin : forall W1 v v' m1 s1, wext W W1 -> mrel W1 m1 s1 -> vrel W1 v v' -> exists a k, over = S k /\ anc (parents W) up r = Some (Some a) /\ anc (parents W1) up r = Some (Some a) /\
    rr W1 vrel (SOk (VLit LVoid) (write env x v m1)) (set_heap s1 (vector_set (heap s1) (Some a) over v'))).
  { intros W1 v v' m1 s1 X1 R1 V1. assert (E1 := erel_ext _ _ _ _ _ X1 E). assert (A := address W cte env r x E). assert (A1 := address W1 cte env r x E1). rewrite L in A, A1.
    destruct A as (l & a & k & F & Lo & Eo & An). destruct A1 as (l1 & a1 & k1 & F1 & Lo1 & Eo1 & An1). assert (l1 = l) as -> by congruence.
    destruct X1 as (X & _). apply (prefix_nth _ _ _ _ X) in Lo. assert (a1 = a) as -> by congruence. exists a, k. split; [exact Eo|]. split; [exact An|]. split; [exact An1|].
    subst over. destruct (vector_set_ok W1 m1 s1 l a k v v' R1 Lo V1) as (h & -> & R2). cbn [set_heap]. unfold write. rewrite F. apply rr_ok; [exact R2 | constructor]. }
  assert (Hc := IH G cte e c W env r m s P K H E R).
  destruct up as [|[|up]]; cbn [gen_rte_set].
  - cbn [exec Model_Interp.exec]. apply rr_bind with (P := vrel); [exact Hc|]. intros W1 v v' m1 s1 X1 R1 V1.
    destruct (Fin W1 v v' m1 s1 X1 R1 V1) as (a & k & _ & An & _ & Z). cbn in An. injection An as ->. exact Z.
  - cbn [exec Model_Interp.exec]. apply rr_bind with (P := vrel); [exact Hc|]. intros W1 v v' m1 s1 X1 R1 V1.
    destruct (Fin W1 v v' m1 s1 X1 R1 V1) as (a & k & _ & _ & An & Z). rewrite frame_ref_0, (m_par _ _ _ R1). destruct r as [b|]; [|discriminate]. cbn in An.
    destruct (nth_error (parents W1) b) as [p|]; [|discriminate]. injection An as ->. exact Z.
  - assert (A := address W cte env r x E). rewrite L in A. destruct A as (l & a & k & F & Lo & Eo & An).
    destruct (anc_split _ _ _ _ An) as (p & A1 & q & A2 & A3). cbn [exec Model_Interp.exec]. rewrite frame_ref_0, (m_par _ _ _ R).
    destruct r as [b|]; [|discriminate]. cbn in A1. destruct (nth_error (parents W) b) as [p'|]; [|discriminate]. injection A1 as ->.
    rewrite (run_ref_anc (heap s) 0 up p q) by (now rewrite (m_par _ _ _ R)).
    assert (Vq : vector_ref (heap s) q 0 = Some (HR (Some a))).
    { destruct q as [d|]; [|discriminate]. cbn in A3. rewrite <- (m_par _ _ _ R), nth_error_map in A3. unfold vector_ref. destruct (nth_error (heap s) d); [|discriminate]. cbn in A3. congruence. }
    rewrite Vq. apply rr_bind with (P := vrel); [exact Hc|]. intros W1 v v' m1 s1 X1 R1 V1.
    destruct (Fin W1 v v' m1 s1 X1 R1 V1) as (a' & k' & _ & An' & _ & Z). assert (a' = a) as -> by congruence. exact Z.
Qed.

Lemma exec_sim n : sim n.
Proof.
  assert (At : forall n G cte x c W env r m s, prefix G (gn W) -> comps G cte (AVar x) c -> erel W cte env r -> mrel W m s -> rr W vrel (read env x m) (exec n c r s)).
  { clear n. intros n G cte x c W env r m s P K E R. inversion K; subst.
    - assert (Z := read_local W cte env r m s x up over E R ltac:(assumption)). now destruct n.
    - assert (A := address W cte env r x E). match goal with L : lookup _ _ = None |- _ => rewrite L in A end. assert (Z := read_global W env m s x i R A (prefix_nth _ _ _ _ P ltac:(eassumption))). now destruct n. }
  induction n as [|n IH]; intros G cte e c W env r m s P K H E R.
  - destruct e; try (exact (At O G cte x c W env r m s P K E R)).
    + inversion K; subst. cbn. now apply rr_ok; [|apply alike_quoted].
    + inversion K; subst; cbn; [destruct up as [|[|up]]|]; exact Logic.I.
    + inversion K; subst. cbn [ev Spec_Interp.ev]. destruct rest; destruct ps as [|p1 [|p2 [|p3 [|p4 [|p5 ps]]]]]; exact Logic.I.
    + inversion K; subst. exact Logic.I.
    + inversion K; subst. exact Logic.I.
    + inversion K; subst. destruct cs as [|c1 [|c2 [|c3 [|c4 cs]]]]; exact Logic.I.
    + inversion K; subst. exact Logic.I.
    + inversion K; subst; destruct cs as [|c1 [|c2 [|c3 [|c4 [|c5 cs]]]]]; exact Logic.I.
    + inversion K; subst. apply (At O G cte x c W env r m s); assumption.
  - destruct e.
    + exact (At (S n) G cte x c W env r m s P K E R).
    + inversion K; subst. now apply rr_ok; [|apply alike_quoted].
    + inversion H; subst. inversion K; subst.
      * now apply (set_sim n G cte x e c0).
      * change (rr W vrel (sbind (ev n e env m) (fun v m => SOk (VLit LVoid) (write env x v m)))
          (bind (exec n c0 r s) (fun v s => match glo_set (store s) i v with Some vs => Ok (VLit LVoid) (mkst (heap s) vs (world s)) | None => UB end))).
        apply rr_bind with (P := vrel); [apply (IH G cte); auto|]. intros W1 v v' m1 s1 X1 R1 V1.
        assert (A := address W cte env r x E). match goal with L : lookup _ _ = None |- _ => rewrite L in A end. destruct X1 as (_ & _ & X).
        destruct (glo_set_ok W1 m1 s1 i x v v' env R1) as (vs & -> & R2); auto; [|apply rr_ok; [exact R2 | constructor]].
        apply (prefix_nth _ _ _ _ X). now apply (prefix_nth _ _ _ _ P).
    + inversion H; subst. inversion K; subst. rewrite exec_lam. apply rr_ok; [exact R|]. constructor. exists G, cte. repeat split; auto.
    + inversion H; subst. inversion K; subst. change (rr W vrel (sbind (ev n e1 env m) (fun v m => ev n (if falsy v then e3 else e2) env m))
        (bind (exec n ca r s) (fun v s => if falsy v then exec n cc r s else exec n cb r s))).
      apply rr_bind with (P := vrel); [apply (IH G cte); auto|]. intros W1 v v' m1 s1 X1 R1 V1. rewrite <- (alike_falsy _ _ _ V1).
      assert (P1 : prefix G (gn W1)) by (destruct X1 as (_ & _ & X); now apply prefix_trans with (gn W)). assert (E1 := erel_ext _ _ _ _ _ X1 E).
      destruct (falsy v); apply (IH G cte); auto.
    + inversion H; subst. inversion K; subst. change (rr W vrel (sbind (ev n e1 env m) (fun v m => if falsy v then SOk VNil m else ev n e2 env m))
        (bind (exec n ca r s) (fun v s => if falsy v then Ok VNil s else exec n cb r s))).
      apply rr_bind with (P := vrel); [apply (IH G cte); auto|]. intros W1 v v' m1 s1 X1 R1 V1. rewrite <- (alike_falsy _ _ _ V1).
      assert (P1 : prefix G (gn W1)) by (destruct X1 as (_ & _ & X); now apply prefix_trans with (gn W)). assert (E1 := erel_ext _ _ _ _ _ X1 E).
      destruct (falsy v); [apply rr_ok; [auto | constructor] | apply (IH G cte); auto].
    + inversion H; subst. inversion K; subst. match goal with F : Forall2 _ _ _ |- _ => assert (Lc := forall2_len _ _ _ F) end. destruct xs as [|x0 xs]; [congruence|]. cbn [cons_cte] in *.
      rewrite exec_letrec by (destruct cs; [cbn in *; lia | discriminate]). rewrite ev_letrec.
      set (k := List.length (x0 :: xs)) in *. replace (List.length cs) with k by lia.
      assert (Z := frame_new W m s (x0 :: xs) (repeat (option_map VLit (hole k)) k) (repeat (hole_of k) k) r cte env R E (repeat_length _ _)).
      destruct (extend (x0 :: xs) (repeat (option_map VLit (hole k)) k) env m) as (env2, m2). destruct (new_frame s r (repeat (hole_of k) k)) as (x, s2).
      destruct Z as (W2 & X2 & R2 & E2 & Lo & Ex).
      { generalize k at 2 4. intros j. induction j as [|j IHj]; cbn [repeat]; constructor; auto. unfold hole_of. split; [intros En; exists k; now destruct (hole k)|]. intros v Ev.
        destruct (hole k) as [h|] eqn:Eh; [|discriminate]. cbn in Ev. injection Ev as <-. rewrite (Hhole k h Eh). constructor. }
      assert (P2 : prefix G (gn W2)) by (destruct X2 as (_ & _ & X); now apply prefix_trans with (gn W)).
      apply (rr_ext W W2 _ _ _ X2). eapply rr_bind.
      * eapply (inits_sim n G ((x0 :: xs) :: cte)); eauto. intros j Hj. apply Lo. change (j < k)%nat. lia.
      * intros W3 _ _ m3 s3 X3 R3 _. apply (IH G ((x0 :: xs) :: cte)); auto; [destruct X3 as (_ & _ & X); now apply prefix_trans with (gn W2) | now apply (erel_ext W2)].
    + inversion H; subst. inversion K; subst. change (rr W vrel (sbind (ev n e1 env m) (fun _ m => ev n e2 env m)) (bind (exec n ca r s) (fun _ s => exec n cb r s))).
      apply rr_bind with (P := vrel); [apply (IH G cte); auto|]. intros W1 v v' m1 s1 X1 R1 V1.
      apply (IH G cte); auto; [destruct X1 as (_ & _ & X); now apply prefix_trans with (gn W) | now apply (erel_ext W)].
    + inversion H; subst. inversion K; subst.
      * assert (A := address W cte env r x E). match goal with L : lookup _ _ = None |- _ => rewrite L in A end. match goal with F : Forall2 _ _ _ |- _ => assert (Lc := forall2_len _ _ _ F) end. rewrite exec_glo, ev_app. cbn [is_var]. rewrite A. rewrite Lc. destruct (late_op (List.length cs)).
        -- eapply rr_bind; [apply (operands_sim n G cte args cs); auto|]. intros W1 l l' m1 s1 X1 R1 (F1 & L1).
           eapply rr_bind; [apply (read_global W1 env m1 s1 x i R1 A)|].
           ++ destruct X1 as (_ & _ & X). apply (prefix_nth _ _ _ _ X). now apply (prefix_nth _ _ _ _ P).
           ++ intros W2 f f' m2 s2 X2 R2 V2. rewrite <- Lc, <- L1. apply call_sim; auto; [now apply (vrels_ext W1) | lia].
        -- eapply rr_bind; [apply (read_global W env m s x i R A); now apply (prefix_nth _ _ _ _ P)|]. intros W1 f f' m1 s1 X1 R1 V1.
           eapply rr_bind; [apply (operands_sim n G cte args cs); auto; [destruct X1 as (_ & _ & X); now apply prefix_trans with (gn W) | now apply (erel_ext W)]|].
           intros W2 l l' m2 s2 X2 R2 (F2 & L2). rewrite <- Lc, <- L2. apply call_sim; auto; [now apply (vrel_ext W1) | lia].
      * match goal with F : Forall2 _ _ _ |- _ => assert (Lc := forall2_len _ _ _ F) end. rewrite exec_comb, ev_app.
        assert (D : rr W vrel (match is_var e with Some x => read env x m | None => ev n e env m end) (exec n c0 r s)).
        { destruct e; cbn [is_var]; try (apply (IH G cte); auto). apply (At n G cte x c0 W env r m s); assumption. }
        assert (Fin : rr W vrel (sbind (match is_var e with Some x => read env x m | None => ev n e env m end) (fun f m => sbind (operands n env args m) (fun l m => scall n f l m)))
          (bind (exec n c0 r s) (fun f s => bind (evaluate n r cs s) (fun l s => call n (List.length cs) f l s)))).
        { eapply rr_bind; [exact D|]. intros W1 f f' m1 s1 X1 R1 V1.
          eapply rr_bind; [apply (operands_sim n G cte args cs); auto; [destruct X1 as (_ & _ & X); now apply prefix_trans with (gn W) | now apply (erel_ext W)]|].
          intros W2 l l' m2 s2 X2 R2 (F2 & L2). rewrite <- Lc, <- L2. apply call_sim; auto; [now apply (vrel_ext W1) | lia]. }
        destruct e; cbn [is_var] in *; try exact Fin. assert (A := address W cte env r x E). match goal with N : forall _, AVar _ = AVar _ -> _ |- _ => specialize (N x eq_refl) end. destruct (lookup cte x) as [(up, over)|]; [|congruence].
        destruct A as (l & _ & _ & -> & _). exact Fin.
    + inversion K; subst. apply (At (S n) G cte x c W env r m s); assumption.
Qed.
End Sim.
