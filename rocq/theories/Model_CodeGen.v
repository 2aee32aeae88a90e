(** The code generator: from lifted programs to C code.  Source: /repo/7.sf:53-78 (bgc-exp), 126-518 (code-gen-to-nextreg),
    520-702 (labels, curries, compile-labels).

    The generated text is a tree here: C expressions and statements.  Left out: comments, max-live, the reserve of registers
    (C09) and of heap (C08), the texts of operations and their clean-up (C43, C47), the short forms of conditional expressions
    (C48), the numbers of cases and the names of labels and variables (C23): a label stands for itself.  [None]: the compiler
    stops with an error, or makes C code with an undefined label. *)
From Coq Require Import ZArith String List Bool.
From Verif Require Import Base Model_Lit Model_Core Model_Beta.
Import ListNotations.
Open Scope Z_scope.

(** 3.sf:238-239 *)
Definition cvar_type (x : id) : option (list Z) := if global_id x then None else match xt x with XC t => Some t | _ => None end.

(** ** The generated code *)
Inductive cexp :=
| XReg (i : nat)                               (** r[i] *)
| XGlob (x : id)
| XCvar (x : id)
| XIf (a b c : cexp)
| XPrim (p : prim) (l : list cexp).
(** where a value goes: nowhere, to a register, a global variable, or a C variable of some type *)
Inductive tgt := TVoid | TReg (i : nat) | TGlob (x : id) | TCvar (x : id) (t : list Z).
Inductive code :=
| KSet (t : tgt) (c : cexp)
| KPrim (t : tgt) (p : prim) (l : list cexp)
| KClo (t : tgt) (lab : id) (l : list cexp)    (** a closure; the values of [l] are pushed on the heap, the last one comes first in the block *)
| KStatic (x : id) (lab : id)
| KSeq (a b : code)
| KBlock (x : id) (a : code)                   (** { type x; ... } *)
| KIf (c : cexp) (a b : code)
| KGoto (shift : option nat) (lab : id) (l : list cexp)  (** [Some n]: the operands go to r[n], ..., then the window is moved by [n] *)
| KJump (shift : option nat) (l : list cexp).

(** register environments, latest register first; [None]: a temporary *)
Notation renv := (list (option id)).
Fixpoint rposq (x : id) (l : renv) : option nat :=
  match l with
  | [] => None
  | Some y :: l' => if id_eqb y x then Some O else option_map S (rposq x l')
  | None :: l' => option_map S (rposq x l')
  end.
(** 7.sf:148-164, 463-465 *)
Definition cg_var (x : id) (r : renv) : option cexp :=
  if label_id x then None
  else if global_id x then Some (XGlob x)
  else match cvar_type x with
       | Some _ => Some (XCvar x)
       | None => match rposq x r with Some p => Some (XReg (length r - p - 1)) | None => None end
       end.

(** 7.sf:446-459 and 430-444 *)
Fixpoint cg_cexpp (e : exp) : bool :=
  match e with
  | EVar _ => true
  | EIf a b c => cg_cexpp a && cg_cexpp b && cg_cexpp c
  | EPrim _ p l => prim_cexp p && forallb cg_cexpp l
  | _ => false
  end.
Fixpoint cg_gcsafe_cexpp (e : exp) : bool :=
  match e with
  | EVar _ => true
  | EIf a b c => cg_gcsafe_cexpp a && cg_gcsafe_cexpp b && cg_gcsafe_cexpp c
  | EPrim ef p l => prim_cexp p && gc_safe_effect ef && forallb cg_gcsafe_cexpp l
  | _ => false
  end.
Fixpoint all_some {A} (l : list (option A)) : option (list A) :=
  match l with
  | [] => Some []
  | o :: l' => match o, all_some l' with Some a, Some r => Some (a :: r) | _, _ => None end
  end.
(** 7.sf:461-502 *)
Fixpoint cg_cexp (e : exp) (r : renv) : option cexp :=
  match e with
  | EVar x => cg_var x r
  | EIf a b c => match cg_cexp a r, cg_cexp b r, cg_cexp c r with Some a', Some b', Some c' => Some (XIf a' b' c') | _, _, _ => None end
  | EPrim _ p l => option_map (XPrim p) (all_some (map (fun e => cg_cexp e r) l))
  | _ => None
  end.

(** code that computes an expression to a target *)
Notation gen := (tgt -> renv -> option code).
Definition kseq (a b : option code) : option code := match a, b with Some a, Some b => Some (KSeq a b) | _, _ => None end.
(** 7.sf:185-205 cg-prim-args, in two parts: the code that computes some of the operands to new registers, [k] is what
    follows it; and the C expressions of the operands with the last environment *)
Fixpoint cg_temps (l : list (exp * gen)) (r : renv) (k : option code) : option code :=
  match l with
  | [] => k
  | (e, g) :: l' => if cg_gcsafe_cexpp e then cg_temps l' r k else kseq (g (TReg (length r)) r) (cg_temps l' (None :: r) k)
  end.
Fixpoint cg_args (l : list exp) (r : renv) : option (list cexp * renv) :=
  match l with
  | [] => Some ([], r)
  | e :: l' =>
    if cg_gcsafe_cexpp e then
      match cg_cexp e r, cg_args l' r with Some c, Some (cs, r') => Some (c :: cs, r') | _, _ => None end
    else match cg_args l' (None :: r) with Some (cs, r') => Some (XReg (length r) :: cs, r') | None => None end
  end.
(** 7.sf:321-335 cg-primapp-to: [k] makes the last statement of the operands and the number of live registers *)
Definition cg_primapp (l : list (exp * gen)) (r : renv) (k : list cexp -> nat -> code) : option code :=
  match cg_args (map fst l) r with
  | Some (cs, r') => cg_temps l r (Some (k cs (length r')))
  | None => None
  end.

(** 3.sf:468-497: the label, the parameters and the other operands *)
Definition curry_view (e : exp) : option (id * list id * list exp) :=
  match e with
  | ELam ys (EApp (EVar t) zs) =>
    if label_id t && (fix loop (ids : list id) (rands : list exp) : bool :=
                        match ids with
                        | [] => true
                        | y :: ids' => match rands with EVar z :: rands' => id_eqb z y && loop ids' rands' | _ => false end
                        end) ys zs
    then Some (t, ys, skipn (length ys) zs) else None
  | _ => None
  end.
(** 7.sf:242-259 cg-depends-on? *)
Fixpoint depends (sp : list id) (e : exp) : bool :=
  match e with
  | EVar x => memq x sp
  | ESet _ e1 => depends sp e1
  | EIf a b c => depends sp a || depends sp b || depends sp c
  | EPrim _ _ l => existsb (depends sp) l
  | EApp (ELam xs b) l => existsb (depends sp) l || depends sp b
  | EApp (EVar x) l => negb (label_id x) && memq x sp || existsb (depends sp) l
  | EApp f l => depends sp f || existsb (depends sp) l
  | ELam ys (EApp (EVar t) zs) => existsb (fun d => d) (skipn (length ys) (map (depends sp) zs))
  | _ => true
  end.
(** 7.sf:261-269 cg-fast-goto?; [regs] is [(reverse renv)] *)
Fixpoint fast_loop (rands : list exp) (regs : renv) (sp : list id) : bool :=
  match rands with
  | [] => true
  | e :: rands' =>
    match regs with
    | Some x :: regs' => if match sp with [] => true | _ => negb (depends sp e) end then fast_loop rands' regs' (x :: sp) else false
    | _ => false
    end
  end.
Definition cg_fast_goto (r : renv) (rands : list exp) : bool := fast_loop rands (rev r) [].

(** ** Expressions, 7.sf:271-319, 337-413 and 504-518 *)
Section CG.
(** [labels]: the labels of the program; [gcl]: global constants and the labels of the procedures they hold *)
Variable labels : list id.
Variable gcl : list (id * id).
(** 7.sf:214-240 cg-let-list; const variables (222-226) are not told from others *)
Fixpoint cg_lets (ids : list id) (l : list gen) (r : renv) (k : renv -> option code) : option code :=
  match ids, l with
  | x :: ids', g :: l' =>
    match cvar_type x with
    | Some t => option_map (KBlock x) (kseq (g (TCvar x t) r) (cg_lets ids' l' r k))
    | None => kseq (g (TReg (length r)) r) (cg_lets ids' l' (Some x :: r) k)
    end
  | _, _ => k r
  end.
(** where a jump to a label with [rands] puts the operands *)
Definition cg_shift (r : renv) (rands : list exp) (live : nat) : option nat := if cg_fast_goto r rands then None else Some live.
(** 7.sf:126-138; the C label of a global constant stands before the procedure for which assq finds the constant (7.sf:675-678) *)
Definition gc_label (x : id) : option id :=
  match find (fun p => id_eqb x (snd p)) gcl with
  | Some (lb, _) => Some lb
  | None => None
  end.
Definition gc_defined (x lb : id) : bool := match assq lb gcl with Some y => id_eqb x y | None => false end && memq lb labels.
Fixpoint cg (e : exp) (t : tgt) (r : renv) {struct e} : option code :=
  if cg_cexpp e then option_map (KSet t) (cg_cexp e r)
  else
    match e with
    | EPrim _ p l => cg_primapp (map (fun e => (e, cg e)) l) r (fun cs _ => KPrim t p cs)
    | ELam ys (EApp (EVar lb) zs) =>
      match curry_view e with
      | Some _ => if memq lb labels then cg_primapp (rev (skipn (length ys) (map (fun e => (e, cg e)) zs))) r (fun cs _ => KClo t lb cs) else None
      | None => None
      end
    | EApp f l =>
      let jump := cg_primapp ((f, cg f) :: map (fun e => (e, cg e)) l) r (fun cs n => KJump (cg_shift r (f :: l) n) cs) in
      let goto lb := cg_primapp (map (fun e => (e, cg e)) l) r (fun cs n => KGoto (cg_shift r l n) lb cs) in
      match f with
      | ELam xs b =>
        if Nat.eqb (length xs) (length l) then
          match degenerate_let e with
          | Some _ => match xs, l with [], _ => cg b t r | _, e1 :: _ => cg e1 t r | _, _ => None end
          | None =>
            match begin_view e with
            | Some (e1, _) =>
              match l with
              | d :: _ =>
                match e1 with
                | ESet x c =>
                  match curry_view c with
                  | Some (lb, _, []) => if global_id x && memq lb labels then kseq (Some (KStatic x lb)) (cg b t r) else None
                  | _ => kseq (cg d TVoid r) (cg b t r)
                  end
                | _ => kseq (cg d TVoid r) (cg b t r)
                end
              | [] => None
              end
            | None => cg_lets xs (map cg l) r (fun r' => cg b t r')
            end
          end
        else jump
      | EVar x =>
        if label_id x then if memq x labels then goto x else None
        else match gc_label x with
             | Some lb => if gc_defined x lb then goto lb else None
             | None => jump
             end
      | _ => jump
      end
    | ESet x e1 => if global_id x then kseq (cg e1 (TGlob x) r) (option_map (KSet t) (cg_cexp void_exp r)) else None
    | EIf a b c =>
      if cg_cexpp a then
        match cg_cexp a r, cg b t r, cg c t r with Some a', Some b', Some c' => Some (KIf a' b' c') | _, _, _ => None end
      else
        match cg a (TReg (length r)) r, cg b t r, cg c t r with
        | Some a', Some b', Some c' => Some (KSeq a' (KIf (XReg (length r)) b' c'))
        | _, _, _ => None
        end
    | _ => None
    end.
End CG.

(** ** Programs *)
(** 7.sf:583-612 collect-curries!: what is found, in order: procedures of closures with their parameters and the number of
    values that the closures hold; procedures assigned to globals at once; jumps to labels *)
Inductive found := FCurry (lb : id) (ids : list id) (n : nat) | FStatic (x lb : id) | FGoto (lb : id) (n : nat).
Fixpoint collect (e : exp) : list found :=
  match e with
  | EVar _ => []
  | ESet _ e1 => collect e1
  | EIf a b c => collect a ++ collect b ++ collect c
  | EPrim _ _ l => flat_map collect l
  | EApp f l =>
    match f with
    | ELam xs b =>
      if Nat.eqb (length xs) (length l) then
        match begin_view e with
        | Some (ESet x c, _) =>
          match curry_view c with
          | Some (lb, ys, []) => if global_id x then FCurry lb ys O :: FStatic x lb :: collect b else flat_map collect l ++ collect b
          | _ => flat_map collect l ++ collect b
          end
        | _ => flat_map collect l ++ collect b
        end
      else collect f ++ flat_map collect l
    | EVar x => if label_id x then FGoto x (length l) :: flat_map collect l else flat_map collect l
    | _ => collect f ++ flat_map collect l
    end
  | ELam ys (EApp (EVar _) zs) =>
    match curry_view e with
    | Some (lb, ys, rands) => FCurry lb ys (length rands) :: concat (skipn (length ys) (map collect zs))
    | None => []
    end
  | _ => []
  end.
(** 7.sf:562-581, add-curry! and add-goto!: the first one found counts, the others must agree with it *)
Fixpoint find_curry (lb : id) (l : list found) : option (list id * nat) :=
  match l with
  | [] => None
  | FCurry y ids n :: l' => if id_eqb lb y then Some (ids, n) else find_curry lb l'
  | _ :: l' => find_curry lb l'
  end.
Fixpoint find_goto (lb : id) (l : list found) : option nat :=
  match l with
  | [] => None
  | FGoto y n :: l' => if id_eqb lb y then Some n else find_goto lb l'
  | _ :: l' => find_goto lb l'
  end.
Definition agrees (ls : list id) (all : list found) (f : found) : bool :=
  match f with
  | FCurry lb ids n => memq lb ls && match find_curry lb all with Some (ids', n') => Nat.eqb (length ids) (length ids') && Nat.eqb n n' | None => false end
  | FGoto lb n => memq lb ls && match find_goto lb all with Some n' => Nat.eqb n n' | None => false end
  | FStatic _ _ => true
  end.
(** 7.sf:548-552 add-static-global-label! *)
Definition constant_labels (all : list found) : list (id * id) :=
  rev (flat_map (fun f => match f with FStatic x lb => if global_id_constant x then [(lb, x)] else [] | _ => [] end) all).

(** a label: the closures that enter here, by their parameters and the number of values they hold (7.sf:634-668), and the code *)
Record proc := mkproc { entry : option (list id * nat); text : code }.
Record cprog := mkcprog { main : code; labelled : list (id * proc) }.
(** 7.sf:628-632, 670-702 *)
Definition code_generate (e : exp) : option cprog :=
  match e with
  | EFix ls lams b =>
    let all := flat_map (fun l => collect (snd l)) lams ++ collect b in
    let gcl := constant_labels all in
    if forallb (agrees ls all) all then
      match cg ls gcl b (TReg O) [], all_some (map (fun l => cg ls gcl (snd l) (TReg (length (fst l))) (rev (map Some (fst l)))) lams) with
      | Some c, Some cs => Some (mkcprog c (combine ls (map (fun p => mkproc (find_curry (fst p) all) (snd p)) (combine ls cs))))
      | _, _ => None
      end
    else None
  | _ => None
  end.
