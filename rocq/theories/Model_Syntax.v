(** Syntax rules: compile-syntax-rules and apply-synrules of /repo/2.sf:85-96, 182-198, 247-248, 653-753, 757-1068.

    Simplifications: a renamed identifier is a triple of its name, its new identity and its location (in the source a vector of
    two or three elements, the location left out when it is the name; 2.sf:188-198).  Vectors are wrapped already (2.sf:217-218):
    [SVec l] is the vector of one element that holds the list of the elements.  Data that are neither of these nor lists, boxes,
    strings, integers, characters or booleans are [SOther].  A pattern variable under ellipses is bound to a list of what it
    matched in each repetition, with a type of its own; where the source would take an ordinary datum for such a list (which the
    check of depths rules out) the model gives [None], like for all errors. *)
From Coq Require Import ZArith String List Bool.
From Verif Require Import Model_Lit Model_Core Model_Beta.
Import ListNotations.
Open Scope Z_scope.

Notation sym := (list Z).
Inductive loc := LSym (s : sym) | LInt (n : Z).
Inductive ident := IdSym (s : sym) | IdNum (n : Z).
Inductive sexp :=
| SNil
| SCons (a d : sexp)
| SSym (s : sym)
| SRen (name : sym) (i : ident) (l : loc)
| SVec (l : sexp)
| SBox (x : sexp)
| SNum (z : Z)
| SStr (s : list Z)
| SChr (c : Z)
| SBool (b : bool)
| SOther (z : Z).
Definition loc_dec (a b : loc) : {a = b} + {a <> b}.
Proof. decide equality; [apply zlist_dec | apply Z.eq_dec]. Defined.
Definition ident_dec (a b : ident) : {a = b} + {a <> b}.
Proof. decide equality; [apply zlist_dec | apply Z.eq_dec]. Defined.
Definition sexp_dec (a b : sexp) : {a = b} + {a <> b}.
Proof. decide equality; try apply zlist_dec; try apply Z.eq_dec; try apply loc_dec; try apply ident_dec. apply bool_dec. Defined.
Definition loc_eqb (a b : loc) : bool := if loc_dec a b then true else false.
Definition ident_eqb (a b : ident) : bool := if ident_dec a b then true else false.
Definition sexp_eqb (a b : sexp) : bool := if sexp_dec a b then true else false.

(** 2.sf:182-183 sid? *)
Definition sidp (x : sexp) : bool := match x with SSym _ | SRen _ _ _ => true | _ => false end.
(** 2.sf:193-198; of no interest for anything but identifiers *)
Definition sid_name (x : sexp) : sym := match x with SSym s => s | SRen s _ _ => s | _ => [] end.
Definition sid_id (x : sexp) : ident := match x with SSym s => IdSym s | SRen _ i _ => i | _ => IdNum 0 end.
Definition sid_location (x : sexp) : loc := match x with SSym s => LSym s | SRen _ _ l => l | _ => LInt 0 end.
Definition make_sid (name : sym) (i : ident) (l : loc) : sexp := SRen name i l.
Fixpoint assv {A} (i : ident) (l : list (ident * A)) : option A :=
  match l with [] => None | (j, a) :: l' => if ident_eqb i j then Some a else assv i l' end.
Definition memv (i : ident) (l : list ident) : bool := existsb (ident_eqb i) l.
Notation senv := (list (ident * loc)).
(** 2.sf:247-248 *)
Definition lookup_sid (x : sexp) (env : senv) : loc := match assv (sid_id x) env with Some l => l | None => sid_location x end.

(** 2.sf:653-660 pattern-sbox? *)
Definition pattern_sbox (x : sexp) : option (sym * sexp) :=
  match x with
  | SBox (SCons (SSym k) (SCons y SNil)) =>
    if zlist_dec k (codes "number?") then Some (k, y)
    else if zlist_dec k (codes "string?") then Some (k, y)
    else if zlist_dec k (codes "id?") then Some (k, y)
    else None
  | _ => None
  end.
(** 2.sf:662-669 *)
Definition sbox_test (k : sym) (x : sexp) : bool :=
  if zlist_dec k (codes "number?") then match x with SNum _ => true | _ => false end
  else if zlist_dec k (codes "string?") then match x with SStr _ => true | _ => false end
  else sidp x.
(** proper lists *)
Fixpoint elements (x : sexp) : option (list sexp) :=
  match x with SNil => Some [] | SCons a d => option_map (cons a) (elements d) | _ => None end.
Fixpoint slist (l : list sexp) : sexp := match l with [] => SNil | a :: l' => SCons a (slist l') end.
Fixpoint sapp (l : list sexp) (x : sexp) : sexp := match l with [] => x | a :: l' => SCons a (sapp l' x) end.
Definition listp (x : sexp) : bool := match elements x with Some _ => true | None => false end.
Definition list1p (x : sexp) : bool := match x with SCons _ SNil => true | _ => false end.
(** 2.sf:671-686 template-sbox? *)
Definition sym_in (k : sym) (l : list string) : bool := existsb (fun s => if zlist_dec k (codes s) then true else false) l.
Definition template_sboxp (x : sexp) : bool :=
  match x with
  | SBox (SCons (SSym k) d) =>
    if sym_in k ["number->string"; "string->number"; "list->string"; "string->list"; "length"]%string then list1p d
    else if sym_in k ["string-append"; "+"; "*"]%string then listp d
    else if sym_in k ["id->string"; "string->id"]%string then list1p d
    else false
  | _ => false
  end.
Section Conv.
(** number->string and string->number, 0.sf *)
Variable numstr : Z -> list Z.
Variable strnum : list Z -> sexp.
Fixpoint chars (x : sexp) : option (list Z) :=
  match x with SNil => Some [] | SCons (SChr c) d => option_map (cons c) (chars d) | _ => None end.
Fixpoint strings (x : sexp) : option (list Z) :=
  match x with SNil => Some [] | SCons (SStr s) d => option_map (app s) (strings d) | _ => None end.
Fixpoint numbers (f : Z -> Z -> Z) (z : Z) (x : sexp) : option Z :=
  match x with SNil => Some z | SCons (SNum n) d => option_map (f n) (numbers f z d) | _ => None end.
(** 2.sf:688-753 template-sbox->conv *)
Definition sbox_conv (k : sym) (args : sexp) (env : senv) : option sexp :=
  if zlist_dec k (codes "number->string") then match args with SCons (SNum n) _ => Some (SStr (numstr n)) | _ => None end
  else if zlist_dec k (codes "string->number") then match args with SCons (SStr s) _ => Some (strnum s) | _ => None end
  else if zlist_dec k (codes "list->string") then match args with SCons x _ => option_map SStr (chars x) | _ => None end
  else if zlist_dec k (codes "string->list") then match args with SCons (SStr s) _ => Some (slist (map SChr s)) | _ => None end
  else if zlist_dec k (codes "length") then match args with SCons x _ => option_map (fun l => SNum (Z.of_nat (List.length l))) (elements x) | _ => None end
  else if zlist_dec k (codes "string-append") then option_map SStr (strings args)
  else if zlist_dec k (codes "+") then option_map SNum (numbers Z.add 0 args)
  else if zlist_dec k (codes "*") then option_map SNum (numbers Z.mul 1 args)
  else if zlist_dec k (codes "id->string") then match args with SCons x _ => if sidp x then Some (SStr (sid_name x)) else None | _ => None end
  else if zlist_dec k (codes "string->id") then
    match args with
    | SCons (SStr s) _ => Some (make_sid s (IdSym s) (match assv (IdSym s) env with Some l => l | None => LSym s end))
    | _ => None
    end
  else None.

(** ** The form (syntax-rules [ellipsis] (literal ...) (pattern template) ...) *)
Record synrules := mksyn { ell_id : option ident; lits : list sexp; rules : list (sexp * sexp) }.
Definition the_dots : loc := LSym (codes "...").
(** 2.sf:758-766, 928, 934-939 *)
Definition ellipsisp (r : synrules) (env : senv) (x : sexp) : bool :=
  sidp x && match ell_id r with Some i => ident_eqb i (sid_id x) | None => loc_eqb the_dots (lookup_sid x env) end.

Section Rule.
Variable ell : sexp -> bool.
Definition ell_pair (x : sexp) : bool := match x with SCons e _ => ell e | _ => false end.
(** 2.sf:940-951 list-ids *)
Fixpoint list_ids (pred : ident -> bool) (x : sexp) (inc : bool) (l : list ident) : list ident :=
  match x with
  | SSym _ | SRen _ _ _ => if inc && pred (sid_id x) then sid_id x :: l else l
  | SVec y => list_ids pred y inc l
  | SBox y => match y with SCons _ d => list_ids pred d inc l | _ => l end
  | SCons a q =>
    match q with
    | SCons e d => if ell e then list_ids pred a true (list_ids pred d inc l) else list_ids pred a inc (list_ids pred q inc l)
    | _ => list_ids pred a inc (list_ids pred q inc l)
    end
  | _ => l
  end.

(** *** Matching *)
Variable is_lit : ident -> bool.
Variable same_ref : sexp -> sexp -> bool.
(** the part of [s] left when as many pairs are dropped as [p] has *)
Fixpoint skip (p s : sexp) : option sexp :=
  match p with SCons _ p' => match s with SCons _ s' => skip p' s' | _ => None end | _ => Some s end.
(** 2.sf:952-979 matches? *)
Fixpoint matches (pat sexp : sexp) {struct pat} : bool :=
  match pat with
  | SSym _ | SRen _ _ _ => negb (is_lit (sid_id pat)) || sidp sexp && same_ref pat sexp
  | SVec p => match sexp with SVec s => matches p s | _ => false end
  | SBox (SCons k (SCons y z)) =>
    match pattern_sbox pat with
    | Some (k, _) => sbox_test k sexp && matches y sexp
    | None => sexp_eqb pat sexp
    end
  | SCons p q =>
    match q with
    | SCons e d =>
      if ell e then
        match skip d sexp with
        | None => false
        | Some s =>
          (fix cars (s sexp : Model_Syntax.sexp) {struct s} : bool :=
             match s with
             | SCons _ s' => match sexp with SCons a b => matches p a && cars s' b | _ => false end
             | _ => matches d sexp
             end) s sexp
        end
      else match sexp with SCons a b => matches p a && matches q b | _ => false end
    | _ => match sexp with SCons a b => matches p a && matches q b | _ => false end
    end
  | _ => sexp_eqb pat sexp
  end.

(** *** Bindings *)
Inductive bval := BLeaf (s : sexp) | BList (l : list bval).
Notation bindings := (list (ident * bval)).
(** 2.sf:85-89 apply-map-list of the variables and the rows, 2.sf:991-997 *)
Fixpoint transpose (vars : list ident) (rows : list (list bval)) : bindings :=
  match vars with
  | [] => []
  | x :: vars' =>
    match mapo (fun r => match r with a :: r' => Some (a, r') | [] => None end) rows with
    | Some l => (x, BList (map fst l)) :: transpose vars' (map snd l)
    | None => []
    end
  end.
(** 2.sf:980-1002 make-bindings *)
Fixpoint make_bindings (pat sexp : sexp) (bs : bindings) {struct pat} : option bindings :=
  match pat with
  | SSym _ | SRen _ _ _ => if is_lit (sid_id pat) then Some bs else Some ((sid_id pat, BLeaf sexp) :: bs)
  | SVec p => match sexp with SVec s => make_bindings p s bs | _ => None end
  | SBox (SCons _ (SCons y _)) => make_bindings y sexp bs
  | SBox _ => None
  | SCons p q =>
    let plain :=
      match sexp with
      | SCons a b => match make_bindings q b bs with Some bs' => make_bindings p a bs' | None => None end
      | _ => None
      end in
    match q with
    | SCons e d =>
      if ell e then
        match elements d, elements sexp with
        | Some ds, Some l =>
          if Nat.ltb (List.length l) (List.length ds) then None
          else
            let n := (List.length l - List.length ds)%nat in
            match mapo (fun m => option_map (map snd) (make_bindings p m [])) (firstn n l), make_bindings d (slist (skipn n l)) bs with
            | Some rows, Some bs' => Some (transpose (list_ids (fun i => negb (is_lit i)) p true []) rows ++ bs')
            | _, _ => None
            end
        | _, _ => None
        end
      else plain
    | _ => plain
    end
  | _ => Some bs
  end.

(** *** Templates *)
(** 2.sf:1003-1009 remove-dups *)
Fixpoint remove_dups (l res : list ident) : list ident :=
  match l with [] => res | x :: l' => remove_dups l' (if memv x res then res else x :: res) end.
Fixpoint memv_tail (i : ident) (l : list ident) : list ident :=
  match l with [] => [] | j :: l' => if ident_eqb i j then l else memv_tail i l' end.
(** what a bound variable stands for *)
Fixpoint bval_sexp (b : bval) : sexp := match b with BLeaf s => s | BList l => slist (map bval_sexp l) end.
(** 2.sf:1041-1042 and pairwise-andmap, 2.sf:91-96 *)
Definition all_lists (l : list bval) : option (list (list bval)) := mapo (fun b => match b with BList l => Some l | BLeaf _ => None end) l.
Fixpoint same_lengths (l : list (list bval)) : bool :=
  match l with a :: ((b :: _) as l') => Nat.eqb (List.length a) (List.length b) && same_lengths l' | _ => true end.
(** 2.sf:85-89 apply-map-list of lists of values, the first of length [n] *)
Fixpoint apply_map_list (n : nat) (ls : list (list bval)) : list (list bval) :=
  match n with
  | O => []
  | S n' =>
    match mapo (fun r => match r with a :: r' => Some (a, r') | [] => None end) ls with
    | Some l => map fst l :: apply_map_list n' (map snd l)
    | None => []
    end
  end.
Definition rows_of (ls : list (list bval)) : list (list bval) := match ls with [] => [] | a :: _ => apply_map_list (List.length a) ls end.
Variable env mac_env : senv.
Variable id_n : Z.
Variable top : bindings.
Variable tmpl_literals ellipsis_vars : list ident.
(** 2.sf:1024-1027 *)
Definition rename (t : sexp) : sexp :=
  make_sid (sid_name t) (IdNum (id_n + (Z.of_nat (List.length (memv_tail (sid_id t) tmpl_literals)) - 1))) (lookup_sid t mac_env).
(** 2.sf:1017-1052 expand *)
Fixpoint expand (tmpl : sexp) (bs : bindings) {struct tmpl} : option sexp :=
  match tmpl with
  | SSym _ | SRen _ _ _ =>
    match assv (sid_id tmpl) bs with
    | Some v => Some (bval_sexp v)
    | None => match assv (sid_id tmpl) top with Some v => Some (bval_sexp v) | None => Some (rename tmpl) end
    end
  | SVec t => option_map SVec (expand t bs)
  | SBox (SCons (SSym k) d) => match expand d bs with Some args => sbox_conv k args env | None => None end
  | SBox _ => None
  | SCons a q =>
    let plain := match expand a bs, expand q bs with Some x, Some y => Some (SCons x y) | _, _ => None end in
    match q with
    | SCons e d =>
      if ell e then
        let vars := list_ids (fun i => memv i ellipsis_vars) a true [] in
        match mapo (fun x => assv x bs) vars with
        | Some vals =>
          match all_lists vals with
          | Some ((_ :: _) as ls) =>
            if same_lengths ls then
              match mapo (fun row => expand a (combine vars row)) (rows_of ls), expand d bs with
              | Some xs, Some y => Some (sapp xs y)
              | _, _ => None
              end
            else None
          | _ => None
          end
        | None => None
        end
      else plain
    | _ => plain
    end
  | _ => Some tmpl
  end.
End Rule.

(** ** The checks when the transformer is defined *)
Section Check.
Variable ell : sexp -> bool.
Variable is_lit : ident -> bool.
(** 2.sf:799-831, the loop [check] of check-ellipses *)
Fixpoint check (in_template : bool) (x : sexp) : bool :=
  match x with
  | SCons a q =>
    negb (ell a) && check in_template a && negb (ell q) &&
    match q with
    | SCons e d =>
      if ell e then
        negb (ell d) && negb (ell_pair ell d) &&
        (if in_template then check in_template d
         else listp x && (fix each (d : sexp) : bool := match d with SCons y d' => negb (ell y) && check in_template y && each d' | _ => true end) d)
      else check in_template q
    | _ => check in_template q
    end
  | SVec y => negb (ell_pair ell y) && check in_template y
  | SBox y =>
    (if in_template then template_sboxp x else match pattern_sbox x with Some _ => true | None => false end) &&
    match y with SCons _ d => negb (ell_pair ell d) && check in_template d | _ => false end
  | _ => true
  end.
(** 2.sf:782-798 check-ellipses of what follows the keyword of a pattern, and of a template *)
Definition check_ellipses (in_template : bool) (x : sexp) : bool :=
  negb (ell x) && (in_template || negb (ell_pair ell x)) && check in_template x.
(** 2.sf:832-848 make-pat-env *)
Fixpoint make_pat_env (x : sexp) (depth : nat) (l : list (ident * nat)) : option (list (ident * nat)) :=
  match x with
  | SSym _ | SRen _ _ _ =>
    if is_lit (sid_id x) then Some l else match assv (sid_id x) l with Some _ => None | None => Some ((sid_id x, depth) :: l) end
  | SVec y => make_pat_env y depth l
  | SBox (SCons _ (SCons y _)) => make_pat_env y depth l
  | SBox _ => None
  | SCons a q =>
    let plain := match make_pat_env q depth l with Some l' => make_pat_env a depth l' | None => None end in
    match q with
    | SCons e d => if ell e then match make_pat_env d depth l with Some l' => make_pat_env a (S depth) l' | None => None end else plain
    | _ => plain
    end
  | _ => Some l
  end.
(** 2.sf:849-876 check-var-depths: [None] an error, otherwise whether a variable is closed *)
Fixpoint check_var_depths (pe : list (ident * nat)) (x : sexp) (depth : nat) : option bool :=
  match x with
  | SSym _ | SRen _ _ _ =>
    match assv (sid_id x) pe with
    | Some d => if Nat.ltb 0 d && negb (Nat.eqb depth d) then None else Some (Nat.eqb depth d)
    | None => Some false
    end
  | SVec y => check_var_depths pe y depth
  | SBox (SCons _ d) => check_var_depths pe d depth
  | SBox _ => None
  | SCons a q =>
    let plain := match check_var_depths pe a depth, check_var_depths pe q depth with Some c, Some d => Some (c || d) | _, _ => None end in
    match q with
    | SCons e d =>
      if ell e then
        match check_var_depths pe a (S depth), check_var_depths pe d depth with
        | Some c, Some d => if c then Some true else None
        | _, _ => None
        end
      else plain
    | _ => plain
    end
  | _ => Some false
  end.
(** 2.sf:889-897: the identifiers of a template that the rule inserts *)
Fixpoint inserted (pe : list (ident * nat)) (x : sexp) (l : list ident) : list ident :=
  match x with
  | SSym _ | SRen _ _ _ => if ell x then l else match assv (sid_id x) pe with Some _ => l | None => sid_id x :: l end
  | SVec y => inserted pe y l
  | SBox (SCons _ d) => inserted pe d l
  | SCons a q => inserted pe a (inserted pe q l)
  | _ => l
  end.
(** 2.sf:877-897 check-rule *)
Definition check_rule (rule : sexp * sexp) : option (list ident) :=
  let '(pat, tmpl) := rule in
  match (match pat with SCons k p => if sidp k then Some p else None | _ => if sidp pat then Some SNil else None end) with
  | Some p =>
    if check_ellipses false p && check_ellipses true tmpl then
      match make_pat_env p 0 [] with
      | Some pe => match check_var_depths pe tmpl 0 with Some _ => Some (inserted pe tmpl []) | None => None end
      | None => None
      end
    else None
  | None => None
  end.
End Check.
(** 2.sf:899-909 *)
Fixpoint list_dots_ids (x : sexp) (ids : list ident) : list ident :=
  match x with
  | SSym _ | SRen _ _ _ => if loc_eqb the_dots (sid_location x) then sid_id x :: ids else ids
  | SVec y => list_dots_ids y ids
  | SBox (SCons _ d) => list_dots_ids d ids
  | SCons a d => list_dots_ids a (list_dots_ids d ids)
  | _ => ids
  end.
(** 2.sf:910-920, the loop of reduce-env *)
Fixpoint reduce_env (ids : list ident) (env red : senv) : senv :=
  match ids with
  | [] => red
  | i :: ids' =>
    reduce_env ids' env
      (match assv i red, assv i env with None, Some l => (i, l) :: red | _, _ => red end)
  end.
Definition rules_sexp (rl : list (sexp * sexp)) : sexp := slist (map (fun r => slist [fst r; snd r]) rl).
(** 2.sf:757-923 compile-syntax-rules: the environment kept with the transformer, or [None] for an error *)
Definition compile_syntax_rules (r : synrules) (env : senv) : option senv :=
  let ell := ellipsisp r env in
  if forallb (fun x => sidp x && negb (ell x)) (lits r) then
    let pl := map sid_id (lits r) in
    match mapo (check_rule ell (fun i => memv i pl)) (rules r) with
    | Some ls =>
      let ids := pl ++ concat ls in
      Some (reduce_env (match ell_id r with Some _ => ids | None => list_dots_ids (rules_sexp (rules r)) ids end) env [])
    | None => None
    end
  else None.

(** ** Applying a transformer *)
Definition literal_ids (r : synrules) : list ident := map sid_id (lits r).
(** 2.sf:1010-1016, 1053 expand-template *)
Definition expand_template (r : synrules) (mac_env env : senv) (id_n : Z) (pat tmpl : sexp) (top : list (ident * bval)) : option (sexp * Z) :=
  let ell := ellipsisp r mac_env in
  let tl := remove_dups (list_ids ell (fun i => match assv i top with Some _ => false | None => true end) tmpl true []) [] in
  let ev := list_ids ell (fun i => negb (memv i (literal_ids r))) pat false [] in
  option_map (fun x => (x, id_n + Z.of_nat (List.length tl))) (expand ell env mac_env id_n top tl ev tmpl top).
(** 2.sf:925-933, 1054-1068 apply-synrules *)
Fixpoint apply_rules (r : synrules) (mac_env env : senv) (id_n : Z) (rl : list (sexp * sexp)) (x : sexp) : option (sexp * Z) :=
  match rl with
  | [] => None
  | (pat, tmpl) :: rl' =>
    match pat, x with
    | SCons _ p, SCons _ s =>
      if matches (ellipsisp r mac_env) (fun i => memv i (literal_ids r)) (fun p s => loc_eqb (lookup_sid p mac_env) (lookup_sid s env)) p s then
        match make_bindings (ellipsisp r mac_env) (fun i => memv i (literal_ids r)) p s [] with
        | Some top => expand_template r mac_env env id_n p tmpl top
        | None => None
        end
      else apply_rules r mac_env env id_n rl' x
    | _, _ => if sidp pat && sidp x then expand_template r mac_env env id_n SNil tmpl [] else apply_rules r mac_env env id_n rl' x
    end
  end.
Definition apply_synrules (r : synrules) (mac_env env : senv) (id_n : Z) (x : sexp) : option (sexp * Z) :=
  apply_rules r mac_env env id_n (rules r) x.
(** 2.sf:366-370, 398-399: several uses side by side, like the operands of one call, are all expanded from the same number *)
Definition apply_each (r : synrules) (mac_env env : senv) (id_n : Z) (xs : list sexp) : list (option (sexp * Z)) :=
  map (apply_synrules r mac_env env id_n) xs.
End Conv.
