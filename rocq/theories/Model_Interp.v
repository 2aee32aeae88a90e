(** The interpreter's compiler to closures, its code generator and what the generated closures do.
    Source: /repo/int/ints.sf:1003-1018 (annotations), 1253-1258 (check of the number of arguments), 1747-1809 (calls and
    procedures), 1816-1907 (compiler), 1916-2185 (code generator), 2192-2234 (running a form, values of global variables);
    int/intm.sf and int/intl.sf have the same code with a warning for assignments to imported names and [(void)] in place
    of ['()] in gen-when.

    Simplifications.  Closures made by the gen- functions are a first-order type [code] with one constructor for each of
    them; the four special cases for small slot numbers in gen-slot-ref-0 .. gen-slot-set-n do the same thing and are one.
    Frames live in a list that only grows (no garbage collection).  Pairs are immutable, procedures have no identity.
    Primitives are given from outside: they get values and a state of the world and give a value or an error; they make the
    checks for their arguments themselves, and none of them calls procedures (so apply and call/cc are left out).
    Annotations do not overflow.  c-error ends the compilation, r-error ends the run. *)
From Coq Require Import ZArith NArith String List Bool.
Import ListNotations.
Open Scope Z_scope.

(** ** Data and values *)
Definition sym : Type := string.
(** atoms that are neither symbols nor (): #f is the only false one (0.sf:356-365); [LVoid] is what vector-set! and set-cdr! give *)
Inductive lit : Type := LBool (b : bool) | LInt (z : Z) | LVoid | LOther (n : N).
(** forms, as made by the macroexpander *)
Inductive datum : Type := DSym (s : sym) | DLit (k : lit) | DNil | DPair (a d : datum).
(** values; [C] is the type of procedures that come from lambda expressions *)
Inductive val (C : Type) : Type := VSym (s : sym) | VLit (k : lit) | VNil | VPair (a d : val C) | VClo (c : C) | VPrim (p : N).
Arguments VSym {C}. Arguments VLit {C}. Arguments VNil {C}. Arguments VPair {C}. Arguments VClo {C}. Arguments VPrim {C}.
Fixpoint quoted {C} (d : datum) : val C :=
  match d with DSym s => VSym s | DLit k => VLit k | DNil => VNil | DPair a b => VPair (quoted a) (quoted b) end.
Definition falsy {C} (v : val C) : bool := match v with VLit (LBool false) => true | _ => false end.
Fixpoint vlist {C} (l : list (val C)) : val C := match l with [] => VNil | v :: l' => VPair v (vlist l') end.
(** what a primitive gives *)
Inductive pres (C : Type) : Type := POk (v : val C) | PErr (e : N).
Arguments POk {C}. Arguments PErr {C}.
(** r-error with what is wrong (ints.sf:1747-1755), c-error (only from [run_forms]), error of a primitive *)
Inductive error : Type := BadProc | BadArgc | BadForm | PrimError (e : N).

(** ** Code
    gen-slot-ref-0, gen-slot-ref-1, gen-slot-ref-up-2 (1930-1947) *)
Inductive rcode : Type := R0 (i : nat) | R1 (i : nat) | RUp2 (r : rcode).
(** 1916-2185: one constructor for each function that makes a closure; global variables are given by their locations *)
Inductive code : Type :=
| CRef (r : rcode) | CGlo (i : nat) | CCst (d : datum)
| CSet0 (i : nat) (c : code) | CSet1 (i : nat) (c : code) | CSetN (up : rcode) (i : nat) (c : code) | CGloSet (i : nat) (c : code)
| CLam1r (b : code) | CLam2r (b : code) | CLam3r (b : code) | CLamNr (n : nat) (b : code)
| CLam0 (b : code) | CLam1 (b : code) | CLam2 (b : code) | CLam3 (b : code) | CLam4 (b : code) | CLamN (n : nat) (b : code)
| CSeq (a b : code) | CWhen (a b : code) | CIf (a b c : code)
| CLetrec1 (v b : code) | CLetrec2 (v w b : code) | CLetrec3 (v w x b : code) | CLetrecN (n : nat) (vs : list code) (b : code)
| CGloComb0 (i : nat) | CGloComb1 (i : nat) (a : code) | CGloComb2 (i : nat) (a b : code) | CGloComb3 (i : nat) (a b c : code)
| CGloComb4 (i : nat) (a b c d : code) | CGloCombN (argc i : nat) (args : list code)
| CComb0 (f : code) | CComb1 (f a : code) | CComb2 (f a b : code) | CComb3 (f a b c : code)
| CComb4 (f a b c d : code) | CCombN (argc : nat) (f : code) (args : list code).

(** frames: [None] is the #f that top-level code gets in place of a frame (2194) *)
Definition rte : Type := option nat.
(** the formals of the host procedures made by gen-lambda-0 .. gen-lambda-n-rest (2002-2072) *)
Inductive entry : Type := E0 | E1 | E2 | E3 | E4 | EN (n : nat) | Er1 | Er2 | Er3 | ErN (n : nat).
(** a procedure: its annotation (1003-1018), formals, body and frame *)
Record proc : Type := mkproc { p_ann : Z; p_entry : entry; p_body : code; p_rte : rte }.
Definition value : Type := val proc.
(** the value store (2211-2222): an association list, newest entry first; a location is an entry of it, given by the
    number of older entries *)
Definition vstore : Type := list (sym * value).

(** ** Compiler *)
(** c-error, car of something that is not a pair, or a result *)
Inductive cres (A : Type) : Type := COk (a : A) | CFail | CUndef.
Arguments COk {A}. Arguments CFail {A}. Arguments CUndef {A}.
Definition cbind {A B} (r : cres A) (f : A -> cres B) : cres B := match r with COk a => f a | CFail => CFail | CUndef => CUndef end.
(** 2215-2222 value-store-lookup *)
Fixpoint assq_from (name : sym) (vs : vstore) : option nat :=
  match vs with [] => None | (x, _) :: vs' => if String.eqb x name then Some (List.length vs') else assq_from name vs' end.
Definition value_store_lookup (name : sym) (vs : vstore) : nat * vstore :=
  match assq_from name vs with
  | Some i => (i, vs)
  | None => (List.length vs, (name, VSym name) :: vs)
  end.
(** 1819-1823 shape+: at least [n] elements *)
Fixpoint shape_plus (form : datum) (n : nat) {struct n} : bool :=
  match n with O => true | S n' => match form with DPair _ d => shape_plus d n' | _ => false end end.
(** 1825-1829 shape: exactly [n] elements *)
Fixpoint shape (form : datum) (n : nat) {struct n} : bool :=
  match n, form with O, DNil => true | S n', DPair _ d => shape d n' | _, _ => false end.
(** 1831-1836 *)
Fixpoint parms_frame (parms : datum) : cres (list sym) :=
  match parms with
  | DNil => COk []
  | DPair (DSym x) d => cbind (parms_frame d) (fun l => COk (x :: l))
  | DSym x => COk [x]
  | _ => CFail
  end.
(** 0.sf:1198-1199 on [parms] *)
Fixpoint is_list (d : datum) : bool := match d with DNil => true | DPair _ d' => is_list d' | _ => false end.
(** 1838-1844 *)
Fixpoint bindings_vars (b : datum) : cres (list sym) :=
  match b with
  | DPair binding b' =>
    if shape binding 2
    then match binding with DPair (DSym x) _ => cbind (bindings_vars b') (fun l => COk (x :: l)) | _ => CFail end
    else CFail
  | _ => COk []
  end.
(** 1853-1854 *)
Definition cons_cte (frame : list sym) (cte : list (list sym)) : list (list sym) := match frame with [] => cte | _ => frame :: cte end.
(** 1855-1863 lookup: loop2 goes along a frame, loop1 along the frames; [None] stands for the name itself *)
Fixpoint loop2 (frame : list sym) (name : sym) (over : nat) : option nat :=
  match frame with [] => None | x :: f => if String.eqb x name then Some over else loop2 f name (S over) end.
Fixpoint loop1 (chain : list (list sym)) (name : sym) (up : nat) : option (nat * nat) :=
  match chain with [] => None | frame :: chain' => match loop2 frame name 1 with Some over => Some (up, over) | None => loop1 chain' name (S up) end end.
Definition lookup (cte : list (list sym)) (name : sym) : option (nat * nat) := loop1 cte name 0.

(** 1924-1928 gen-rte-ref *)
Fixpoint gen_rte_ref (up over : nat) : rcode :=
  match up with O => R0 over | S O => R1 over | S (S u) => RUp2 (gen_rte_ref u over) end.
(** 1919-1922 gen-var-ref *)
Definition gen_var_ref (cte : list (list sym)) (x : sym) (vs : vstore) : code * vstore :=
  match lookup cte x with
  | Some (up, over) => (CRef (gen_rte_ref up over), vs)
  | None => let (i, vs') := value_store_lookup x vs in (CGlo i, vs')
  end.
(** 1969-1973 gen-rte-set *)
Definition gen_rte_set (up over : nat) (c : code) : code :=
  match up with O => CSet0 over c | S O => CSet1 over c | S (S u) => CSetN (gen_rte_ref u 0) over c end.
(** 1964-1967 gen-var-set *)
Definition gen_var_set (cte : list (list sym)) (x : sym) (c : code) (vs : vstore) : code * vstore :=
  match lookup cte x with
  | Some (up, over) => (gen_rte_set up over c, vs)
  | None => let (i, vs') := value_store_lookup x vs in (CGloSet i c, vs')
  end.
(** 2002-2007 *)
Definition gen_lambda_rest (n : nat) (b : code) : code :=
  match n with 1 => CLam1r b | 2 => CLam2r b | 3 => CLam3r b | _ => CLamNr n b end%nat.
(** 2034-2041 *)
Definition gen_lambda (n : nat) (b : code) : code :=
  match n with 0 => CLam0 b | 1 => CLam1 b | 2 => CLam2 b | 3 => CLam3 b | 4 => CLam4 b | _ => CLamN n b end%nat.
(** 2083-2089 *)
Definition gen_letrec (vals : list code) (b : code) : code :=
  match vals with [v] => CLetrec1 v b | [v; w] => CLetrec2 v w b | [v; w; x] => CLetrec3 v w x b | _ => CLetrecN (List.length vals) vals b end.
(** 2121-2129 *)
Definition gen_glo_combination (x : sym) (args : list code) (vs : vstore) : code * vstore :=
  let (i, vs') := value_store_lookup x vs in
  (match args with
   | [] => CGloComb0 i | [a] => CGloComb1 i a | [a; b] => CGloComb2 i a b | [a; b; c] => CGloComb3 i a b c
   | [a; b; c; d] => CGloComb4 i a b c d | _ => CGloCombN (List.length args) i args end, vs').
(** 2154-2162 *)
Definition gen_combination (f : code) (args : list code) : code :=
  match args with
  | [] => CComb0 f | [a] => CComb1 f a | [a; b] => CComb2 f a b | [a; b; c] => CComb3 f a b c
  | [a; b; c; d] => CComb4 f a b c d | _ => CCombN (List.length args) f args end.

(** 1852-1907 scheme-compile; [letrec]: the loop over the values goes along the bindings (bindings->vals, 1846-1850) *)
Fixpoint comp (cte : list (list sym)) (expr : datum) (vs : vstore) {struct expr} : cres (code * vstore) :=
  match expr with
  | DSym x => COk (gen_var_ref cte x vs)
  | DPair hd rest =>
    let map_comp := fix map_comp (l : datum) (vs : vstore) {struct l} : cres (list code * vstore) :=
      match l with
      | DNil => COk ([], vs)
      | DPair a l' => cbind (comp cte a vs) (fun '(c, vs) => cbind (map_comp l' vs) (fun '(cs, vs) => COk (c :: cs, vs)))
      | _ => CUndef
      end in
    match hd with
    | DSym k =>
      if String.eqb k "quote" then
        if shape expr 2 then match rest with DPair d _ => COk (CCst d, vs) | _ => CUndef end else CFail
      else if String.eqb k "set!" then
        if shape expr 3 then
          match rest with
          | DPair (DSym x) (DPair e _) => cbind (comp cte e vs) (fun '(c, vs) => COk (gen_var_set cte x c vs))
          | _ => CFail
          end
        else CFail
      else if String.eqb k "lambda" then
        if shape expr 3 then
          match rest with
          | DPair parms (DPair body _) =>
            cbind (parms_frame parms) (fun frame =>
            cbind (comp (cons_cte frame cte) body vs) (fun '(c, vs) =>
            COk ((if is_list parms then gen_lambda else gen_lambda_rest) (List.length frame) c, vs)))
          | _ => CUndef
          end
        else CFail
      else if String.eqb k "if" then
        if shape_plus expr 3 then
          match rest with
          | DPair a (DPair b t) =>
            cbind (comp cte a vs) (fun '(ca, vs) => cbind (comp cte b vs) (fun '(cb, vs) =>
            match t with
            | DPair c _ => cbind (comp cte c vs) (fun '(cc, vs) => COk (CIf ca cb cc, vs))
            | _ => COk (CWhen ca cb, vs)
            end))
          | _ => CUndef
          end
        else CFail
      else if String.eqb k "letrec" then
        if shape expr 3 then
          match rest with
          | DPair bindings (DPair body _) =>
            cbind (bindings_vars bindings) (fun vars =>
            let cte' := cons_cte vars cte in
            cbind ((fix vals (b : datum) (vs : vstore) {struct b} : cres (list code * vstore) :=
              match b with
              | DPair (DPair _ (DPair e _)) b' => cbind (comp cte' e vs) (fun '(c, vs) => cbind (vals b' vs) (fun '(cs, vs) => COk (c :: cs, vs)))
              | DPair _ _ => CUndef
              | _ => COk ([], vs)
              end) bindings vs) (fun '(cs, vs) =>
            cbind (comp cte' body vs) (fun '(c, vs) => COk (gen_letrec cs c, vs))))
          | _ => CUndef
          end
        else CFail
      else if String.eqb k "begin" then
        if shape_plus expr 2 then
          (fix loop (l : datum) (vs : vstore) {struct l} : cres (code * vstore) :=
             match l with
             | DPair e l' =>
               cbind (comp cte e vs) (fun '(c, vs) =>
               match l' with DNil => COk (c, vs) | _ => cbind (loop l' vs) (fun '(c', vs) => COk (CSeq c c', vs)) end)
             | _ => CUndef
             end) rest vs
        else CFail
      else if String.eqb k "define" then
        if shape expr 3 then
          match rest with
          | DPair (DSym x) (DPair e _) =>
            cbind (comp cte e vs) (fun '(c, vs) => let (s, vs) := gen_var_set cte x c vs in COk (CSeq s (CCst (DSym x)), vs))
          | _ => CFail
          end
        else CFail
      else
        match lookup cte k with
        | Some _ => cbind (comp cte hd vs) (fun '(f, vs) => cbind (map_comp rest vs) (fun '(cs, vs) => COk (gen_combination f cs, vs)))
        | None => cbind (map_comp rest vs) (fun '(cs, vs) => COk (gen_glo_combination k cs vs))
        end
    | _ => cbind (comp cte hd vs) (fun '(f, vs) => cbind (map_comp rest vs) (fun '(cs, vs) => COk (gen_combination f cs, vs)))
    end
  | _ => COk (CCst expr, vs)
  end.

(** ** Annotations
    1016-1018 *)
Definition argc_annotation (c : Z) : Z := c * 1000 + c.
Definition rest_argc_annotation (c : Z) : Z := (c - 1) * 1000 + 999.
(** 1257, C division of int and long *)
Definition argc_ok (ann ac : Z) : bool := (Z.quot ann 1000 <=? ac) && (ac <=? Z.rem ann 1000).

(** ** Frames
    a frame is a vector: slot 0 holds the frame around it, the others hold values *)
Record frame : Type := mkframe { parent : rte; slots : list value }.
Inductive hobj : Type := HV (v : value) | HR (r : rte).
Definition vector_ref (h : list frame) (r : rte) (i : nat) : option hobj :=
  match r with
  | Some a => match nth_error h a with
              | Some f => match i with O => Some (HR (parent f)) | S k => option_map HV (nth_error (slots f) k) end
              | None => None
              end
  | None => None
  end.
Definition frame_ref (h : list frame) (r : rte) (i : nat) : option rte := match vector_ref h r i with Some (HR r) => Some r | _ => None end.
Fixpoint put {A} (l : list A) (k : nat) (v : A) : option (list A) :=
  match l, k with
  | [], _ => None
  | _ :: l', O => Some (v :: l')
  | a :: l', S k' => option_map (cons a) (put l' k' v)
  end.
(** [None]: outside of the vector, or the frame's own link would be overwritten with a value *)
Definition vector_set (h : list frame) (r : rte) (i : nat) (v : value) : option (list frame) :=
  match r, i with
  | Some a, S k =>
    match nth_error h a with
    | Some f => match put (slots f) k v with Some s => put h a (mkframe (parent f) s) | None => None end
    | None => None
    end
  | _, _ => None
  end.
(** 1930-1947 *)
Fixpoint run_ref (h : list frame) (r : rcode) (e : rte) : option hobj :=
  match r with
  | R0 i => vector_ref h e i
  | R1 i => match frame_ref h e 0 with Some p => vector_ref h p i | None => None end
  | RUp2 r' => match frame_ref h e 0 with Some p => match frame_ref h p 0 with Some q => run_ref h r' q | None => None end | None => None end
  end.
(** the loops of gen-lambda-n (2067-2071) and gen-lambda-n-rest (2026-2031), from slot [i] on *)
Fixpoint fill (k i : nat) (x : list value) (l : list value) : option (list value) :=
  match k with
  | O => Some x
  | S k' => match l with v :: l' => match put x (pred i) v with Some x' => fill k' (S i) x' l' | None => None end | [] => None end
  end.
Fixpoint fill_rest (k i : nat) (x : list value) (l : list value) : option (list value) :=
  match k with
  | O => put x (pred i) (vlist l)
  | S k' => match l with v :: l' => match put x (pred i) v with Some x' => fill_rest k' (S i) x' l' | None => None end | [] => None end
  end.
(** slots of the new frame; [Some None]: no frame (gen-lambda-0, 2043-2044); [None]: the host procedure got a number of arguments that it
    does not take *)
Definition bind_args (e : entry) (args : list value) : option (option (list value)) :=
  match e, args with
  | E0, [] => Some None
  | E1, [a] => Some (Some [a])
  | E2, [a; b] => Some (Some [a; b])
  | E3, [a; b; c] => Some (Some [a; b; c])
  | E4, [a; b; c; d] => Some (Some [a; b; c; d])
  | EN n, a :: b :: c :: d :: l =>
    match fill 4 1 (repeat (VLit LVoid) n) [a; b; c; d] with Some x => option_map Some (fill (n - 4) 5 x l) | None => None end
  | Er1, l => Some (Some [vlist l])
  | Er2, a :: l => Some (Some [a; vlist l])
  | Er3, a :: b :: l => Some (Some [a; b; vlist l])
  | ErN n, a :: b :: c :: l =>
    match fill 3 1 (repeat (VLit LVoid) n) [a; b; c] with Some x => option_map Some (fill_rest (n - 4) 4 x l) | None => None end
  | _, _ => None
  end.

(** ** Running code *)
Section Run.
Context {Wd : Type}.
Variable prim : forall C : Type, N -> list (val C) -> Wd -> pres C * Wd.

Record state : Type := mkst { heap : list frame; store : vstore; world : Wd }.
(** a value, an error, undefined behaviour, or more steps than given *)
Inductive res (A : Type) : Type := Ok (a : A) (s : state) | Err (e : error) (s : state) | UB | Timeout.
Arguments Ok {A}. Arguments Err {A}. Arguments UB {A}. Arguments Timeout {A}.
Definition bind {A B} (r : res A) (f : A -> state -> res B) : res B :=
  match r with Ok a s => f a s | Err e s => Err e s | UB => UB | Timeout => Timeout end.
Definition set_heap (s : state) (h : option (list frame)) : res value :=
  match h with Some h => Ok (VLit LVoid) (mkst h (store s) (world s)) | None => UB end.
(** 1915-1917 *)
Definition glo_ref (vs : vstore) (i : nat) : option value := option_map snd (nth_error (rev vs) i).
Definition glo_set (vs : vstore) (i : nat) (v : value) : option vstore :=
  match nth_error (rev vs) i with
  | Some (x, _) => match put (rev vs) i (x, v) with Some l => Some (rev l) | None => None end
  | None => None
  end.
Definition read_glo (s : state) (i : nat) : res value := match glo_ref (store s) i with Some v => Ok v s | None => UB end.
(** (vector r v ...) *)
Definition new_frame (s : state) (r : rte) (l : list value) : rte * state :=
  (Some (List.length (heap s)), mkst (heap s ++ [mkframe r l]) (store s) (world s)).

(** what the closures do, [n] bounds the depth of calls of closures that are not references or constants; the operands of scheme-call are
    bound one by one (1757-1768), those of scheme-apply by one let whose simple part, the value of a global variable, is taken
    after the call of evaluate (cps-list, 5.sf:130-144) *)
Fixpoint exec (n : nat) (c : code) (r : rte) (s : state) {struct n} : res value :=
  match c with
  | CRef q => match run_ref (heap s) q r with Some (HV v) => Ok v s | _ => UB end
  | CGlo i => read_glo s i
  | CCst d => Ok (quoted d) s
  | _ =>
    match n with
    | O => Timeout
    | S n =>
      let make a e b := Ok (VClo (mkproc a e b r)) s in
      let fixed k e b := make (argc_annotation (Z.of_nat k)) e b in
      let dotted k e b := make (rest_argc_annotation (Z.of_nat k)) e b in
      let evaluate := fix evaluate (l : list code) (s : state) {struct l} : res (list value) :=
        match l with
        | [] => Ok [] s
        | c :: l' => bind (exec n c r s) (fun v s => bind (evaluate l' s) (fun vs s => Ok (v :: vs) s))
        end in
      let call (argc : nat) (f : value) (args : list value) (s : state) : res value :=
        match f with
        | VClo p =>
          if argc_ok (p_ann p) (Z.of_nat argc) then
            match bind_args (p_entry p) args with
            | Some (Some l) => let (x, s) := new_frame s (p_rte p) l in exec n (p_body p) x s
            | Some None => exec n (p_body p) (p_rte p) s
            | None => UB
            end
          else Err BadArgc s
        | VPrim p =>
          match prim proc p args (world s) with
          | (POk v, w) => Ok v (mkst (heap s) (store s) w)
          | (PErr e, w) => Err (PrimError e) (mkst (heap s) (store s) w)
          end
        | _ => Err BadProc s
        end in
      let comb f args := bind (exec n f r s) (fun f s => bind (evaluate args s) (fun l s => call (List.length args) f l s)) in
      let glo_comb i args := bind (read_glo s i) (fun f s => bind (evaluate args s) (fun l s => call (List.length args) f l s)) in
      let init x := fix init (l : list code) (i : nat) (s : state) {struct l} : res unit :=
        match l with
        | [] => Ok tt s
        | c :: l' => bind (exec n c x s) (fun v s => bind (set_heap s (vector_set (heap s) x i v)) (fun _ s => init l' (S i) s))
        end in
      let letrec vals b hole := let (x, s) := new_frame s r (repeat hole (List.length vals)) in bind (init x vals 1%nat s) (fun _ s => exec n b x s) in
      match c with
      | CRef _ | CGlo _ | CCst _ => UB
      | CSet0 i c => bind (exec n c r s) (fun v s => set_heap s (vector_set (heap s) r i v))
      | CSet1 i c =>
        bind (exec n c r s) (fun v s => match frame_ref (heap s) r 0 with Some p => set_heap s (vector_set (heap s) p i v) | None => UB end)
      | CSetN up i c =>
        match frame_ref (heap s) r 0 with
        | Some p =>
          match run_ref (heap s) up p with
          | Some (HR q) => bind (exec n c r s) (fun v s => set_heap s (vector_set (heap s) q i v))
          | _ => UB
          end
        | None => UB
        end
      | CGloSet i c =>
        bind (exec n c r s) (fun v s => match glo_set (store s) i v with Some vs => Ok (VLit LVoid) (mkst (heap s) vs (world s)) | None => UB end)
      | CLam1r b => dotted 1%nat Er1 b
      | CLam2r b => dotted 2%nat Er2 b
      | CLam3r b => dotted 3%nat Er3 b
      | CLamNr k b => dotted k (ErN k) b
      | CLam0 b => fixed 0%nat E0 b
      | CLam1 b => fixed 1%nat E1 b
      | CLam2 b => fixed 2%nat E2 b
      | CLam3 b => fixed 3%nat E3 b
      | CLam4 b => fixed 4%nat E4 b
      | CLamN k b => fixed k (EN k) b
      | CSeq a b => bind (exec n a r s) (fun _ s => exec n b r s)
      | CWhen a b => bind (exec n a r s) (fun v s => if falsy v then Ok VNil s else exec n b r s)
      | CIf a b c => bind (exec n a r s) (fun v s => if falsy v then exec n c r s else exec n b r s)
      | CLetrec1 v b => letrec [v] b (VLit (LBool false))
      | CLetrec2 v w b => letrec [v; w] b (VLit (LBool false))
      | CLetrec3 v w x b => letrec [v; w; x] b (VLit (LBool false))
      | CLetrecN _ vals b => letrec vals b (VLit LVoid)
      | CGloComb0 i => glo_comb i []
      | CGloComb1 i a => glo_comb i [a]
      | CGloComb2 i a b => glo_comb i [a; b]
      | CGloComb3 i a b c => glo_comb i [a; b; c]
      | CGloComb4 i a b c d => glo_comb i [a; b; c; d]
      | CGloCombN argc i args => bind (evaluate args s) (fun l s => bind (read_glo s i) (fun f s => call argc f l s))
      | CComb0 f => comb f []
      | CComb1 f a => comb f [a]
      | CComb2 f a b => comb f [a; b]
      | CComb3 f a b c => comb f [a; b; c]
      | CComb4 f a b c d => comb f [a; b; c; d]
      | CCombN argc f args => bind (exec n f r s) (fun f s => bind (evaluate args s) (fun l s => call argc f l s))
      end
    end
  end.

(** 2192-2200 scheme-compile-run, and the forms of a program one by one (the value of the last one is the result) *)
Definition compile_run (n : nat) (d : datum) (s : state) : res value :=
  match comp [] d (store s) with
  | COk (c, vs) => exec n c None (mkst (heap s) vs (world s))
  | CFail => Err BadForm s
  | CUndef => UB
  end.
Fixpoint run_forms (n : nat) (ds : list datum) (s : state) : res value :=
  match ds with
  | [] => Ok (VLit LVoid) s
  | [d] => compile_run n d s
  | d :: ds' => bind (compile_run n d s) (fun _ s => run_forms n ds' s)
  end.
(** 2230-2231 get-global; 2233-2234 set-global!, with which the primitives are entered into the store *)
Definition get_global (name : sym) (vs : vstore) : value := let (i, vs') := value_store_lookup name vs in match glo_ref vs' i with Some v => v | None => VNil end.
Definition set_global (name : sym) (v : value) (vs : vstore) : vstore := let (i, vs') := value_store_lookup name vs in match glo_set vs' i v with Some vs'' => vs'' | None => vs' end.
End Run.
Arguments Ok {Wd A}. Arguments Err {Wd A}. Arguments UB {Wd A}. Arguments Timeout {Wd A}.
