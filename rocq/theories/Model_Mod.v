(** Modules: /repo/c.sf:145-238 (parse-file: module-name, module-add-load!, the LOAD macro),
    6.sf:322-331 (path functions) and 6.sf:489-502 (code-module: the C function MODULE of each
    module), 6.sf:616-632 (code-main calls the module function of the main file). *)
From Coq Require Import ZArith List Bool.
From Verif Require Import Base Model_Sym Model_CStr Model_Mangle.
Import ListNotations.
Open Scope Z_scope.

(** 6.sf:322-326: [l] is the reversed name, characters backslash, slash and colon separate *)
Fixpoint strip_dir_loop (l r : str) : str :=
  match l with
  | [] => r
  | c :: l' => if existsb (Z.eqb c) [92; 47; 58] then r else strip_dir_loop l' (c :: r)
  end.
Definition path_strip_directory (f : str) : str := strip_dir_loop (rev f) [].
(** 6.sf:328-331; [memv] of the period in the reversed name *)
Fixpoint memv_dot (l : str) : option str :=
  match l with [] => None | c :: l' => if c =? 46 then Some l' else memv_dot l' end.
Definition path_strip_extension (f : str) : str :=
  match memv_dot (rev f) with Some r => rev r | None => f end.

(** c.sf:147-148 *)
Definition p_module : str := [109; 111; 100; 117; 108; 101; 95].
Definition module_name (f : str) : res str := c_mangle (path_strip_extension (path_strip_directory f)) p_module.

(** What parse-file sees of a file after expansion, in order: loads of other files, definitions,
    and forms that have no influence on loading (c.sf:173-189, 224-238). *)
Inductive form := FLoad (f : str) | FDefine | FOther.
Definition files := list (str * list form).
Fixpoint file_forms (fs : files) (f : str) : option (list form) :=
  match fs with [] => None | (g, x) :: fs' => if cstr_eqb f g then Some x else file_forms fs' f end.

(** c.sf:149-150, 158-168: visits and loads, both lists of module names, latest first *)
Record mstate := mkms { ms_visits : list str; ms_loads : list str }.
Definition mem (n : str) (l : list str) : bool := existsb (cstr_eqb n) l.
(** c.sf:153-189 module-add-load!; the inner loop over the forms of the file, [sdefs] whether a
    definition was met.  [None]: file missing, or fuel exhausted (excluded by proof) *)
Fixpoint module_add_load (fs : files) (fuel : nat) (f : str) (st : mstate) : option mstate :=
  match fuel with
  | O => None
  | S k =>
    match module_name f with
    | UB => None
    | Val name =>
      if mem name (ms_visits st) then Some st
      else
        match file_forms fs f with
        | None => None
        | Some forms =>
          (fix loop (forms : list form) (sdefs : bool) (st : mstate) {struct forms} : option mstate :=
             match forms with
             | [] => Some (if sdefs then mkms (ms_visits st) (name :: ms_loads st) else st)
             | FLoad g :: forms' =>
               match module_add_load fs k g st with Some st' => loop forms' sdefs st' | None => None end
             | FDefine :: forms' => loop forms' true st
             | FOther :: forms' => loop forms' sdefs st
             end) forms false (mkms (name :: ms_visits st) (ms_loads st))
        end
    end
  end.
(** c.sf:190-238: compiling file [f]; the result is the list behind the LOAD macro *)
Fixpoint parse_loop (fs : files) (fuel : nat) (forms : list form) (st : mstate) : option mstate :=
  match forms with
  | [] => Some st
  | FLoad g :: forms' =>
    match module_add_load fs fuel g st with Some st' => parse_loop fs fuel forms' st' | None => None end
  | _ :: forms' => parse_loop fs fuel forms' st
  end.
Definition parse_file (fs : files) (f : str) : option (list str) :=
  match file_forms fs f with
  | None => None
  | Some forms =>
    match parse_loop fs (S (length fs)) forms (mkms [] []) with Some st => Some (ms_loads st) | None => None end
  end.

(** c.sf:224-236: the names declared by [extern void name(void)] in the C file: those that
    [module-add-load!] returns for the loads of the file itself *)
Definition returned_name (fs : files) (f : str) (st : mstate) : list str :=
  match module_name f, file_forms fs f with
  | Val n, Some forms =>
    if mem n (ms_visits st) then []
    else if existsb (fun x => match x with FDefine => true | _ => false end) forms then [n] else []
  | _, _ => []
  end.
Fixpoint extern_loop (fs : files) (fuel : nat) (forms : list form) (st : mstate) : list str :=
  match forms with
  | [] => []
  | FLoad g :: forms' =>
    returned_name fs g st ++
    match module_add_load fs fuel g st with Some st' => extern_loop fs fuel forms' st' | None => [] end
  | _ :: forms' => extern_loop fs fuel forms' st
  end.
Definition externs (fs : files) (f : str) : list str :=
  match file_forms fs f with
  | None => []
  | Some forms => extern_loop fs (S (length fs)) forms (mkms [] [])
  end.

(** The linked program: the compiled modules, by C name, with their LOAD lists. *)
Definition program := list (str * list str).
Fixpoint load_list (p : program) (n : str) : option (list str) :=
  match p with [] => None | (m, l) :: p' => if cstr_eqb n m then Some l else load_list p' n end.
Fixpoint compile_all (fs todo : files) : option program :=
  match todo with
  | [] => Some []
  | (f, _) :: todo' =>
    match module_name f, parse_file fs f, compile_all fs todo' with
    | Val n, Some l, Some p => Some ((n, l) :: p)
    | _, _, _ => None
    end
  end.

(** 6.sf:490-502: state = modules whose [root.next] is set, and the bodies run so far *)
Record rstate := mkrs { rs_init : list str; rs_trace : list str }.
Fixpoint run_module (p : program) (fuel : nat) (n : str) (st : rstate) : option rstate :=
  match fuel with
  | O => None
  | S k =>
    if mem n (rs_init st) then Some st
    else
      match load_list p n with
      | None => None                                     (* undefined symbol at link time *)
      | Some loads =>
        match (fix load (l : list str) (st : rstate) {struct l} : option rstate :=
                 match l with
                 | [] => Some st
                 | m :: l' => match run_module p k m st with Some st' => load l' st' | None => None end
                 end) loads (mkrs (n :: rs_init st) (rs_trace st)) with
        | Some st' => Some (mkrs (rs_init st') (rs_trace st' ++ [n]))
        | None => None
        end
      end
  end.
Definition run_main (p : program) (n : str) : option (list str) :=
  match run_module p (S (length p)) n (mkrs [] []) with Some st => Some (rs_trace st) | None => None end.
