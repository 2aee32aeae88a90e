(** What a function that runs on the C stack means in Scheme, what the C code for it does, and which functions are compiled this way.

    Values, the rest of the world and what primitives do are parameters, so that everything holds for all of them.  Both sides
    evaluate operands in any order: neither Scheme nor C says in which. *)
From Coq Require Import ZArith List Bool Permutation.
From Verif Require Import Base Model_Lit Model_Core Model_Globals Model_Stack Spec_Scope Spec_Globals.
Import ListNotations.
Open Scope Z_scope.

(** ** Functions: [ls] are the labels in scope with their parameters, [t] tells whether the value is returned.
    As [c_body] of Spec_Globals (C51), but calls and jumps have as many operands as there are parameters, and labels occur only where the
    value is returned. *)
Inductive s_body (self : id) (params : list id) : list id -> list (id * list id) -> bool -> exp -> Prop :=
| sb_var xs ls t x : In x xs \/ global_id x = true -> s_body self params xs ls t (EVar x)
| sb_if xs ls t a b c : s_body self params xs ls false a -> s_body self params xs ls t b -> s_body self params xs ls t c ->
    s_body self params xs ls t (EIf a b c)
| sb_prim xs ls t ef p l : (forall e, In e l -> s_body self params xs ls false e) -> s_body self params xs ls t (EPrim ef p l)
| sb_let xs ls t ys l b : length ys = length l -> (forall e, In e l -> s_body self params xs ls false e) ->
    s_body self params (ys ++ xs) ls t b -> s_body self params xs ls t (EApp (ELam ys b) l)
| sb_self xs ls t l : length l = length params -> (forall e, In e l -> s_body self params xs ls false e) ->
    s_body self params xs ls t (EApp (EVar self) l)
| sb_goto xs ls y ps l : y <> self -> assq y ls = Some ps -> length l = length ps -> (forall e, In e l -> s_body self params xs ls false e) ->
    s_body self params xs ls true (EApp (EVar y) l)
| sb_fix xs ls ys lams b : length ys = length lams -> ~ In self ys ->
    s_body self params xs (combine ys (map fst lams) ++ ls) true b ->
    (forall lam, In lam lams -> s_body self params (fst lam ++ xs) (combine ys (map fst lams) ++ ls) true (snd lam)) ->
    s_body self params xs ls true (EFix ys lams b)
| sb_loop xs ls y ps b l : y <> self -> length l = length ps -> (forall e, In e l -> s_body self params xs ls false e) ->
    s_body self params (ps ++ xs) ((y, ps) :: ls) true b -> s_body self params xs ls true (EApp (EFix [y] [(ps, b)] (EVar y)) l).

Section Meaning.
Variables V W : Type.
Variable truth : V -> bool.
(** what a primitive may do: operands, world before, result, world after *)
Variable prim_does : prim -> list V -> W -> V -> W -> Prop.
(** values of global constants *)
Variable globals : id -> V.
Variable self : id.

Definition store := id -> V.
Definition upd (s : store) (x : id) (v : V) : store := fun y => if id_eqb y x then v else s y.
Fixpoint bind (xs : list id) (vs : list V) (s : store) : store :=
  match xs, vs with x :: xs', v :: vs' => upd (bind xs' vs' s) x v | _, _ => s end.

(** ** Scheme.  The functions of one fix with the variables and labels they see *)
Inductive clo := Clo (ids : list id) (lams : list (list id * exp)) (env : store) (outer : list clo).
Fixpoint find_clo (y : id) (cs : list clo) : option (list id * exp * store * list clo) :=
  match cs with
  | [] => None
  | Clo ids lams r o :: cs' =>
    match assq y (combine ids lams) with Some (ps, b) => Some (ps, b, r, cs) | None => find_clo y cs' end
  end.
Section Source.
Variables (params : list id) (body : exp).
Inductive eval : list clo -> store -> exp -> W -> V -> W -> Prop :=
| ev_var cs r x w : eval cs r (EVar x) w (r x) w
| ev_if cs r a b c w va w1 v w2 : eval cs r a w va w1 -> eval cs r (if truth va then b else c) w1 v w2 -> eval cs r (EIf a b c) w v w2
| ev_prim cs r ef p l vs w w1 v w2 : length vs = length l -> evals cs r (combine l vs) w w1 -> prim_does p vs w1 v w2 ->
    eval cs r (EPrim ef p l) w v w2
| ev_let cs r ys b l vs w w1 v w2 : length vs = length l -> length ys = length l -> evals cs r (combine l vs) w w1 ->
    eval cs (bind ys vs r) b w1 v w2 -> eval cs r (EApp (ELam ys b) l) w v w2
| ev_self cs r l vs w w1 v w2 : length vs = length l -> length params = length l -> evals cs r (combine l vs) w w1 ->
    eval [] (bind params vs globals) body w1 v w2 -> eval cs r (EApp (EVar self) l) w v w2
| ev_label cs r y l ps b r' cs' vs w w1 v w2 : y <> self -> find_clo y cs = Some (ps, b, r', cs') -> length vs = length l ->
    length ps = length l -> evals cs r (combine l vs) w w1 -> eval cs' (bind ps vs r') b w1 v w2 -> eval cs r (EApp (EVar y) l) w v w2
| ev_fix cs r ids lams b w v w2 : eval (Clo ids lams r cs :: cs) r b w v w2 -> eval cs r (EFix ids lams b) w v w2
| ev_loop cs r y ps b l vs w w1 v w2 : length vs = length l -> length ps = length l -> evals cs r (combine l vs) w w1 ->
    eval (Clo [y] [(ps, b)] r cs :: cs) (bind ps vs r) b w1 v w2 -> eval cs r (EApp (EFix [y] [(ps, b)] (EVar y)) l) w v w2
with evals : list clo -> store -> list (exp * V) -> W -> W -> Prop :=
| es_nil cs r w : evals cs r [] w w
| es_pick cs r l e v l' w w1 w2 : Permutation l ((e, v) :: l') -> eval cs r e w v w1 -> evals cs r l' w1 w2 -> evals cs r l w w2.
End Source.

(** ** C.  [frames]: the labels of the blocks entered so far, each with what follows the block.  Variables that have no value yet have
    any value.  The number bounds the height of a derivation. *)
Definition frames := list (bool * list (id * option st) * list st).
Definition live (labs : list (id * option st)) : list st := flat_map (fun l => match snd l with Some s => [s] | None => [] end) labs.
Fixpoint from_label (done : bool) (labs : list (id * option st)) (k : list st) (y : id) : option (option (list st)) :=
  match labs with
  | [] => None
  | (x, o) :: labs' => if id_eqb y x then Some (option_map (fun s => s :: (if done then k else live labs' ++ k)) o) else from_label done labs' k y
  end.
Section Target.
Variable code : cfun.
Fixpoint jump (g : frames) (y : id) : option (list st * frames) :=
  match g with
  | [] => if id_eqb y self && cf_label code then Some ([cf_body code], []) else None
  | (d, labs, k) :: g' =>
    match from_label d labs k y with Some (Some k') => Some (k', g) | Some None => None | None => jump g' y end
  end.
Definition put (t : target) (v : V) (s : store) : store := match t with TVar x => upd s x v | _ => s end.
(** [run n g k s w v w']: the statements [k], in the function with the labels [g], return [v] *)
Inductive ceval : nat -> store -> W -> cx -> V -> W -> Prop :=
| ce_var n s w x : ceval (S n) s w (XVar x) (s x) w
| ce_if n s w a b c va w1 v w2 : ceval n s w a va w1 -> ceval n s w1 (if truth va then b else c) v w2 -> ceval (S n) s w (XIf a b c) v w2
| ce_prim n s w p l vs w1 v w2 : length vs = length l -> cevals n s (combine l vs) w w1 -> prim_does p vs w1 v w2 -> ceval (S n) s w (XPrim p l) v w2
| ce_call n s w l vs s0 w1 v w2 : length vs = length l -> length (cf_params code) = length l -> cevals n s (combine l vs) w w1 ->
    (forall x, global_id x = true -> s0 x = globals x) -> run n [] [cf_body code] (bind (cf_params code) vs s0) w1 v w2 ->
    ceval (S n) s w (XCall self l) v w2
with cevals : nat -> store -> list (cx * V) -> W -> W -> Prop :=
| cs_nil n s w : cevals n s [] w w
| cs_pick n s l c v l' w w1 w2 : Permutation l ((c, v) :: l') -> ceval n s w c v w1 -> cevals n s l' w1 w2 -> cevals (S n) s l w w2
with run : nat -> frames -> list st -> store -> W -> V -> W -> Prop :=
| r_return n g k s w c v w' : ceval n s w c v w' -> run (S n) g (SSet TReturn c :: k) s w v w'
| r_set n g k s w t c u w1 v w' : t <> TReturn -> ceval n s w c u w1 -> run n g k (put t u s) w1 v w' -> run (S n) g (SSet t c :: k) s w v w'
| r_prim_return n g k s w p l vs w1 v w' : length vs = length l -> cevals n s (combine l vs) w w1 -> prim_does p vs w1 v w' ->
    run (S n) g (SPrim TReturn p l :: k) s w v w'
| r_prim n g k s w t p l vs w1 u w2 v w' : t <> TReturn -> length vs = length l -> cevals n s (combine l vs) w w1 -> prim_does p vs w1 u w2 ->
    run n g k (put t u s) w2 v w' -> run (S n) g (SPrim t p l :: k) s w v w'
| r_if n g k s w c a b u w1 v w' : ceval n s w c u w1 -> run n g ((if truth u then a else b) :: k) s w1 v w' -> run (S n) g (SIf c a b :: k) s w v w'
| r_seq n g k s w l v w' : run n g (l ++ k) s w v w' -> run (S n) g (SSeq l :: k) s w v w'
| r_assign n g k s w f x c l u w1 v w' : ceval n s w c u w1 -> run n g (SGoto f l :: k) (upd s x u) w1 v w' ->
    run (S n) g (SGoto f ((x, c) :: l) :: k) s w v w'
| r_goto n g k s w f k' g' v w' : jump g f = Some (k', g') -> run n g' k' s w v w' -> run (S n) g (SGoto f [] :: k) s w v w'
| r_letrec n g k s w b d labs v w' : run n ((d, labs, k) :: g) (b :: (if d then k else live labs ++ k)) s w v w' ->
    run (S n) g (SLetrec b d labs :: k) s w v w'.
(** calling the C function with the values [vs] may return [v] *)
Definition c_returns (vs : list V) (w : W) (v : V) (w' : W) : Prop :=
  exists n s, (forall x, global_id x = true -> s x = globals x) /\ run n [] [cf_body code] (bind (cf_params code) vs s) w v w'.
End Target.
End Meaning.

(** functions as they come out of the analysis: a lambda, perhaps in trivial lets *)
Inductive s_function (self : id) : exp -> list id -> exp -> Prop :=
| sf_lam ps b : s_body self ps ps [] true b -> s_function self (ELam ps b) ps b
| sf_null e ps b : s_function self e ps b -> s_function self (EApp (ELam [] e) []) ps b
| sf_ident x e ps b : s_function self e ps b -> s_function self (EApp (ELam [x] (EVar x)) [e]) ps b.

(** ** Labels: jumps in a statement to labels that the statement does not contain *)
Definition labels_of (labs : list (id * option st)) : list id := flat_map (fun l => match snd l with Some _ => [fst l] | None => [] end) labs.
Fixpoint jumps_out (s : st) : list id :=
  match s with
  | SSet _ _ | SPrim _ _ _ => []
  | SIf _ a b => jumps_out a ++ jumps_out b
  | SSeq l => flat_map jumps_out l
  | SGoto f _ => [f]
  | SLetrec b _ labs =>
    filter (fun x => negb (memq x (labels_of labs)))
           (jumps_out b ++ flat_map (fun l => match snd l with Some s' => jumps_out s' | None => [] end) labs)
  end.
(** every jump has its label *)
Definition complete (self : id) (c : cfun) : Prop := forall f, In f (jumps_out (cf_body c)) -> f = self /\ cf_label c = true.
(** there is no loop: no letrec that is applied at once *)
Fixpoint no_loop (e : exp) : bool :=
  match e with
  | EVar _ => true
  | ESet _ e | ELetcc _ e | ELam _ e => no_loop e
  | EIf a b c => no_loop a && no_loop b && no_loop c
  | EPrim _ _ l => forallb no_loop l
  | EApp (EFix _ _ _) _ => false
  | EApp f l => no_loop f && forallb no_loop l
  | EFix _ lams b => forallb (fun l => no_loop (snd l)) lams && no_loop b
  | EWithcc k e => no_loop k && no_loop e
  end.
