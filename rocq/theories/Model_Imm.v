(** Immediate objects and fixnum primitives of the base runtime.
    Source: /repo/0.sf lines 245-545, /repo/6.sf lines 408-450. *)
From Coq Require Import ZArith Bool List.
From Verif Require Import Base.
Open Scope Z_scope.

(** 0.sf:252  [#define isimm(o, t) (((o) & 0xff) == (((t) << 1) | 1))] *)
Definition isimm (o t : Z) : bool := Z.land o 255 =? Z.lor (Z.shiftl t 1) 1.

(** 0.sf:275  [#define mkimm(o, t) (obj)((((o) & 0xffffff) << 8) | ((t) << 1) | 1)].
    The operand has C type [int]; the left shift is the 32-bit two's complement
    shift of the C89 compilers the project targets (it wraps into the sign bit;
    C99 calls that undefined), and the cast to [obj] sign-extends. *)
Definition mkimm (o t : Z) : Z :=
  Z.lor (Z.lor (wrap32 (Z.shiftl (Z.land o 16777215) 8)) (Z.shiftl t 1)) 1.

(** 0.sf:254-257, with its assertion *)
Definition getimmu (o t : Z) : res Z :=
  if isimm o t then Val (Z.land (Z.shiftr o 8) 16777215) else UB.

(** 0.sf:259-262, with its assertion *)
Definition getimms (o t : Z) : res Z :=
  if isimm o t
  then Val (Z.lxor (Z.land (Z.shiftr o 8) 16777215) 8388608 - 8388608)
  else UB.

(** tags: 0.sf:359 TRUE, 385 FIXNUM, 815 CHAR, 1153 NULL, 1442 SYMBOL, 1651 EOF *)
Definition TRUE_ITAG : Z := 0.
Definition FIXNUM_ITAG : Z := 1.
Definition CHAR_ITAG : Z := 2.
Definition NULL_ITAG : Z := 3.
Definition SYMBOL_ITAG : Z := 4.
Definition EOF_ITAG : Z := 127.

(** 0.sf:365, 361, and 6.sf:432 [bool_from_obj] *)
Definition obj_from_bool (b : bool) : Z := if b then mkimm 0 TRUE_ITAG else 0.
Definition is_bool_obj (o : Z) : bool := Z.land o (Z.lnot 1) =? 0.
Definition bool_from_obj (o : Z) : bool := negb (o =? 0).

(** 0.sf:386-393 *)
Definition obj_from_fixnum (i : Z) : Z := mkimm i FIXNUM_ITAG.
Definition fixnum_from_obj (o : Z) : res Z := getimms o FIXNUM_ITAG.
Definition FIXNUM_MIN : Z := -8388608.
Definition FIXNUM_MAX : Z := 8388607.

(** 0.sf:815-822 *)
Definition obj_from_char (c : Z) : Z := mkimm c CHAR_ITAG.
Definition char_from_obj (o : Z) : res Z := getimms o CHAR_ITAG.

(** 0.sf:1153-1157, 1443-1445, 1651-1653 *)
Definition mknull : Z := mkimm 0 NULL_ITAG.
Definition mksymbol (i : Z) : Z := mkimm i SYMBOL_ITAG.
Definition getsymbol (o : Z) : res Z := getimmu o SYMBOL_ITAG.
Definition mkeof : Z := mkimm (-1) EOF_ITAG.

(** 6.sf:414-417, 422, 427.  Addresses and words are unbounded integers here: the
    pointer difference is assumed not to wrap in 64 bits. *)
Definition hmask (s : Z) : Z := Z.lor 1 (Z.lnot (s * 8 - 1)).   (* 6.sf:575 *)
Definition notobjptr (o heap mask : Z) : bool := negb (Z.land (o - heap) mask =? 0).
Definition isobjptr (o heap mask : Z) : bool := negb (notobjptr o heap mask).
Definition notaptr (o : Z) : bool := negb (Z.land o 1 =? 0).
Definition isaptr (o : Z) : bool := negb (notaptr o).
Definition obj_from_size (n : Z) : Z := Z.lor (Z.shiftl n 1) 1.
Definition size_from_obj (o : Z) : Z := wrap32 (Z.shiftr o 1).

(** * Fixnum primitives (0.sf:417-545): C [int] expressions on unboxed operands.
    [UB] is signed overflow, division by zero or an invalid shift count. *)

(** 0.sf:432-437  "fixnum(fixnum_from_$arg + fixnum_from_$arg)" *)
Definition fxadd (x y : Z) : res Z := ckint (x + y).
(** 0.sf:439-443 *)
Definition fxsub (x y : Z) : res Z := ckint (x - y).
Definition fxneg (x : Z) : res Z := ckint (- x).
(** 0.sf:445-450 *)
Definition fxmul (x y : Z) : res Z := ckint (x * y).
(** 0.sf:452-454  C [/] truncates towards zero *)
Definition fxquo (x y : Z) : res Z := if y =? 0 then UB else ckint (Z.quot x y).
(** 0.sf:456-458 *)
Definition fxrem (x y : Z) : res Z :=
  if y =? 0 then UB else rbind (ckint (Z.quot x y)) (fun _ => Val (Z.rem x y)).
(** 0.sf:460-483 *)
Definition fxlogand (x y : Z) : res Z := Val (Z.land x y).
Definition fxlogor (x y : Z) : res Z := Val (Z.lor x y).
Definition fxlogxor (x y : Z) : res Z := Val (Z.lxor x y).
(** 0.sf:485-491: [x << y] and [x >> y] *)
Definition fxsll (x y : Z) : res Z :=
  if (0 <=? y) && (y <? 32) && (0 <=? x) then ckint (Z.shiftl x y) else UB.
Definition fxsrl (x y : Z) : res Z :=
  if (0 <=? y) && (y <? 32) then Val (Z.shiftr x y) else UB.
(** 0.sf:417-430, 493-516; [%] is C remainder *)
Definition fxzerop (x : Z) : bool := x =? 0.
Definition fxnegativep (x : Z) : bool := x <? 0.
Definition fxpositivep (x : Z) : bool := 0 <? x.
Definition fxevenp (x : Z) : bool := Z.rem x 2 =? 0.
Definition fxoddp (x : Z) : bool := negb (Z.rem x 2 =? 0).
Definition fxlt (x y : Z) : bool := x <? y.
(** 0.sf:518-529 *)
Definition fxmin2 (x y : Z) : Z := if x <? y then x else y.
Definition fxmax2 (x y : Z) : Z := if y <? x then x else y.
(** 0.sf:528  "fixnum(labs(fixnum_from_$arg))", the result stored in an [int] *)
Definition fxabs (x : Z) : res Z := ckint (Z.abs x).

(** 0.sf:531-539; [None] = fuel exhausted.  The recursion is on [y]. *)
Fixpoint fxexpt (fuel : nat) (x y : Z) : option (res Z) :=
  match fuel with
  | O => None
  | S f =>
    if fxzerop y then Some (Val 1)
    else if fxzerop x then Some (Val 0)
    else if fxlt y 0 then Some (Val 0)
    else if y =? 1 then Some (Val x)
    else if fxoddp y then
      match fxsub y 1 with
      | UB => Some UB
      | Val y1 => option_map (fun r => rbind r (fun v => fxmul x v)) (fxexpt f x y1)
      end
    else
      match fxquo y 2 with
      | UB => Some UB
      | Val y2 => option_map (fun r => rbind r (fun z => fxmul z z)) (fxexpt f x y2)
      end
  end.

(** A fixnum value stored in an object and fetched again (0.sf:389, 392, 254-275):
    what any value that passes through a heap block, a global or a boxed variable
    undergoes. *)
Definition boxed (r : res Z) : res Z :=
  rbind r (fun i => fixnum_from_obj (obj_from_fixnum i)).

(** * Unboxed and boxed evaluation of fixnum expressions.
    5.sf:273-360 [unbox-values] keeps the result of a fixnum primitive in a C [int]
    variable when all its uses are fixnum primitives; otherwise the result is
    stored as an object.  [eval_unboxed] is the first regime, [eval_boxed] the
    second, for expressions built from the binary primitives above.
    Simplification: variables are numbered and all of them hold fixnums. *)
Inductive fxop := OpAdd | OpSub | OpMul | OpQuo | OpRem | OpAnd | OpOr | OpXor.
Inductive fxexp := FxVar (n : nat) | FxApp (op : fxop) (a b : fxexp).

Definition fxapply (op : fxop) : Z -> Z -> res Z :=
  match op with
  | OpAdd => fxadd | OpSub => fxsub | OpMul => fxmul | OpQuo => fxquo
  | OpRem => fxrem | OpAnd => fxlogand | OpOr => fxlogor | OpXor => fxlogxor
  end.

Fixpoint eval_unboxed (env : nat -> Z) (e : fxexp) : res Z :=
  match e with
  | FxVar n => Val (env n)
  | FxApp op a b =>
      rbind (eval_unboxed env a) (fun x =>
      rbind (eval_unboxed env b) (fun y => fxapply op x y))
  end.

Fixpoint eval_boxed (env : nat -> Z) (e : fxexp) : res Z :=
  match e with
  | FxVar n => Val (env n)
  | FxApp op a b =>
      rbind (eval_boxed env a) (fun x =>
      rbind (eval_boxed env b) (fun y => boxed (fxapply op x y)))
  end.
