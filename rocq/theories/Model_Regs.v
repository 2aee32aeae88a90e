(** The register file of compiled code: /repo/6.sf:440 (rreserve), 466-486 (host
    prologue and epilogue), 507 (REGS_SIZE), 589-600 (cxm_rgc); /repo/7.sf:359-408, 664
    (window shifts).

    Registers are numbered from the start of the file ([cxg_regs]); [rf] gives the
    contents and [cap] the number of allocated registers ([cxg_rend - cxg_regs]).
    What lies at or behind [cap] does not belong to the file; [rf] gives it an
    arbitrary value, and every register read by the copying loop is reported, so
    that reads outside the file show in the result. *)
From Coq Require Import ZArith List Bool.
Import ListNotations.
Open Scope Z_scope.

Record rfile := mkrf { rf : Z -> Z; cap : Z }.

Definition rset (f : Z -> Z) (i v : Z) : Z -> Z := fun x => if x =? i then v else f x.

(** 6.sf:598  [while (needs--) *p++ = *regs++;], from register [src] to [dst] *)
Fixpoint copy_up (n : nat) (f : Z -> Z) (src dst : Z) : (Z -> Z) * list Z :=
  match n with
  | O => (f, [])
  | S n' => let '(f', rd) := copy_up n' (rset f dst (f src)) (src + 1) (dst + 1) in (f', src :: rd)
  end.

(** 6.sf:589-600.  [fresh] is what [realloc] leaves in the added registers and what
    lies behind them.  [off] is [regs - cxg_regs].  Result: file, registers read.
    The call with a null [regs] at start-up (6.sf:619) is [rgc_init]. *)
Definition cxm_rgc (fresh : Z -> Z) (s : rfile) (off needs : Z) : rfile * list Z :=
  let s1 := if cap s <? needs
            then mkrf (fun i => if i <? cap s then rf s i else fresh i) needs
            else s in
  if 0 <? off then
    let '(f, rd) := copy_up (Z.to_nat needs) (rf s1) off 0 in (mkrf f (cap s1), rd)
  else (s1, []).

Definition REGS_SIZE : Z := 4092.   (* 6.sf:507 *)
Definition rgc_init (fresh : Z -> Z) : rfile := mkrf fresh REGS_SIZE.

(** 6.sf:440  [if (r + m >= cxg_rend) r = cxm_rgc(r, m)]; returns the new [r] too *)
Definition rreserve (fresh : Z -> Z) (s : rfile) (off m : Z) : rfile * Z * list Z :=
  if cap s <=? off + m then let '(s', rd) := cxm_rgc fresh s off m in (s', 0, rd)
  else (s, off, []).

(** What compiled code does to its window; [m] is MAX_HOSTREGS of the running host.
    - [RSet i v]      : [r[i] = v]
    - [RShift l]      : [r += l] without reservation (7.sf:664, entry of a closure)
    - [RCall l]       : [r += l; rreserve(MAX_HOSTREGS)] (7.sf:365, 384, 407; with
                        [l = 0] also 7.sf:397)
    - [RHost m']      : leave the host (6.sf:479-481) and enter another with its own
                        MAX_HOSTREGS (6.sf:469-472) *)
Inductive rop := RSet (i v : Z) | RShift (l : Z) | RCall (l : Z) | RHost (m' : Z).

Record rstate := mkrs { r_file : rfile; r_off : Z; r_max : Z; r_reads : list Z }.

Definition rstep (fresh : Z -> Z) (s : rstate) (o : rop) : rstate :=
  match o with
  | RSet i v => mkrs (mkrf (rset (rf (r_file s)) (r_off s + i) v) (cap (r_file s))) (r_off s) (r_max s) (r_reads s)
  | RShift l => mkrs (r_file s) (r_off s + l) (r_max s) (r_reads s)
  | RCall l => let '(f, off, rd) := rreserve fresh (r_file s) (r_off s + l) (r_max s) in
               mkrs f off (r_max s) (r_reads s ++ rd)
  | RHost m' => let '(f, rd) := cxm_rgc fresh (r_file s) (r_off s) (r_max s) in
                let '(f', off, rd') := rreserve fresh f 0 m' in
                mkrs f' off m' (r_reads s ++ rd ++ rd')
  end.
Fixpoint rrun (s : rstate) (l : list (rop * (Z -> Z))) : rstate :=
  match l with [] => s | (o, fresh) :: l' => rrun (rstep fresh s o) l' end.
