(** Specification of a whole function with integer parameters, called as the System V ABI says. *)
From Coq Require Import ZArith List Bool.
From Verif Require Import Base IntSpec IntModel X86 CgModel CgSpec StmtSpec StmtPlace ArgSpec.
Import ListNotations.
Local Open Scope Z_scope.

(** A function: result type, parameters (type and name), body, the largest alignment of its
    locals (at least 16), and whether it is main. *)
Record func := mkfunc {
  fn_ret : ityp; fn_params : list (ityp * nat); fn_body : stmt; fn_align : Z; fn_main : bool }.
Definition aligned_frame (fn : func) : bool := 16 <? fn_align fn.

(** The frame, given %rsp at the entry (where the return address is): locals lie below
    [frame_base]; the saved registers and the return address from [link_area] to %rsp + 8. *)
Definition frame_base (fn : func) (s : Z) : Z :=
  if aligned_frame fn then (s - 16) - (s - 16) mod fn_align fn else s - 8.
Definition link_area (fn : func) (s : Z) : Z := if aligned_frame fn then s - 16 else s - 8.
(** Registers that address variables in the body. *)
Definition frame_regs (fn : func) (m : mach) (r : reg) : Z :=
  match r with
  | BP => rg m SP - 8
  | BX => if aligned_frame fn then frame_base fn (rg m SP) else rg m BX
  | _ => rg m r
  end.

(** The i-th parameter of type [t] has been passed the value [v]. *)
Definition passed (m : mach) (i : nat) (t : ityp) (v : Z) : Prop :=
  match arg_place false i with
  | InReg r => rg m r mod 2 ^ (8 * isize t) = v mod 2 ^ (8 * isize t)
  | OnStack o => loadn (Z.to_nat (isize t)) (rg m SP + 8 + o) (mm m) = v mod 2 ^ (8 * isize t)
  end.

(** What %rax holds at the end; reaching the } of main returns 0 (C11 5.1.2.2.3). *)
Definition result (fn : func) (o : ending) (ax : Z) : Prop :=
  match o with
  | Return (Some v) => ax mod 2 ^ result_bits (fn_ret fn) = v mod 2 ^ result_bits (fn_ret fn)
  | Normal => fn_main fn = true -> ax = 0
  | _ => True
  end.
