(** Model of returning structures and unions: codegen.c 1226-1286. *)
From Coq Require Import ZArith List Bool.
From Verif Require Import Base X86 Sse MemModel CallSpec CallModel.
Import ListNotations.
Local Open Scope Z_scope.

(** codegen.c:1233, 1258 *)
Definition chunk_flonum (t : aty) (ofs : Z) : outcome bool := if ofs =? 0 then has_flonum1 t else has_flonum2 t.
(** codegen.c:1251-1278; [sptr] is %rax or %rcx. *)
Fixpoint struct_reg_loop (fuel : nat) (t : aty) (sptr : reg) (gp fp : nat) (ofs : Z) : outcome (list xinstr) :=
  match fuel with
  | O => Abort
  | S f =>
      if ofs <? asize t then
        let chunk := int_conv (Z.min 8 (asize t - ofs)) in
        do fl <- chunk_flonum t ofs;
        do ofs' <- int_of (ofs + 8);
        if fl then
          do r <- struct_reg_loop f t sptr gp (S fp) ofs';
          Ok ((if chunk =? 4 then MovssLd (BReg sptr) ofs fp else MovsdLd (BReg sptr) ofs fp) :: r)
        else
          let sz := if 4 <? chunk then S8 else if 2 <? chunk then S4 else if 1 <? chunk then S2 else S1 in
          let first := Nat.eqb gp 0 in
          do r <- struct_reg_loop f t (if first then CX else sptr) (S gp) fp ofs';
          Ok ((if first then [G (Mov None (R S8 AX) (R S8 CX))] else [])
              ++ G (Mov None (M (BReg CX) ofs) (R sz (if first then AX else DX))) :: r)
      else Ok []
  end.
Definition copy_struct_reg (t : aty) : outcome (list xinstr) := struct_reg_loop (S (Z.to_nat (asize t))) t AX 0 0 0.

(** codegen.c:1226-1249 *)
Fixpoint ret_buffer_loop (fuel : nat) (t : aty) (b : base) (vofs : Z) (gp fp : nat) (ofs : Z) : outcome (list xinstr) :=
  match fuel with
  | O => Abort
  | S f =>
      if ofs <? asize t then
        let chunk := int_conv (Z.min 8 (asize t - ofs)) in
        do fl <- chunk_flonum t ofs;
        do ofs' <- int_of (ofs + 8);
        do o <- int_of (ofs + vofs);
        if fl then
          do r <- ret_buffer_loop f t b vofs gp (S fp) ofs';
          Ok ((if chunk =? 4 then MovssSt fp b o else MovsdSt fp b o) :: r)
        else
          do c <- store_gp2 (if Nat.eqb gp 0 then AX else DX) chunk o b;
          do r <- ret_buffer_loop f t b vofs (S gp) fp ofs';
          Ok (c ++ r)
      else Ok []
  end.
Definition copy_ret_buffer (t : aty) (b : base) (vofs : Z) : outcome (list xinstr) :=
  ret_buffer_loop (S (Z.to_nat (asize t))) t b vofs 0 0 0.

(** codegen.c:1280-1286; the address of the result is at lb+pofs. *)
Definition copy_struct_mem (t : aty) (lb : base) (pofs : Z) : outcome (list xinstr) :=
  do c <- gen_mem_copy2 (BReg AX) 0 (BReg CX) 0 (int_conv (asize t));
  Ok (G (Mov None (M lb pofs) (R S8 CX)) :: c ++ [G (Mov None (R S8 CX) (R S8 AX))]).
