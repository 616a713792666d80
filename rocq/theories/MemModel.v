(** Model of the block operations of codegen.c: 557-600, 4007-4022 and 834-839 (structures). The
    offset strings are a symbol or register base and a number; "%d+%s" is added by the
    assembler. Displacements beyond 32 bits are not modelled. *)
From Coq Require Import ZArith List Bool.
From Verif Require Import Base X86 Sse.
Import ListNotations.
Local Open Scope Z_scope.

(** codegen.c:566, 594, 4010: the widest register that does not exceed [rem] bytes. *)
Definition p2_of (rem : Z) : size :=
  if 8 <=? rem then S8 else if 4 <=? rem then S4 else if 2 <=? rem then S2 else S1.
Definition p2_len (s : size) : Z := match s with S1 => 1 | S2 => 2 | S4 => 4 | S8 => 8 end.

(** codegen.c:557-571 *)
Fixpoint mem_copy_loop (fuel : nat) (sb : base) (sofs : Z) (db : base) (dofs sz i : Z) : outcome (list xinstr) :=
  match fuel with
  | O => Abort
  | S f =>
      if i <? sz then
        do rem <- int_of (sz - i);
        if 16 <=? rem then
          do i' <- int_of (i + 16);
          do r <- mem_copy_loop f sb sofs db dofs sz i';
          Ok (MovupsLd sb (i + sofs) 0 :: MovupsSt 0 db (i + dofs) :: r)
        else
          let p2 := p2_of rem in
          do i' <- int_of (i + p2_len p2);
          do r <- mem_copy_loop f sb sofs db dofs sz i';
          Ok (G (Mov None (M sb (i + sofs)) (R p2 DX)) :: G (Mov None (R p2 DX) (M db (i + dofs))) :: r)
      else Ok []
  end.
Definition gen_mem_copy2 (sb : base) (sofs : Z) (db : base) (dofs sz : Z) : outcome (list xinstr) :=
  mem_copy_loop (S (Z.to_nat sz)) sb sofs db dofs sz 0.

(** codegen.c:581-590, the loop of the long case. *)
Fixpoint mem_zero_long (fuel : nat) (dofs : Z) (db : base) (sz i : Z) : outcome (list xinstr) :=
  match fuel with
  | O => Abort
  | S f =>
      if i <? sz then
        do e <- int_of (i + 16);
        do i1 <- (if sz <? e then int_of (sz - 16) else Ok i);
        do o <- int_of (i1 + dofs);
        do i2 <- int_of (i1 + 16);
        do r <- mem_zero_long f dofs db sz i2;
        Ok (MovupsSt 0 db o :: r)
      else Ok []
  end.
(** codegen.c:593-599, the loop of the short case. *)
Fixpoint mem_zero_short (fuel : nat) (dofs : Z) (db : base) (sz i : Z) : outcome (list xinstr) :=
  match fuel with
  | O => Abort
  | S f =>
      if i <? sz then
        do rem <- int_of (sz - i);
        let p2 := p2_of rem in
        do o <- int_of (i + dofs);
        do i' <- int_of (i + p2_len p2);
        do r <- mem_zero_short f dofs db sz i';
        Ok (G (Mov None (R p2 AX) (M db o)) :: r)
      else Ok []
  end.
(** codegen.c:581-600 *)
Definition gen_mem_zero (dofs : Z) (db : base) (sz : Z) : outcome (list xinstr) :=
  if 16 <=? sz then
    do r <- mem_zero_long (S (Z.to_nat sz)) dofs db sz 0;
    Ok (XorpsSelf 0 :: r)
  else
    do r <- mem_zero_short (S (Z.to_nat sz)) dofs db sz 0;
    Ok (G (Alu AXor None (R S4 AX) (R S4 AX)) :: r).

(** codegen.c:4007-4022; [reg] holds the bytes. *)
Fixpoint store_gp_loop (fuel : nat) (reg : X86.reg) (sz dofs : Z) (db : base) (ofs : Z) : outcome (list xinstr) :=
  match fuel with
  | O => Abort
  | S f =>
      do rem <- int_of (sz - ofs);
      let p2 := p2_of rem in
      do o <- int_of (ofs + dofs);
      do ofs' <- int_of (ofs + p2_len p2);
      let st := G (Mov None (R p2 reg) (M db o)) in
      if sz <=? ofs' then Ok [st]
      else
        do r <- store_gp_loop f reg sz dofs db ofs';
        Ok (st :: G (Sh XShr (CImm (p2_len p2 * 8)) (R S8 reg)) :: r)
  end.
Definition store_gp2 (reg : X86.reg) (sz dofs : Z) (db : base) : outcome (list xinstr) :=
  store_gp_loop (S (Z.to_nat sz)) reg sz dofs db 0.

(** codegen.c:834-839, a structure or union: the [int64_t] size becomes an [int] argument. *)
Definition store_struct (db : base) (dofs size : Z) : outcome (list xinstr) :=
  gen_mem_copy2 (BReg AX) 0 db dofs (int_conv size).
