(** Model of variable arguments: codegen.c 1168-1173, 1288-1314, 1500-1506, 1832-1841, 1850-1889 and 4076-4105. *)
From Coq Require Import ZArith List Bool.
From Verif Require Import Base X86 Sse MemModel FrameModel CallSpec CallModel.
Import ListNotations.
Local Open Scope Z_scope.

(** The numeric labels 1: and 2:, which are referred to forwards. *)
Definition lab1 : label := (LOther, 1).
Definition lab2 : label := (LOther, 2).
Definition at_ax (o : Z) : opnd := M (BReg AX) o.

(** codegen.c:1168-1173 *)
Definition va_arg_need_copy (t : aty) : outcome bool :=
  if (8 <? asize t) && (asize t <=? 16) then
    do f1 <- has_flonum1 t; if f1 then Ok true else has_flonum2 t
  else Ok false.

(** codegen.c:1299-1311; the object is at vofs(vb). *)
Fixpoint vaarg_copy_loop (fuel : nat) (t : aty) (vb : base) (vofs ofs : Z) : outcome (list xinstr) :=
  match fuel with
  | O => Abort
  | S f =>
      if ofs <? asize t then
        do fl <- (if ofs =? 0 then has_flonum1 t else has_flonum2 t);
        do o <- int_of (ofs + vofs);
        do c <- gen_mem_copy2 (BReg CX) 0 vb o (int_conv (Z.min 8 (asize t - ofs)));
        do ofs' <- int_of (ofs + 8);
        do r <- vaarg_copy_loop f t vb vofs ofs';
        Ok ((if fl
             then [G (Mov (Some S4) (at_ax 4) (R S4 CX)); G (Alu AAdd (Some S8) (at_ax 16) (R S8 CX)); G (Alu AAdd (Some S8) (I 16) (at_ax 4))]
             else [G (Mov (Some S4) (at_ax 0) (R S4 CX)); G (Alu AAdd (Some S8) (at_ax 16) (R S8 CX)); G (Alu AAdd (Some S8) (I 8) (at_ax 0))])
            ++ c ++ r)
      else Ok []
  end.
(** codegen.c:1288-1314 *)
Definition gen_vaarg_reg_copy (t : aty) (vb : base) (vofs : Z) : outcome (list xinstr) :=
  do f1 <- has_flonum1 t;
  do f2 <- has_flonum2 t;
  let gp_inc := b2z (negb f1) + b2z (negb f2) in
  let fp_inc := b2z f1 + b2z f2 in
  do c <- vaarg_copy_loop (S (Z.to_nat (asize t))) t vb vofs 0;
  Ok ((if gp_inc =? 0 then [] else [G (Alu ACmp (Some S4) (I (48 - gp_inc * 8)) (at_ax 0)); G (Jcc CcA lab1)])
      ++ [G (Alu ACmp (Some S4) (I (176 - fp_inc * 16)) (at_ax 4)); G (Jcc CcA lab1)]
      ++ c ++ [G (Lea vb vofs (R S8 DX))]).

(** codegen.c:1875-1884: the stack. *)
Definition va_arg_stack (t : aty) : outcome (list xinstr) :=
  do sz <- align_to (int_conv (asize t)) 8;
  Ok (G (Mov (Some S8) (at_ax 8) (R S8 DX)) ::
      if aalign t <=? 8 then [G (Alu AAdd (Some S8) (I sz) (at_ax 8))]
      else [G (Alu AAdd (Some S8) (I (aalign t - 1)) (R S8 DX)); G (Alu AAnd (Some S8) (I (- aalign t)) (R S8 DX));
            G (Lea (BReg DX) sz (R S8 CX)); G (Mov (Some S8) (R S8 CX) (at_ax 8))]).
(** codegen.c:1855-1872: registers. *)
Definition va_arg_regs (t : aty) (vb : base) (vofs : Z) : outcome (list xinstr) :=
  do nc <- va_arg_need_copy t;
  if nc then gen_vaarg_reg_copy t vb vofs
  else
    do f1 <- has_flonum1 t;
    if f1 then
      Ok [G (Alu ACmp (Some S4) (I 160) (at_ax 4)); G (Jcc CcA lab1); G (Mov (Some S4) (at_ax 4) (R S4 DX));
          G (Alu AAdd (Some S8) (at_ax 16) (R S8 DX)); G (Alu AAdd (Some S8) (I 16) (at_ax 4))]
    else
      let gp_inc := if 8 <? asize t then 2 else 1 in
      Ok [G (Alu ACmp (Some S4) (I (48 - gp_inc * 8)) (at_ax 0)); G (Jcc CcA lab1); G (Mov (Some S4) (at_ax 0) (R S4 DX));
          G (Alu AAdd (Some S8) (at_ax 16) (R S8 DX)); G (Alu AAdd (Some S8) (I (gp_inc * 8)) (at_ax 0))].
(** codegen.c:1850-1889, after the address of the va_list is in %rax. *)
Definition va_arg (t : aty) (vb : base) (vofs : Z) : outcome (list xinstr) :=
  let use := (asize t <=? 16) && match t with ALdouble => false | _ => true end in
  do s <- va_arg_stack t;
  if use then
    do r <- va_arg_regs t vb vofs;
    Ok (r ++ [G (Jmp lab2); G (Lab lab1)] ++ s ++ [G (Lab lab2); G (Mov None (R S8 DX) (R S8 AX))])
  else Ok (s ++ [G (Mov None (R S8 DX) (R S8 AX))]).

(** codegen.c:4077-4079 and 1832-1841: va_start in a function with the counters [st] after its parameters,
    after the address of the va_list is in %rax. [lp] is %rbp or %rbx. *)
Definition va_start (st : cc_state) (lp : reg) : outcome (list xinstr) :=
  do g <- int_of (cc_gp st * 8);
  do f <- int_of (cc_fp st * 16 + 48);
  do s <- int_of (cc_stack st + 16);
  Ok [G (Mov (Some S4) (I g) (at_ax 0)); G (Mov (Some S4) (I f) (at_ax 4)); G (Lea (BReg BP) s (R S8 DX));
      G (Mov (Some S8) (R S8 DX) (at_ax 8)); G (Lea (BReg lp) (-176) (R S8 DX)); G (Mov (Some S8) (R S8 DX) (at_ax 16))].

(** codegen.c:4082-4089, the cases from [gp] on. *)
Definition save_gp (gp : nat) (lp : reg) : list xinstr :=
  skipn gp [G (Mov (Some S8) (R S8 DI) (M (BReg lp) (-176))); G (Mov (Some S8) (R S8 SI) (M (BReg lp) (-168)));
            G (Mov (Some S8) (R S8 DX) (M (BReg lp) (-160))); G (Mov (Some S8) (R S8 CX) (M (BReg lp) (-152)));
            G (Mov (Some S8) (R S8 R8) (M (BReg lp) (-144))); G (Mov (Some S8) (R S8 R9) (M (BReg lp) (-136)))].
(** codegen.c:4093-4102 *)
Definition save_fp (fp : nat) (lp : reg) : list xinstr :=
  skipn fp [MovapsSt 0 (BReg lp) (-128); MovapsSt 1 (BReg lp) (-112); MovapsSt 2 (BReg lp) (-96); MovapsSt 3 (BReg lp) (-80);
            MovapsSt 4 (BReg lp) (-64); MovapsSt 5 (BReg lp) (-48); MovapsSt 6 (BReg lp) (-32); MovapsSt 7 (BReg lp) (-16)].
(** codegen.c:4082-4104 *)
Definition save_regs (st : cc_state) (lp : reg) : list xinstr :=
  save_gp (Z.to_nat (cc_gp st)) lp ++
  if cc_fp st <? 8 then
    [G (Alu ATest None (R S1 AX) (R S1 AX)); G (Jcc CcE lab1)] ++ save_fp (Z.to_nat (cc_fp st)) lp ++ [G (Lab lab1)]
  else [].

(** Types of the function expression of a call: a function or a pointer to one. [func] of parse.c only
    sets is_variadic for the function type; type.c:254-259 leaves it clear for the pointer. *)
Inductive fty := Func (variadic : bool) | PtrTo (f : fty).
Definition ty_is_variadic (f : fty) : bool := match f with Func v => v | PtrTo _ => false end.
(** codegen.c:1500-1506 *)
Definition set_al (f : fty) (fp_count : Z) : list xinstr :=
  if ty_is_variadic f then
    (if fp_count =? 0 then [G (Alu AXor None (R S1 AX) (R S1 AX))] else [G (Mov (Some S1) (I fp_count) (R S1 AX))])
  else [].
