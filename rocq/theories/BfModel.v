(** Model of stores to bit-fields (codegen.c). Simplifications: the register that holds the
    address of the storage unit is a parameter (pop_inreg: C19); is_void is a parameter. *)
From Coq Require Import ZArith List Bool.
From Verif Require Import Base IntSpec IntModel X86 CgModel.
Import ListNotations.
Local Open Scope Z_scope.

(** codegen.c:834-869 for integer types. *)
Definition store3 (t : ty) (b : base) (o : Z) : outcome (list instr) :=
  do s <- size_of (sz t); Ok [Mov None (R s AX) (M b o)].

(** codegen.c:491-499 with the destination %eax. *)
Definition cast_extend_eax (t : ty) : outcome (list instr) :=
  do s <- size_of (sz t);
  match s with
  | S1 | S2 => Ok [Movx (negb (uns t)) s S4 (R s AX) (R S4 AX)]
  | _ => Abort
  end.

(** codegen.c:673-680: the value cut to the width. [1LL << w] is a long (an overflow is
    undefined). *)
Definition store_value (t : ty) (w : Z) : outcome (list instr) :=
  let s := if sz t =? 8 then S8 else S4 in
  do one <- long_of (2 ^ w);
  Ok ([Mov None (R s AX) (R s CX)] ++ imm_and s CX DX (one - 1)).

(** codegen.c:682-703: merge the value into the unit. The mask is uint64_t; imm_and takes an
    int64_t. *)
Definition store_unit (t : ty) (w off : Z) (ptr : reg) (is_void : bool) : outcome (list instr) :=
  let s := if sz t =? 8 then S8 else S4 in
  do ld <- load3 t (BReg ptr) 0;
  let msk := trunc 64 (Z.lnot ((2 ^ w - 1) * 2 ^ off)) in
  let msk := if (sz t =? 4) && (w + off =? 32) then trunc 32 msk else msk in
  do stc <- store3 t (BReg ptr) 0;
  let shft := (if sz t =? 8 then 64 else 32) - w in
  Ok (ld ++ imm_and s AX DX (i64 msk)
      ++ (if off =? 0 then [] else [Sh XShl (CImm off) (R s CX)])
      ++ [Alu AOr None (R s CX) (R s AX)] ++ stc
      ++ (if is_void then [] else
            (if shft - off =? 0 then [] else [Sh XShl (CImm (shft - off)) (R s AX)])
            ++ [Sh (if uns t then XShr else XSar) (CImm shft) (R s AX)])).
Definition store_merged (t : ty) (w off : Z) (ptr : reg) (is_void : bool)
  : outcome (list instr) :=
  do a <- store_value t w; do b <- store_unit t w off ptr is_void; Ok (a ++ b).

(** codegen.c:663-704. *)
Definition gen_bitfield_store (t : ty) (w off : Z) (ptr : reg) (is_void : bool)
  : outcome (list instr) :=
  match bitwidth_to_ty w (uns t) with
  | Some alt =>
      if off =? off / 8 * 8 then
        do stc <- store3 alt (BReg ptr) (off / 8);
        if negb is_void && (sz alt <? 4)
        then do c <- cast_extend_eax alt; Ok (stc ++ c)
        else Ok stc
      else store_merged t w off ptr is_void
  | None => store_merged t w off ptr is_void
  end.
