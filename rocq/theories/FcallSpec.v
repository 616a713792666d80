(** The call and ret instructions: the callee runs from its first line, one below the return
    address on the stack, to its ret, which must find the return address again. *)
From Coq Require Import ZArith List Bool.
From Verif Require Import X86.
Import ListNotations.
Local Open Scope Z_scope.

Definition call_entry (ra : Z) (m : mach) : mach :=
  setm (setr m SP (rg m SP - 8)) (storen 8 (rg m SP - 8) ra (mm m)).
Definition called (sym : nat -> Z) (code : list instr) (ra : Z) (m m' : mach) : Prop :=
  exists m2, steps sym code (0%nat, call_entry ra m) (length code, m2) /\
    loadn 8 (rg m2 SP) (mm m2) = ra /\ m' = setr m2 SP (rg m2 SP + 8).
