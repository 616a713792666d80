(** What copying and clearing memory means. *)
From Coq Require Import ZArith List Bool.
From Verif Require Import X86 Sse.
Import ListNotations.
Local Open Scope Z_scope.

(** Bytes of memory are numbers modulo 256. *)
Definition byte_eq (a b : Z) : Prop := a mod 256 = b mod 256.

(** [f'] is [f] with the [n] bytes at [d] replaced by [val 0], [val 1], ... *)
Definition replaced (f f' : Z -> Z) (d n : Z) (val : Z -> Z) : Prop :=
  (forall k, 0 <= k < n -> byte_eq (f' (d + k)) (val k)) /\
  (forall x, x < d \/ d + n <= x -> f' x = f x).

(** Where an operand ofs(base) begins; the [n] bytes from there do not wrap around. *)
Definition addr_of (sym : nat -> Z) (m : mach) (b : base) (ofs a n : Z) : Prop :=
  a = (match b with BReg r => rg m r | BSym s => sym s end) + ofs /\ 0 <= a /\ a + n <= 2 ^ 64.

(** Registers other than [r] are left alone. *)
Definition only_reg (r : reg) (m m' : mach) : Prop := forall x, x <> r -> rg m' x = rg m x.
