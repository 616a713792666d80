(** Pointer expressions with constant offsets (C11 6.5.2.1, 6.5.2.3, 6.5.3.2, 6.5.6). *)
From Coq Require Import ZArith List Bool.
From Verif Require Import Base IntSpec X86 CgModel CgSpec CgTotal.
Import ListNotations.
Local Open Scope Z_scope.

(** A pointer: an integer expression of pointer size standing for one, an integer converted
    to a pointer, a pointer converted to another pointer type, a pointer moved by a constant
    number of bytes, the contents of a pointer object, the address of an object, an array
    object. An object: what a pointer points to, a member at an offset. *)
Inductive ptr :=
| QLeaf (e : exp)
| QInt (e : exp)
| QCast (p : ptr)
| QAdd (p : ptr) (k : Z)
| QSub (p : ptr) (k : Z)
| QLoad (l : lval)
| QAddr (l : lval)
| QDecay (l : lval)
with lval :=
| LDeref (p : ptr)
| LMem (l : lval) (o : Z).

Definition omap (f : Z -> Z) (o : option Z) : option Z := match o with Some x => Some (f x) | None => None end.

(** Addresses in a flat 64-bit address space. *)
Fixpoint pval (env : nat -> Z) (mem : Z -> Z) (p : ptr) : option Z :=
  match p with
  | QLeaf e | QInt e => omap (fun v => v mod 2 ^ 64) (ceval env e)
  | QCast p => pval env mem p
  | QAdd p k => omap (fun a => (a + k) mod 2 ^ 64) (pval env mem p)
  | QSub p k => omap (fun a => (a - k) mod 2 ^ 64) (pval env mem p)
  | QLoad l => omap (fun a => loadn 8 a mem) (laddr env mem l)
  | QAddr l | QDecay l => laddr env mem l
  end
with laddr (env : nat -> Z) (mem : Z -> Z) (l : lval) : option Z :=
  match l with
  | LDeref p => pval env mem p
  | LMem l o => omap (fun a => (a + o) mod 2 ^ 64) (laddr env mem l)
  end.

(** Sum of the absolute values of the constants added since the last load. *)
Fixpoint spine_weight (env : nat -> Z) (e : exp) : Z :=
  match e with
  | EBin BAdd a b | EBin BSub a b =>
      spine_weight env a + match ceval env b with Some y => Z.abs (rep64 (conv (ctype e) y)) | None => 0 end
  | ECast _ a => spine_weight env a
  | _ => 0
  end.
Fixpoint pweight (env : nat -> Z) (p : ptr) : Z :=
  match p with
  | QLeaf e | QInt e => spine_weight env e
  | QCast p => pweight env p
  | QAdd p k | QSub p k => pweight env p + Z.abs k
  | QLoad l => 0
  | QAddr l | QDecay l => lweight env l
  end
with lweight (env : nat -> Z) (l : lval) : Z :=
  match l with
  | LDeref p => pweight env p
  | LMem l o => lweight env l + Z.abs o
  end.

(** Expressions at the leaves have pointer size, their objects are in memory outside the
    area [lo, hi) of temporaries; so are pointer objects that are loaded, and offsets
    collected for such a load stay below 2 GiB. *)
Fixpoint pgood (G : genv) (sym : nat -> Z) (regs : reg -> Z) (mem : Z -> Z) (lo hi : Z) (env : nat -> Z) (p : ptr) : Prop :=
  match p with
  | QLeaf e | QInt e =>
      isize (ctype e) = 8 /\ wf env e /\ known_ok (IntModel.known (gc G)) env e /\ plain_casts e /\
      stored G sym regs mem lo hi env e
  | QCast p => pgood G sym regs mem lo hi env p
  | QAdd p k | QSub p k => - 2 ^ 63 <= k < 2 ^ 63 /\ pgood G sym regs mem lo hi env p
  | QLoad l =>
      lgood G sym regs mem lo hi env l /\ lweight env l < 2 ^ 31 /\
      forall a, laddr env mem l = Some a -> clear a 8 lo hi
  | QAddr l | QDecay l => lgood G sym regs mem lo hi env l
  end
with lgood (G : genv) (sym : nat -> Z) (regs : reg -> Z) (mem : Z -> Z) (lo hi : Z) (env : nat -> Z) (l : lval) : Prop :=
  match l with
  | LDeref p => pgood G sym regs mem lo hi env p
  | LMem l o => 0 <= o < 2 ^ 31 /\ lgood G sym regs mem lo hi env l
  end.

(** The integer expressions at the leaves can be compiled. *)
Fixpoint leaves_ok (G : genv) (env : nat -> Z) (p : ptr) : Prop :=
  match p with
  | QLeaf e | QInt e =>
      wf env e /\ known_ok (IntModel.known (gc G)) env e /\ plain_casts e /\
      forall n, IntModel.elab (gc G) e = Ok n -> counts_ok (gc G) n
  | QCast p | QAdd p _ | QSub p _ => leaves_ok G env p
  | QLoad l | QAddr l | QDecay l => locals_ok G env l
  end
with locals_ok (G : genv) (env : nat -> Z) (l : lval) : Prop :=
  match l with LDeref p => leaves_ok G env p | LMem l _ => locals_ok G env l end.
