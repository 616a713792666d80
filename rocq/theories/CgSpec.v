(** Specification for the code generator: where the objects of an expression live. Refers
    to the model only for the options and locations it is given. *)
From Coq Require Import ZArith List Bool.
From Verif Require Import Base IntSpec IntModel X86 CgModel.
Import ListNotations.
Local Open Scope Z_scope.

(** Size in bytes of an integer type. *)
Definition isize (t : ityp) : Z := Z.max 1 (iwidth t / 8).

(** Registers a called function must preserve that the compiler uses for addressing. *)
Definition saved (r : reg) : Prop := r = BX \/ r = BP \/ r = SP.

(** Address of an object, given register contents and symbol addresses. *)
Definition obj_addr (G : genv) (sym : nat -> Z) (regs : reg -> Z) (x : nat) : Z :=
  match loc G x with VLoc r o => (regs r + o) mod 2 ^ 64 | VGlob s _ => sym s | VHere => 0 end.
(** A local is addressed through a preserved register; a global's address fits the code
    model (32 bits unless position independent). *)
Definition addressable (G : genv) (sym : nat -> Z) (x : nat) : Prop :=
  match loc G x with
  | VLoc r _ => saved r
  | VGlob s _ => 0 <= sym s < 2 ^ 64 /\ (pic G = false -> sym s < 2 ^ 32)
  | VHere => False
  end.

(** [k] bytes at [a] lie in the address space and avoid [lo, hi). *)
Definition clear (a k lo hi : Z) : Prop := a + k <= 2 ^ 64 /\ (a + k <= lo \/ hi <= a).

(** Signed 64-bit bit-fields the compiler loads wrongly (see C21). *)
Definition bad_field (t : ityp) (w off : Z) : Prop :=
  iwidth t = 64 /\ isigned t = true /\ (w = 8 \/ w = 16 \/ w = 32) /\ off mod 8 = 0.

(** Every object of the expression is in memory, outside the area [lo, hi) of temporaries,
    and its bytes hold its value. *)
Fixpoint stored (G : genv) (sym : nat -> Z) (regs : reg -> Z) (mem : Z -> Z) (lo hi : Z)
  (env : nat -> Z) (e : exp) : Prop :=
  match e with
  | ENum _ _ => True
  | EVar t x =>
      addressable G sym x /\ clear (obj_addr G sym regs x) (isize t) lo hi /\
      loadn (Z.to_nat (isize t)) (obj_addr G sym regs x) mem = env x mod 2 ^ (8 * isize t)
  | EField t w off x =>
      addressable G sym x /\ 0 <= moff G x < 2 ^ 31 /\ ~ bad_field t w off /\
      let a := (obj_addr G sym regs x + moff G x) mod 2 ^ 64 in
      clear a (isize t) lo hi /\
      env x = field_value t w off (loadn (Z.to_nat (isize t)) a mem)
  | EUn _ a | ECast _ a => stored G sym regs mem lo hi env a
  | EBin _ a b | EShl a b | EShr a b | ECmp _ a b | ELAnd a b | ELOr a b | EComma a b =>
      stored G sym regs mem lo hi env a /\ stored G sym regs mem lo hi env b
  | ECond c a b =>
      stored G sym regs mem lo hi env c /\ stored G sym regs mem lo hi env a /\
      stored G sym regs mem lo hi env b
  end.

(** The bits of %rax that carry a value of type [t]: small types are extended to 32 bits. *)
Definition result_bits (t : ityp) : Z := Z.max 32 (iwidth t).

(** Labels of code around a piece: distinct, and not numbered in [lo, hi). *)
Definition fresh_labels (code : list instr) (lo hi : Z) : Prop :=
  NoDup (labels code) /\ forall l, In l (labels code) -> snd l < lo \/ hi <= snd l.

(** Two-operand arithmetic on machine words, as integers. *)
Definition word_op (o : binop) (x v : Z) : Z :=
  match o with
  | BAdd => x + v | BSub => x - v | BMul => x * v
  | BAnd => Z.land x v | BOr => Z.lor x v | BXor => Z.lxor x v
  | BDiv => x / v | BMod => x mod v
  end.
(** Shifts of a [b]-bit word. *)
Definition word_shift (o : xsh) (b x k : Z) : Z :=
  let a := x mod 2 ^ b in
  match o with
  | XShl => a * 2 ^ k
  | XShr => a / 2 ^ k
  | XSar => (if a <? 2 ^ (b - 1) then a else a - 2 ^ b) / 2 ^ k
  end.
(** Registers a piece of code may change when it only computes in %rax. *)
Definition only_acd (m m' : mach) : Prop :=
  mm m' = mm m /\ forall r, r <> AX -> r <> CX -> r <> DX -> rg m' r = rg m r.
