(** What surrounds the instructions of an extended asm statement: a small machine, and what the statement has to do. *)
From Coq Require Import Ascii String ZArith List Bool.
From Verif Require Import AsmSpec.
Import ListNotations.
Local Open Scope string_scope.
Local Open Scope Z_scope.
Local Open Scope list_scope.

(** * Machine *)
Definition memory := Z -> Z.
Fixpoint rd (M : memory) (a : Z) (n : nat) : Z := match n with O => 0 | S n => M a mod 256 + 256 * rd M (a + 1) n end.
Definition upd (M : memory) (a v : Z) : memory := fun x => if Z.eqb x a then v else M x.
Fixpoint wr (M : memory) (a : Z) (n : nat) (v : Z) : memory := match n with O => M | S n => wr (upd M a (v mod 256)) (a + 1) n (v / 256) end.
(** Registers by number, of xmm registers the low half. [fl]: the conditions, [None] if instructions changed them. *)
Record machine := Mc { rg : nat -> Z; mm : memory; fl : option (string -> bool) }.
Definition set (f : nat -> Z) (r : nat) (v : Z) : nat -> Z := fun x => if Nat.eqb x r then v else f x.
Inductive mref := Base (r : nat) (ofs : Z) | Abs (a : Z).
Definition addr (f : nat -> Z) (m : mref) : Z := match m with Base r o => f r + o | Abs a => a end.
Definition two (n : nat) : Z := 2 ^ Z.of_nat n.
Inductive instr :=
| Ld (sz d : nat) (a : mref) | St (sz s : nat) (a : mref) | Mov (d s : nat) | Zero (sz : nat) (a : mref) | SetCC (f : string) (a : mref)
| Shl (k r : nat) | Shr (k r : nat) | OrR (s d : nat).
Definition exec1 (i : instr) (m : machine) : option machine :=
  let f := rg m in
  match i with
  | Ld sz d a => let v := rd (mm m) (addr f a) sz in
                 Some (Mc (set f d (if gp d && Nat.ltb sz 4 then f d / two (8 * sz) * two (8 * sz) + v else v)) (mm m) (fl m))
  | St sz s a => Some (Mc f (wr (mm m) (addr f a) sz (f s)) (fl m))
  | Mov d s => Some (Mc (set f d (f s)) (mm m) (fl m))
  | Zero sz a => Some (Mc f (wr (mm m) (addr f a) sz 0) (fl m))
  | SetCC c a => match fl m with Some g => Some (Mc f (wr (mm m) (addr f a) 1 (if g c then 1 else 0)) (fl m)) | None => None end
  | Shl k r => Some (Mc (set f r ((f r * two k) mod two 64)) (mm m) None)
  | Shr k r => Some (Mc (set f r ((f r mod two 64) / two k)) (mm m) None)
  | OrR s d => Some (Mc (set f d (Z.lor (f d) (f s))) (mm m) None)
  end.
Fixpoint exec (l : list instr) (m : machine) : option machine :=
  match l with [] => Some m | i :: l => match exec1 i m with Some m => exec l m | None => None end end.

(** * Arguments *)
(** What the compiler knows of an argument: the memory it has for it, the size, offset and width of a bit-field. *)
Record side := Side { d_ref : mref; d_size : nat; d_bits : option (nat * nat) }.
(** What the argument is: the address of the object and the value. *)
Record obj := Obj { x_at : Z; x_val : Z }.
(** The instructions may rely on: an operand not only for output holds the value
    (for a bit-field only if it is no output), one in memory is the object. *)
Definition entry (f : nat -> Z) (at_ : mref -> mref) (o : operand) (d : side) (l : loc) (x : obj) : Prop :=
  match l with
  | Reg r => starts "=" o = false -> d_bits d = None \/ input o = true -> f r mod two (8 * d_size d) = x_val x
  | Mem (S r) => f (S r) = x_at x
  | Mem O => addr f (at_ (d_ref d)) = x_at x
  | _ => True
  end.
(** The field of [w] bits at [b]. *)
Definition field (old v : Z) (b w : nat) : Z :=
  Z.lor (Z.ldiff old (Z.shiftl (Z.ones (Z.of_nat w)) (Z.of_nat b))) (Z.shiftl (v mod two w) (Z.of_nat b)).
(** After them, an output is written: [f] and [g] are the registers and conditions they leave. *)
Definition written (f : nat -> Z) (g : string -> bool) (M : memory) (e : side * loc * obj) : memory :=
  let '(d, l, x) := e in
  match l with
  | Reg r => wr M (x_at x) (d_size d) (match d_bits d with Some (b, w) => field (rd M (x_at x) (d_size d)) (f r) b w | None => f r end)
  | Flag c => wr M (x_at x) (d_size d) (if g c then 1 else 0)
  | _ => M
  end.
(** The instructions leave alone all other registers and the memory of the compiler. *)
Definition may_change (outs : nat) (ls : list loc) (clobbers : list string) (r : nat) : Prop :=
  r <> SP /\ ((exists i, (i < outs)%nat /\ nth_error ls i = Some (Reg r)) \/ (exists c, In c clobbers /\ named (bare c) r) \/ (r > XMM0 + 15)%nat).
Record behaves (ch : nat -> Prop) (own : Z -> Prop) (m m' : machine) : Prop := {
  b_regs : forall r, ~ ch r -> rg m' r = rg m r;
  b_mem : forall a, own a -> mm m' a = mm m a }.
(** Registers of the calling function. *)
Definition saved : list nat := [10; 11; 12; 13; BX; BP; SP]%nat.
