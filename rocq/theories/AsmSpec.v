(** Extended asm statements (the GCC manual, "Extended Asm" and "Constraints for asm Operands"): which places
    operands may have, and what happens around the instructions of the programmer. *)
From Coq Require Import Ascii String ZArith List Bool.
Import ListNotations.
Local Open Scope string_scope.
Local Open Scope nat_scope.
Local Open Scope list_scope.

(** * Registers *)
Definition AX := 1. Definition CX := 2. Definition DX := 3. Definition SI := 4. Definition DI := 5.
Definition R8 := 6. Definition R11 := 9. Definition R12 := 10. Definition R15 := 13. Definition BX := 14. Definition BP := 15. Definition SP := 16.
Definition XMM0 := 17. Definition ST0 := 33.
Definition within (a r b : nat) : bool := (a <=? r) && (r <=? b).
Definition gp (r : nat) : bool := within AX r SP.
Definition xmm (r : nat) : bool := within XMM0 r (XMM0 + 15).
Definition st (r : nat) : bool := within ST0 r (ST0 + 7).
Definition gp_names : list (nat * list string) :=
  [(1, ["al"; "ah"; "ax"; "eax"; "rax"]); (2, ["cl"; "ch"; "cx"; "ecx"; "rcx"]); (3, ["dl"; "dh"; "dx"; "edx"; "rdx"]);
   (4, ["sil"; "si"; "esi"; "rsi"]); (5, ["dil"; "di"; "edi"; "rdi"]);
   (6, ["r8b"; "r8w"; "r8d"; "r8"]); (7, ["r9b"; "r9w"; "r9d"; "r9"]); (8, ["r10b"; "r10w"; "r10d"; "r10"]);
   (9, ["r11b"; "r11w"; "r11d"; "r11"]); (10, ["r12b"; "r12w"; "r12d"; "r12"]); (11, ["r13b"; "r13w"; "r13d"; "r13"]);
   (12, ["r14b"; "r14w"; "r14d"; "r14"]); (13, ["r15b"; "r15w"; "r15d"; "r15"]); (14, ["bl"; "bh"; "bx"; "ebx"; "rbx"]);
   (15, ["bpl"; "bp"; "ebp"; "rbp"]); (16, ["spl"; "sp"; "esp"; "rsp"])].
(** [s] is a name of the general purpose register [r]. *)
Definition gp_named (s : string) (r : nat) : Prop := exists l, In (r, l) gp_names /\ In s l.
Definition xmm_names : list (nat * list string) :=
  [(17, ["xmm0"; "ymm0"]); (18, ["xmm1"; "ymm1"]); (19, ["xmm2"; "ymm2"]); (20, ["xmm3"; "ymm3"]); (21, ["xmm4"; "ymm4"]); (22, ["xmm5"; "ymm5"]);
   (23, ["xmm6"; "ymm6"]); (24, ["xmm7"; "ymm7"]); (25, ["xmm8"; "ymm8"]); (26, ["xmm9"; "ymm9"]); (27, ["xmm10"; "ymm10"]); (28, ["xmm11"; "ymm11"]);
   (29, ["xmm12"; "ymm12"]); (30, ["xmm13"; "ymm13"]); (31, ["xmm14"; "ymm14"]); (32, ["xmm15"; "ymm15"])].
Definition named (s : string) (r : nat) : Prop := exists l, In (r, l) (gp_names ++ xmm_names) /\ In s l.
(** A name may be written with percent signs. *)
Fixpoint bare (s : string) : string := match s with String a t => if Ascii.eqb a "%" then bare t else s | EmptyString => s end.

(** * Operands *)
(** The argument: is it an integer, its value if that is constant, is it an object of fixed address, the register it
    is bound to if it is a variable bound to one. *)
Record arg := Arg { a_int : bool; a_const : option Z; a_memop : bool; a_var : option string }.
Definition operand := (string * arg)%type.
Definition con (o : operand) : list ascii := list_ascii_of_string (fst o).
(** Where an operand is. [Mem 0]: at its own address; [Mem r]: at the address in [r]. *)
Inductive loc := Imm (v : Z) | Sym | Mem (r : nat) | Reg (r : nat) | Flag (f : string).
Definition in_reg (l : loc) : nat := match l with Mem r | Reg r => r | _ => 0 end.

Definition digit (a : ascii) : option nat :=
  let n := nat_of_ascii a in if within 48 n 57 then Some (n - 48) else None.
(** The numbers in a constraint. *)
Fixpoint numbers (cur : option nat) (l : list ascii) : list nat :=
  let here := match cur with Some n => [n] | None => [] end in
  match l with
  | [] => here
  | a :: l => match digit a with
              | Some d => numbers (Some (match cur with Some n => 10 * n + d | None => d end)) l
              | None => here ++ numbers None l
              end
  end.
Definition nums (o : operand) : list nat := numbers None (con o).
(** The registers a letter stands for. *)
Definition class (a : ascii) (r : nat) : bool :=
  match a with
  | "r" | "q" | "g" => gp r
  | "Q" => existsb (Nat.eqb r) [AX; BX; CX; DX]
  | "R" => existsb (Nat.eqb r) [AX; BX; CX; DX; SI; DI; BP; SP]
  | "U" => within AX r R11
  | "x" | "v" => xmm r
  | "f" => st r
  | "X" => gp r || xmm r || st r
  | "a" => Nat.eqb r AX | "b" => Nat.eqb r BX | "c" => Nat.eqb r CX | "d" => Nat.eqb r DX
  | "S" => Nat.eqb r SI | "D" => Nat.eqb r DI | "t" => Nat.eqb r ST0 | "u" => Nat.eqb r (ST0 + 1)
  | _ => false
  end%char.
(** The constants a letter stands for. *)
Definition const (a : ascii) (v : Z) : bool :=
  match a with
  | "n" | "i" | "g" | "X" => true
  | "I" => (0 <=? v)%Z && (v <=? 31)%Z
  | "J" => (0 <=? v)%Z && (v <=? 63)%Z
  | "K" => (-128 <=? v)%Z && (v <=? 127)%Z
  | "L" => existsb (Z.eqb v) [255; 65535; 4294967295]%Z
  | "M" => (0 <=? v)%Z && (v <=? 3)%Z
  | "N" => (0 <=? v)%Z && (v <=? 255)%Z
  | "O" => (0 <=? v)%Z && (v <=? 127)%Z
  | _ => false
  end%char.
Definition letter (o : operand) (p : ascii -> bool) : Prop := exists a, In a (con o) /\ p a = true.
(** A place the constraint allows; [ls]: the places of all operands. *)
Definition permits (ls : list loc) (o : operand) (l : loc) : Prop :=
  match l with
  | Imm v => a_int (snd o) = true /\ a_const (snd o) = Some v /\ letter o (fun a => const a v)
  | Sym => letter o (Ascii.eqb "i"%char)
  | Mem r => letter o (fun a => existsb (Ascii.eqb a) ["m"; "o"; "g"; "X"]%char) /\ (r = 0 -> a_memop (snd o) = true) /\ (r <> 0 -> gp r = true)
  | Reg r => (letter o (fun a => class a r) \/ exists n, In n (nums o) /\ nth_error ls n = Some (Reg r)) /\
             (forall s, a_var (snd o) = Some s -> gp r = true -> gp_named (bare s) r)
  | Flag f => fst o = String.append "=@cc" f
  end.
(** Letters for constants of a certain range. *)
Definition ranged (o : operand) : Prop := letter o (fun a => existsb (Ascii.eqb a) ["I"; "J"; "K"; "L"; "M"; "N"; "O"; "P"]%char).

(** * Sharing of registers *)
Definition starts (c : ascii) (o : operand) : bool := match con o with a :: _ => Ascii.eqb a c | [] => false end.
Definition input (o : operand) : bool := negb (starts "="%char o) && negb (starts "+"%char o).
Definition early (o : operand) : bool := existsb (Ascii.eqb "&"%char) (con o).
(** Inputs are used up before outputs are written, if there is no [&]. *)
Definition late (o : operand) (l : loc) : bool := starts "="%char o && negb (early o) && match l with Reg _ => true | _ => false end.
(** Operand [i], an output, may have the register of the input [j]. *)
Definition share (os : list operand) (ls : list loc) (i j : nat) : Prop :=
  exists o p l, nth_error os i = Some o /\ nth_error os j = Some p /\ nth_error ls i = Some l /\ input p = true /\
    (late o l = true \/ (In i (nums p) /\ input o = false)).
(** The programmer chose the register. *)
Definition pin0 (o : operand) : Prop :=
  letter o (fun a => existsb (Ascii.eqb a) ["a"; "b"; "c"; "d"; "S"; "D"; "t"; "u"]%char) \/ a_var (snd o) <> None.
Definition pinned (os : list operand) (o : operand) : Prop :=
  pin0 o \/ exists n p, In n (nums o) /\ nth_error os n = Some p /\ pin0 p.
(** The registers two operands have do not get into each other's way. *)
Definition apart (os : list operand) (ls : list loc) (i j : nat) : Prop :=
  forall l m, nth_error ls i = Some l -> nth_error ls j = Some m -> in_reg l <> 0 -> in_reg l = in_reg m -> share os ls i j \/ share os ls j i.
