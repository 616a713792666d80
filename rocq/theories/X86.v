(** The part of the x86-64 instruction set, in AT&T operand order, that the code generator
    uses for integer code. This is a specification (trusted): it follows the instruction
    reference. Simplifications: an access that would wrap around the top of the address
    space is given addresses past 2^64 instead (no such address is ever valid); flags left
    by instructions other than cmp and test count as undefined; faults, undefined flags and
    operands the assembler rejects are the result [None]. *)
From Coq Require Import ZArith List Bool.
Import ListNotations.
Local Open Scope Z_scope.

Inductive reg := AX | CX | DX | SI | DI | R8 | R9 | R10 | R11 | BX | BP | SP.

Definition reg_eqb (a b : reg) : bool :=
  match a, b with
  | AX, AX | CX, CX | DX, DX | SI, SI | DI, DI | R8, R8 | R9, R9 | R10, R10 | R11, R11
  | BX, BX | BP, BP | SP, SP => true
  | _, _ => false
  end.

(** Operand sizes: suffixes b, w, l, q. *)
Inductive size := S1 | S2 | S4 | S8.
Definition nbytes (s : size) : nat := match s with S1 => 1 | S2 => 2 | S4 => 4 | S8 => 8 end.
Definition nbits (s : size) : Z := match s with S1 => 8 | S2 => 16 | S4 => 32 | S8 => 64 end.
Definition size_eqb (a b : size) : bool :=
  match a, b with S1, S1 | S2, S2 | S4, S4 | S8, S8 => true | _, _ => false end.

(** Base of a memory operand: a register, or a symbol relative to %rip. *)
Inductive base := BReg (r : reg) | BSym (s : nat).

(** Operands: sized register, immediate, memory. *)
Inductive opnd := R (s : size) (r : reg) | I (z : Z) | M (b : base) (ofs : Z).

Inductive alu := AAdd | ASub | AAnd | AOr | AXor | AImul | ACmp | ATest.
Inductive xun := XNeg | XNot | XInc | XDec.
Inductive xsh := XShl | XShr | XSar.
Inductive cc := CcE | CcNE | CcL | CcLE | CcG | CcGE | CcB | CcBE | CcA | CcAE.

(** Local labels .L.short.N, .L.fall.N, .L.else.N, .L.end.N, .L.begin.N, .L.rtn.N and others. *)
Inductive lkind := LShort | LFall | LElse | LEnd | LBegin | LRtn | LOther.
Definition label : Type := lkind * Z.
Definition lkind_eqb (a b : lkind) : bool :=
  match a, b with
  | LShort, LShort | LFall, LFall | LElse, LElse | LEnd, LEnd | LBegin, LBegin
  | LRtn, LRtn | LOther, LOther => true
  | _, _ => false
  end.
Definition label_eqb (a b : label) : bool := lkind_eqb (fst a) (fst b) && (snd a =? snd b).

Inductive count := CImm (n : Z) | CCl.

Inductive instr :=
| Nop                                             (* blank line *)
| Mov (suf : option size) (src dst : opnd)
| Movx (signed : bool) (from to : size) (src dst : opnd)
| Lea (b : base) (ofs : Z) (dst : opnd)
| LeaGot (s : nat) (dst : opnd)                   (* movq sym@GOTPCREL(%rip), dst *)
| MovSym (s : nat) (dst : opnd)                   (* movl $sym, dst *)
| Alu (o : alu) (suf : option size) (src dst : opnd)
| Un (o : xun) (dst : opnd)
| Sh (o : xsh) (n : count) (dst : opnd)
| Cdq | Cqo
| Div (signed : bool) (src : opnd)
| Xchg (a b : opnd)
| Set_ (c : cc) (dst : opnd)
| Cmov (c : cc) (src dst : opnd)
| Jmp (l : label)
| Jcc (c : cc) (l : label)
| Lab (l : label).

Record flags := mkf { zf : bool; sf : bool; cf : bool; of : bool }.

(** Machine state: 64-bit registers (as integers modulo 2^64), flags, bytes of memory. *)
Record mach := mkm { rg : reg -> Z; fl : option flags; mm : Z -> Z }.

Definition setr (m : mach) (r : reg) (v : Z) : mach :=
  mkm (fun x => if reg_eqb x r then v else rg m x) (fl m) (mm m).
Definition setf (m : mach) (f : option flags) : mach := mkm (rg m) f (mm m).
Definition setm (m : mach) (f : Z -> Z) : mach := mkm (rg m) (fl m) f.

(** Little-endian memory. *)
Fixpoint loadn (k : nat) (a : Z) (f : Z -> Z) : Z :=
  match k with
  | O => 0
  | S j => f a mod 256 + 256 * loadn j (a + 1) f
  end.
Definition storen (k : nat) (a v : Z) (f : Z -> Z) : Z -> Z :=
  fun x => if (a <=? x) && (x <? a + Z.of_nat k) then (v / 2 ^ (8 * (x - a))) mod 256 else f x.

Definition getr (s : size) (r : reg) (m : mach) : Z := rg m r mod 2 ^ nbits s.

(** Writing a 32-bit register clears the upper half; 8 and 16-bit writes keep the rest. *)
Definition putr (s : size) (r : reg) (v : Z) (m : mach) : mach :=
  match s with
  | S8 | S4 => setr m r (v mod 2 ^ nbits s)
  | S2 | S1 => setr m r ((rg m r mod 2 ^ 64) / 2 ^ nbits s * 2 ^ nbits s + v mod 2 ^ nbits s)
  end.

Section Exec.
  (** Addresses of symbols. *)
  Variable sym : nat -> Z.

  Definition ea (b : base) (ofs : Z) (m : mach) : Z :=
    ((match b with BReg r => rg m r | BSym s => sym s end) + ofs) mod 2 ^ 64.

  (** Immediates the assembler accepts: sign-extended 32 bits for 64-bit operations. *)
  Definition imm_ok (s : size) (z : Z) : bool :=
    match s with
    | S8 => (- 2 ^ 31 <=? z) && (z <? 2 ^ 31)
    | _ => (- 2 ^ (nbits s - 1) <=? z) && (z <? 2 ^ nbits s)
    end.

  (** Operand size: the suffix and the register operands must agree. *)
  Definition osizes (suf : option size) (l : list opnd) : list size :=
    (match suf with Some s => [s] | None => [] end) ++
    flat_map (fun o => match o with R s _ => [s] | _ => [] end) l.
  Definition osize (suf : option size) (l : list opnd) : option size :=
    match osizes suf l with
    | [] => None
    | s :: r => if forallb (size_eqb s) r then Some s else None
    end.

  Definition is_mem (o : opnd) : bool := match o with M _ _ => true | _ => false end.

  Definition rd (s : size) (o : opnd) (m : mach) : option Z :=
    match o with
    | R _ r => Some (getr s r m)
    | I z => if imm_ok s z then Some (z mod 2 ^ nbits s) else None
    | M b ofs => Some (loadn (nbytes s) (ea b ofs m) (mm m))
    end.
  Definition wr (s : size) (o : opnd) (v : Z) (m : mach) : option mach :=
    match o with
    | R _ r => Some (putr s r v m)
    | I _ => None
    | M b ofs => Some (setm m (storen (nbytes s) (ea b ofs m) v (mm m)))
    end.

  (** Signed reading of an n-bit residue. *)
  Definition sgn (n v : Z) : Z := if v <? 2 ^ (n - 1) then v else v - 2 ^ n.

  Definition sub_flags (n a b : Z) : flags :=
    let r := (a - b) mod 2 ^ n in
    let d := sgn n a - sgn n b in
    mkf (r =? 0) (2 ^ (n - 1) <=? r) (a <? b)
        (negb ((- 2 ^ (n - 1) <=? d) && (d <? 2 ^ (n - 1)))).
  Definition and_flags (n a b : Z) : flags :=
    let r := Z.land a b in mkf (r =? 0) (2 ^ (n - 1) <=? r) false false.

  Definition cond_holds (c : cc) (f : flags) : bool :=
    match c with
    | CcE => zf f | CcNE => negb (zf f)
    | CcL => xorb (sf f) (of f) | CcGE => negb (xorb (sf f) (of f))
    | CcLE => zf f || xorb (sf f) (of f) | CcG => negb (zf f || xorb (sf f) (of f))
    | CcB => cf f | CcAE => negb (cf f)
    | CcBE => cf f || zf f | CcA => negb (cf f || zf f)
    end.

  Definition noflags (m : option mach) : option mach :=
    match m with Some x => Some (setf x None) | None => None end.

  Definition is_reg (o : opnd) : bool := match o with R _ _ => true | _ => false end.

  (** One instruction other than a jump or label. *)
  Definition exec1 (i : instr) (m : mach) : option mach :=
    match i with
    | Nop => Some m
    | Mov suf src dst =>
        if is_mem src && is_mem dst then None else
        match osize suf [src; dst] with
        | None => None
        | Some s =>
            match src, dst with
            | I z, R _ _ =>            (* 64-bit registers accept any 64-bit immediate *)
                if size_eqb s S8
                then (if (- 2 ^ 63 <=? z) && (z <? 2 ^ 64) then wr s dst z m else None)
                else (if imm_ok s z then wr s dst z m else None)
            | _, _ => match rd s src m with Some v => wr s dst v m | None => None end
            end
        end
    | Movx sg from to src dst =>
        match src, dst with
        | I _, _ => None
        | _, R s r =>
            if size_eqb s to && (nbits from <? nbits to) &&
               match src with R s' _ => size_eqb s' from | _ => true end then
              match rd from src m with
              | Some v => Some (putr to r (if sg then sgn (nbits from) v else v) m)
              | None => None
              end
            else None
        | _, _ => None
        end
    | Lea b ofs dst =>
        match dst with R S8 r => Some (putr S8 r (ea b ofs m) m) | _ => None end
    | LeaGot s dst =>
        match dst with R S8 r => Some (putr S8 r (sym s) m) | _ => None end
    | MovSym s dst =>
        match dst with R S4 r => Some (putr S4 r (sym s) m) | _ => None end
    | Alu o suf src dst =>
        if is_mem src && is_mem dst then None else
        match osize suf [src; dst] with
        | None => None
        | Some s =>
            match rd s dst m, rd s src m with
            | Some a, Some b =>
                let n := nbits s in
                match o with
                | ACmp => match dst with
                          | I _ => None | _ => Some (setf m (Some (sub_flags n a b))) end
                | ATest => match dst with
                           | I _ => None | _ => Some (setf m (Some (and_flags n a b))) end
                | AAdd => noflags (wr s dst (a + b) m)
                | ASub => noflags (wr s dst (a - b) m)
                | AAnd => noflags (wr s dst (Z.land a b) m)
                | AOr => noflags (wr s dst (Z.lor a b) m)
                | AXor => noflags (wr s dst (Z.lxor a b) m)
                | AImul => if is_reg dst && negb (size_eqb s S1)
                           then noflags (wr s dst (a * b) m) else None
                end
            | _, _ => None
            end
        end
    | Un o dst =>
        match dst with
        | R s r =>
            let a := getr s r m in
            match o with
            | XNot => Some (putr s r (- a - 1) m)     (* not leaves the flags alone *)
            | XNeg => Some (setf (putr s r (- a) m) None)
            | XInc => Some (setf (putr s r (a + 1) m) None)
            | XDec => Some (setf (putr s r (a - 1) m) None)
            end
        | _ => None
        end
    | Sh o c dst =>
        match dst with
        | R s r =>
            let n := nbits s in
            let a := getr s r m in
            let go (k : Z) :=
              let k := k mod (if size_eqb s S8 then 64 else 32) in
              let v := match o with
                       | XShl => a * 2 ^ k | XShr => a / 2 ^ k | XSar => sgn n a / 2 ^ k
                       end in
              Some (setf (putr s r v m) None) in
            match c with
            | CImm k => if (0 <=? k) && (k <? 256) then go k else None
            | CCl => go (getr S1 CX m)
            end
        | _ => None
        end
    | Cdq => Some (putr S4 DX (if sgn 32 (getr S4 AX m) <? 0 then 2 ^ 32 - 1 else 0) m)
    | Cqo => Some (putr S8 DX (if sgn 64 (getr S8 AX m) <? 0 then 2 ^ 64 - 1 else 0) m)
    | Div sg src =>
        match osize None [src] with
        | Some s =>
            match s with
            | S1 | S2 => None
            | _ =>
                match rd s src m with
                | Some d =>
                    let n := nbits s in
                    let x := getr s DX m * 2 ^ n + getr s AX m in
                    let x := if sg then sgn (2 * n) x else x in
                    let d := if sg then sgn n d else d in
                    if d =? 0 then None else
                    let q := Z.quot x d in
                    let lo := if sg then - 2 ^ (n - 1) else 0 in
                    let hi := if sg then 2 ^ (n - 1) else 2 ^ n in
                    if (lo <=? q) && (q <? hi) then
                      Some (setf (putr s DX (Z.rem x d) (putr s AX q m)) None)
                    else None
                | None => None
                end
            end
        | None => None
        end
    | Xchg a b =>
        if is_mem a && is_mem b then None else
        match osize None [a; b] with
        | Some s =>
            match rd s a m, rd s b m with
            | Some x, Some y =>
                match wr s a y m with Some m1 => wr s b x m1 | None => None end
            | _, _ => None
            end
        | None => None
        end
    | Set_ c dst =>
        match dst, fl m with
        | R S1 r, Some f => Some (putr S1 r (if cond_holds c f then 1 else 0) m)
        | _, _ => None
        end
    | Cmov c src dst =>
        match osize None [src; dst], fl m with
        | Some S4, Some f | Some S8, Some f =>
            match dst, rd (match osize None [src; dst] with Some s => s | None => S8 end) src m,
                  rd (match osize None [src; dst] with Some s => s | None => S8 end) dst m with
            | R s r, Some v, Some w =>
                Some (putr s r (if cond_holds c f then v else w) m)
            | _, _, _ => None
            end
        | _, _ => None
        end
    | Jmp _ | Jcc _ _ | Lab _ => None
    end.

  (** Straight-line view: run a piece of code from its start. [Some l] in the second
      component means that control left the piece, or is still travelling, towards the
      label [l], which must lie further on. *)
  Fixpoint run (code : list instr) (j : option label) (m : mach)
    : option (option label * mach) :=
    match code with
    | [] => Some (j, m)
    | i :: r =>
        match j with
        | Some l =>
            match i with
            | Lab l' => if label_eqb l l' then run r None m else run r j m
            | _ => run r j m
            end
        | None =>
            match i with
            | Lab _ => run r None m
            | Jmp l => run r (Some l) m
            | Jcc c l =>
                match fl m with
                | Some f => run r (if cond_holds c f then Some l else None) m
                | None => None
                end
            | _ => match exec1 i m with Some m' => run r None m' | None => None end
            end
        end
    end.

  (** Program-counter semantics: a label denotes the first line that defines it. *)
  Fixpoint find_label (l : label) (p : list instr) : option nat :=
    match p with
    | [] => None
    | Lab l' :: r => if label_eqb l l' then Some O
                     else match find_label l r with Some k => Some (S k) | None => None end
    | _ :: r => match find_label l r with Some k => Some (S k) | None => None end
    end.

  Definition step (p : list instr) (s : nat * mach) : option (nat * mach) :=
    let '(pc, m) := s in
    match nth_error p pc with
    | None => None
    | Some (Lab _) => Some (S pc, m)
    | Some (Jmp l) => match find_label l p with Some k => Some (k, m) | None => None end
    | Some (Jcc c l) =>
        match fl m with
        | Some f => if cond_holds c f
                    then match find_label l p with Some k => Some (k, m) | None => None end
                    else Some (S pc, m)
        | None => None
        end
    | Some i => match exec1 i m with Some m' => Some (S pc, m') | None => None end
    end.

  Inductive steps (p : list instr) : nat * mach -> nat * mach -> Prop :=
  | steps_refl : forall s, steps p s s
  | steps_cons : forall s s' s'', step p s = Some s' -> steps p s' s'' -> steps p s s''.
End Exec.

(** Labels a piece of code defines. *)
Definition lab_of (i : instr) : list label := match i with Lab l => [l] | _ => [] end.
Definition labels (code : list instr) : list label := flat_map lab_of code.
