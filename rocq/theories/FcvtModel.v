(** Model of the conversions between integer and floating types: codegen.c 1004-1100 (the rows and columns f32, f64 and f80 of cast_table). *)
From Coq Require Import ZArith List Bool.
From Verif Require Import Base IntSpec X86 CgModel FcvtSpec.
Import ListNotations.
Local Open Scope Z_scope.

Inductive fty := F32 | F64 | F80.
Definition prec (f : fty) : Z := match f with F32 => 24 | F64 => 53 | F80 => 64 end.

(** IEEE single and double formats, for the constants: normal numbers. *)
Definition single_of (b : Z) : option dy :=
  let e := b / 2 ^ 23 mod 2 ^ 8 in
  if (0 <? e) && (e <? 255) then Some ((if b / 2 ^ 31 mod 2 =? 0 then 1 else -1) * (2 ^ 23 + b mod 2 ^ 23), e - 127 - 23) else None.
Definition double_of (b : Z) : option dy :=
  let e := b / 2 ^ 52 mod 2 ^ 11 in
  if (0 <? e) && (e <? 2047) then Some ((if b / 2 ^ 63 mod 2 =? 0 then 1 else -1) * (2 ^ 52 + b mod 2 ^ 52), e - 1023 - 52) else None.

(** Exact sum and difference, and order. *)
Definition dadd (a b : dy) : dy :=
  let e := Z.min (snd a) (snd b) in (fst a * 2 ^ (snd a - e) + fst b * 2 ^ (snd b - e), e).
Definition dsub (a b : dy) : dy := dadd a (- fst b, snd b).
Definition dle (a b : dy) : bool := fst (dsub a b) <=? 0.

(** The registers %rax, %rcx, %rdx modulo 2^64, %rsp, %xmm0, %xmm1, the x87 stack and control word, the flag "below or equal", and memory. *)
Record cm := mkc { ra : Z; rc : Z; rd_ : Z; rsp : Z; x0 : dy; x1 : dy; fst_ : list dy; cw : Z; be : bool; mem : Z -> Z }.
Inductive cr := RA | RC | RD.
Definition get (r : cr) (m : cm) : Z := match r with RA => ra m | RC => rc m | RD => rd_ m end.
Definition put (r : cr) (v : Z) (m : cm) : cm :=
  match r with
  | RA => mkc (v mod 2 ^ 64) (rc m) (rd_ m) (rsp m) (x0 m) (x1 m) (fst_ m) (cw m) (be m) (mem m)
  | RC => mkc (ra m) (v mod 2 ^ 64) (rd_ m) (rsp m) (x0 m) (x1 m) (fst_ m) (cw m) (be m) (mem m)
  | RD => mkc (ra m) (rc m) (v mod 2 ^ 64) (rsp m) (x0 m) (x1 m) (fst_ m) (cw m) (be m) (mem m)
  end.
Definition put_x0 (v : dy) (m : cm) : cm := mkc (ra m) (rc m) (rd_ m) (rsp m) v (x1 m) (fst_ m) (cw m) (be m) (mem m).
Definition put_st (l : list dy) (m : cm) : cm := mkc (ra m) (rc m) (rd_ m) (rsp m) (x0 m) (x1 m) l (cw m) (be m) (mem m).
Definition put_cw (v : Z) (m : cm) : cm := mkc (ra m) (rc m) (rd_ m) (rsp m) (x0 m) (x1 m) (fst_ m) v (be m) (mem m).
Definition put_sp (v : Z) (m : cm) : cm := mkc (ra m) (rc m) (rd_ m) v (x0 m) (x1 m) (fst_ m) (cw m) (be m) (mem m).
Definition put_mem (f : Z -> Z) (m : cm) : cm := mkc (ra m) (rc m) (rd_ m) (rsp m) (x0 m) (x1 m) (fst_ m) (cw m) (be m) f.
Definition put_be (b : bool) (m : cm) : cm := mkc (ra m) (rc m) (rd_ m) (rsp m) (x0 m) (x1 m) (fst_ m) (cw m) b (mem m).

Inductive ci :=
| Cvtt (s : size) (r : cr)               (* cvttss2si, cvttsd2si %xmm0, r *)
| Cvtsi (s : size) (r : cr)              (* cvtsi2ss, cvtsi2sd r, %xmm0 *)
| MovRR (s : size) (a b : cr)            (* mov a, b *)
| MovI (v : Z) (r : cr)                  (* mov $v, r *)
| Movd (s : size)                        (* movd %eax, %xmm1; movq %rax, %xmm1 *)
| SubX | AddX                            (* subss, subsd %xmm1, %xmm0; addss, addsd %xmm0, %xmm0 *)
| Sar63 (r : cr) | Shl63 (r : cr) | Shr1 (r : cr)
| AndRR (a b : cr) | OrRR (a b : cr)
| AndI (v : Z) (r : cr)                  (* 32-bit *)
| OrI (v : Z) (r : cr)
| Ext (sg : bool) (s : size)             (* movs/movz %al or %ax, %eax *)
| AddSp (n : Z)
| Push | Pop                             (* push %rax, pop %rax *)
| LdM (sg : bool) (s : size) (o : Z) (r : cr)   (* mov, movs, movz o(%rsp), r (32 bits, or 64) *)
| StM (s : size) (r : cr) (o : Z)        (* mov r, o(%rsp) *)
| StI (v o : Z)                          (* movl $v, o(%rsp) *)
| XorM (o : Z)                           (* xorq o(%rsp), %rax *)
| Fnstcw (o : Z) | Fldcw (o : Z)
| Fild (s : size) | Flds (o : Z) | Fldz | Fadds (o : Z)
| Fistp (s : size) (o : Z)
| Fucomi | SetbeAl | Fcmovbe | FstpSt1 | Fsubrp
| IfNeg (a b : list ci).                 (* test %rax, %rax; a if negative, otherwise b *)

Section Run.
(** The floating type converted from or to, and what its arithmetic instructions do with a sum. *)
Variable p : Z.
Variable rnd : dy -> dy.
(** Out of range: the integer indefinite value. *)
Definition cvtt_int (n : Z) (v : Z) : Z := if (- 2 ^ (n - 1) <=? v) && (v <? 2 ^ (n - 1)) then v mod 2 ^ n else 2 ^ (n - 1).
Fixpoint cexec (i : ci) (m : cm) : option cm :=
  let at_ o := rsp m + o in
  match i with
  | Cvtt s r => Some (put r (cvtt_int (nbits s) (trunc_dy (x0 m))) m)
  | Cvtsi s r => Some (put_x0 (rne p (sgn (nbits s) (get r m mod 2 ^ nbits s)), 0) m)
  | MovRR s a b => Some (put b (get a m mod 2 ^ nbits s) m)
  | MovI v r => Some (put r v m)
  | Movd s => match (match s with S8 => double_of (ra m) | _ => single_of (ra m mod 2 ^ 32) end) with
              | Some d => Some (mkc (ra m) (rc m) (rd_ m) (rsp m) (x0 m) d (fst_ m) (cw m) (be m) (mem m))
              | None => None end
  | SubX => Some (put_x0 (rnd (dsub (x0 m) (x1 m))) m)
  | AddX => Some (put_x0 (rnd (dadd (x0 m) (x0 m))) m)
  | Sar63 r => Some (put r (if 2 ^ 63 <=? get r m then -1 else 0) m)
  | Shl63 r => Some (put r (get r m mod 2 * 2 ^ 63) m)
  | Shr1 r => Some (put r (get r m / 2) m)
  | AndRR a b => Some (put b (Z.land (get a m) (get b m)) m)
  | OrRR a b => Some (put b (Z.lor (get a m) (get b m)) m)
  | AndI v r => Some (put r (Z.land (get r m mod 2 ^ 32) v) m)
  | OrI v r => Some (put r (Z.lor (get r m mod 2 ^ 32) v) m)
  | Ext sg s => Some (put RA ((if sg then sgn (nbits s) (ra m mod 2 ^ nbits s) else ra m mod 2 ^ nbits s) mod 2 ^ 32) m)
  | AddSp n => Some (put_sp (rsp m + n) m)
  | Push => Some (put_mem (storen 8 (rsp m - 8) (ra m) (mem m)) (put_sp (rsp m - 8) m))
  | Pop => Some (put RA (loadn 8 (rsp m) (mem m)) (put_sp (rsp m + 8) m))
  | LdM sg s o r => let v := loadn (nbytes s) (at_ o) (mem m) in
                    Some (put r (match s with S8 => v | _ => (if sg then sgn (nbits s) v else v) mod 2 ^ 32 end) m)
  | StM s r o => Some (put_mem (storen (nbytes s) (at_ o) (get r m) (mem m)) m)
  | StI v o => Some (put_mem (storen 4 (at_ o) v (mem m)) m)
  | XorM o => Some (put RA (Z.lxor (ra m) (loadn 8 (at_ o) (mem m))) m)
  | Fnstcw o => Some (put_mem (storen 2 (at_ o) (cw m) (mem m)) m)
  | Fldcw o => Some (put_cw (loadn 2 (at_ o) (mem m)) m)
  | Fild s => Some (put_st ((sgn (nbits s) (loadn (nbytes s) (rsp m) (mem m)), 0) :: fst_ m) m)
  | Flds o => match single_of (loadn 4 (at_ o) (mem m)) with Some d => Some (put_st (d :: fst_ m) m) | None => None end
  | Fldz => Some (put_st ((0, 0) :: fst_ m) m)
  | Fadds o => match fst_ m, single_of (loadn 4 (at_ o) (mem m)) with
               | a :: r, Some d => Some (put_st (rnd (dadd a d) :: r) m)
               | _, _ => None end
  | Fistp s o =>                            (* rounding control: bits 10 and 11, 3 is truncation; the others are not modelled *)
      match fst_ m with
      | a :: r => if (cw m / 2 ^ 10) mod 4 =? 3
                  then Some (put_st r (put_mem (storen (nbytes s) (at_ o) (cvtt_int (nbits s) (trunc_dy a)) (mem m)) m)) else None
      | _ => None end
  | Fucomi => match fst_ m with a :: b :: _ => Some (put_be (dle a b) m) | _ => None end
  | SetbeAl => Some (put RA (ra m / 256 * 256 + (if be m then 1 else 0)) m)
  | Fcmovbe => match fst_ m with a :: b :: r => Some (put_st ((if be m then b else a) :: b :: r) m) | _ => None end
  | FstpSt1 => match fst_ m with a :: b :: r => Some (put_st (a :: r) m) | _ => None end
  | Fsubrp => match fst_ m with a :: b :: r => Some (put_st (rnd (dsub b a) :: r) m) | _ => None end   (* AT&T: st(1) - st *)
  | IfNeg a b =>
      (fix go (l : list ci) (m : cm) : option cm :=
         match l with [] => Some m | i :: r => match cexec i m with Some m' => go r m' | None => None end end)
        (if 2 ^ 63 <=? ra m then a else b) m
  end.
Fixpoint crun (l : list ci) (m : cm) : option cm :=
  match l with [] => Some m | i :: r => match cexec i m with Some m' => crun r m' | None => None end end.
End Run.

(** codegen.c:1035-1065. *)
Definition from_f80 (s : size) (ld : ci) : list ci :=
  [AddSp (-24); Fnstcw 14; LdM false S2 14 RA; OrI (12 * 256) RA; StM S2 RA 12; Fldcw 12; Fistp s 0; Fldcw 14; ld; AddSp 24].
(** The column of an integer type in the rows f32, f64 and f80. *)
Definition f_to_i (f : fty) (t : tid) : list ci :=
  match f with
  | F32 | F64 =>
      match t with
      | I8 => [Cvtt S4 RA; Ext true S1]
      | U8 => [Cvtt S4 RA; Ext false S1]
      | I16 => [Cvtt S4 RA; Ext true S2]
      | U16 => [Cvtt S4 RA; Ext false S2]
      | I32 => [Cvtt S4 RA]
      | U32 | I64 => [Cvtt S8 RA]
      | U64 => [Cvtt S8 RC; MovRR S8 RC RD; MovI (match f with F32 => 0x5F000000 | _ => 0x43e0000000000000 end) RA;
                Movd (match f with F32 => S4 | _ => S8 end); SubX; Cvtt S8 RA; Sar63 RD; AndRR RD RA; OrRR RC RA]
      end
  | F80 =>
      match t with
      | I8 => from_f80 S2 (LdM true S1 0 RA)
      | U8 => from_f80 S2 (LdM false S1 0 RA)
      | I16 => from_f80 S2 (LdM false S1 0 RA)
      | U16 => from_f80 S4 (LdM true S2 0 RA)
      | I32 => from_f80 S4 (LdM false S4 0 RA)
      | U32 => from_f80 S4 (LdM false S4 0 RA)
      | I64 => from_f80 S8 (LdM false S8 0 RA)
      | U64 => [AddSp (-16); StI 0x5f000000 12; Flds 12; Fucomi; SetbeAl; Fldz; Fcmovbe; FstpSt1; Fsubrp; Fnstcw 4;
                LdM false S2 4 RC; OrI 3072 RC; StM S2 RC 6; Fldcw 6; Fistp S8 8; Fldcw 4; Shl63 RA; XorM 8; AddSp 16]
      end
  end.
(** The column of a floating type in the rows of the integer types. *)
Definition i_to_f (t : tid) (f : fty) : list ci :=
  match f with
  | F32 | F64 =>
      match t with
      | I8 | I16 | I32 | U8 | U16 => [Cvtsi S4 RA]
      | U32 => [MovRR S4 RA RA; Cvtsi S8 RA]
      | I64 => [Cvtsi S8 RA]
      | U64 => [IfNeg [MovRR S8 RA RD; AndI 1 RA; Shr1 RD; OrRR RA RD; Cvtsi S8 RD; AddX] [Cvtsi S8 RA]]
      end
  | F80 =>
      match t with
      | I8 | I16 | I32 | U8 | U16 => [Push; Fild S4; Pop]
      | U32 => [MovRR S4 RA RA; Push; Fild S8; Pop]
      | I64 => [Push; Fild S8; Pop]
      | U64 => [Push; Fild S8; IfNeg [MovI 1602224128 RA; StM S4 RA 4; Fadds 4] []; Pop]
      end
  end.
(** Where the floating value is. *)
Definition fval (f : fty) (m : cm) : option dy := match f with F80 => match fst_ m with a :: _ => Some a | [] => None end | _ => Some (x0 m) end.
(** The bits of %rax an integer value of the type occupies; the table treats _Bool as an 8-byte type. *)
Definition regbits (T : ityp) : Z := match T with TBool | TLong | TULong | TLLong | TULLong => 64 | _ => 32 end.
Definition holds_int (T : ityp) (v : Z) (m : cm) : Prop := ra m mod 2 ^ regbits T = v mod 2 ^ regbits T.
(** What a conversion leaves alone. *)
Definition safe (m m' : cm) : Prop := rsp m' = rsp m /\ cw m' = cw m /\ forall a, rsp m <= a -> mem m' a = mem m a.
Definition popped (f : fty) (m m' : cm) : Prop := match f with F80 => fst_ m' = tl (fst_ m) | _ => fst_ m' = fst_ m end.
Definition pushed (f : fty) (m m' : cm) : Prop := match f with F80 => tl (fst_ m') = fst_ m | _ => fst_ m' = fst_ m end.
