(** Machine with SSE registers: the few moves the code generator uses for blocks of memory and for
    floating arguments, on top of X86. This is a specification (trusted). An xmm
    register is a number below 2^128; the loads of a float or a double clear the rest of the register. *)
From Coq Require Import ZArith List Bool.
From Verif Require Import X86.
Import ListNotations.
Local Open Scope Z_scope.

Inductive xinstr :=
| G (i : instr)                                   (* an integer instruction other than a jump *)
| MovupsLd (b : base) (ofs : Z) (x : nat)
| MovupsSt (x : nat) (b : base) (ofs : Z)
| MovssLd (b : base) (ofs : Z) (x : nat)
| MovssSt (x : nat) (b : base) (ofs : Z)
| MovsdLd (b : base) (ofs : Z) (x : nat)
| MovsdSt (x : nat) (b : base) (ofs : Z)
| MovapsSt (x : nat) (b : base) (ofs : Z)
| XorpsSelf (x : nat).

Record xmach := mkx { im : mach; xr : nat -> Z }.
Definition setx (m : xmach) (x : nat) (v : Z) : xmach :=
  mkx (im m) (fun y => if Nat.eqb y x then v else xr m y).
Definition setmem (m : xmach) (f : Z -> Z) : xmach := mkx (setm (im m) f) (xr m).

Section Exec.
  Variable sym : nat -> Z.
  Definition ldx (k : nat) (b : base) (ofs : Z) (x : nat) (m : xmach) : xmach :=
    setx m x (loadn k (ea sym b ofs (im m)) (mm (im m))).
  Definition stx (k : nat) (x : nat) (b : base) (ofs : Z) (m : xmach) : xmach :=
    setmem m (storen k (ea sym b ofs (im m)) (xr m x) (mm (im m))).
  Definition xexec (i : xinstr) (m : xmach) : option xmach :=
    match i with
    | G i => match exec1 sym i (im m) with Some m' => Some (mkx m' (xr m)) | None => None end
    | MovupsLd b o x => Some (ldx 16 b o x m)
    | MovupsSt x b o => Some (stx 16 x b o m)
    | MovssLd b o x => Some (ldx 4 b o x m)
    | MovssSt x b o => Some (stx 4 x b o m)
    | MovsdLd b o x => Some (ldx 8 b o x m)
    | MovsdSt x b o => Some (stx 8 x b o m)
    | MovapsSt x b o => if ea sym b o (im m) mod 16 =? 0 then Some (stx 16 x b o m) else None   (* faults if not aligned *)
    | XorpsSelf x => Some (setx m x 0)
    end.
  Fixpoint xrun (code : list xinstr) (m : xmach) : option xmach :=
    match code with
    | [] => Some m
    | i :: r => match xexec i m with Some m' => xrun r m' | None => None end
    end.
  (** With jumps, as [run] of X86. *)
  Fixpoint xjrun (code : list xinstr) (j : option label) (m : xmach) : option (option label * xmach) :=
    match code with
    | [] => Some (j, m)
    | i :: r =>
        match j with
        | Some l =>
            match i with
            | G (Lab l') => if label_eqb l l' then xjrun r None m else xjrun r j m
            | _ => xjrun r j m
            end
        | None =>
            match i with
            | G (Lab _) => xjrun r None m
            | G (Jmp l) => xjrun r (Some l) m
            | G (Jcc c l) =>
                match fl (im m) with
                | Some f => xjrun r (if cond_holds c f then Some l else None) m
                | None => None
                end
            | _ => match xexec i m with Some m' => xjrun r None m' | None => None end
            end
        end
    end.
End Exec.
