(** The code around the instructions of an extended asm statement: /repo/codegen.c 3343-3358 and 3370-3597, 3733-3825, for
    operands that are not in x87 registers, without asm goto. [F] is the register local variables are found by
    (lvar_ptr), [sv r] the offset of the stack slot that push_from gives register [r]; since clobber_all_regs comes
    before the pops no slot is a register. The code of asm_gen_operands is not modelled; it leaves in the slots what
    [ready] says. *)
From Coq Require Import Ascii String ZArith List Bool.
From Verif Require Import AsmSpec AsmModel AsmCodeSpec.
Import ListNotations.
Local Open Scope string_scope.
Local Open Scope nat_scope.
Local Open Scope list_scope.

(** [Own]: the operand is_memop; [Slot]: ap->ptr; [Copy]: ap->var. *)
Inductive home := Own (m : mref) | Slot (m : mref) | Copy (m : mref) | Nowhere.
(** codegen.c 3343-3358 *)
Definition home_of (out : bool) (a : op) (d : side) : home :=
  if a_memop (snd (o_src a)) then Own (d_ref d)
  else if out then Slot (d_ref d)
  else match o_kind a with KReg => Copy (d_ref d) | KMem => Slot (d_ref d) | _ => Nowhere end.
(** codegen.c 3397-3403 *)
Definition alt_ptr (p : plan) (r : nat) : nat :=
  if negb (Nat.eqb (p_alt1 p) 0) && Nat.eqb r BP then p_alt1 p else if negb (Nat.eqb (p_alt2 p) 0) && Nat.eqb r BX then p_alt2 p else r.
Definition via (f : nat -> nat) (m : mref) : mref := match m with Base r o => Base (f r) o | Abs a => Abs a end.
(** codegen.c 3405-3422 *)
Definition asm_gen_ptr (f : nat -> nat) (h : home) (tmp : nat) : res (mref * list instr) :=
  match h with
  | Own m | Copy m => Ok (via f m, [])
  | Slot m => Ok (Base tmp 0, [Ld 8 tmp (via f m)])
  | Nowhere => Err
  end.
Definition gp_size (n : nat) : bool := existsb (Nat.eqb n) [1; 2; 4; 8].
Definition xmm_size (n : nat) : bool := existsb (Nat.eqb n) [4; 8].
(** codegen.c 3424-3450 *)
Definition asm_reg_input (f : nat -> nat) (h : home) (d : side) (r tmp : nat) : res (list instr) :=
  do (m, c) <- asm_gen_ptr f h tmp;
  if (gp r && gp_size (d_size d)) || (xmm r && xmm_size (d_size d)) then Ok (c ++ [Ld (d_size d) r m]) else Err.
(** codegen.c 3452-3478 *)
Definition asm_reg_output (f : nat -> nat) (h : home) (d : side) (r tmp : nat) : res (list instr) :=
  do (m, c) <- asm_gen_ptr f h tmp;
  if (gp r && gp_size (d_size d)) || (xmm r && xmm_size (d_size d)) then Ok (c ++ [St (d_size d) r m]) else Err.
(** codegen.c 3480-3509 *)
Definition asm_bitfield_out (f : nat -> nat) (h : home) (sz b w r tmp : nat) : res (list instr) :=
  match h with
  | Slot m =>
      if gp r && gp_size sz then
        Ok ([Shl (64 - w) r; Shr (64 - w - b) r] ++
            (if Nat.eqb (w + b) 64 then [] else [Ld 8 tmp (via f m); Ld sz tmp (Base tmp 0); Shr (w + b) tmp; Shl (w + b) tmp; OrR tmp r]) ++
            (if Nat.eqb b 0 then [] else [Ld 8 tmp (via f m); Ld sz tmp (Base tmp 0); Shl (64 - b) tmp; Shr (64 - b) tmp; OrR tmp r]) ++
            [Ld 8 tmp (via f m); St sz r (Base tmp 0)])
      else UB
  | _ => UB
  end.
(** codegen.c 3511-3515 *)
Definition get_input_reg (a : op) : nat := if is_kreg (o_kind a) && negb (starts "=" (o_src a)) then o_reg a else 0.
(** An operand with its memory; [true]: an output. *)
Definition item := (bool * op * side)%type.
Definition ihome (e : item) : home := let '(out, a, d) := e in home_of out a d.
Fixpoint each (f : item -> res (list instr)) (l : list item) : res (list instr) :=
  match l with [] => Ok [] | e :: l => do c <- f e; do k <- each f l; Ok (c ++ k) end.
(** codegen.c 3517-3523 *)
Definition xmm_input (e : item) : res (list instr) :=
  let '(out, a, d) := e in let r := get_input_reg a in if xmm r then asm_reg_input (fun r => r) (ihome e) d r DX else Ok [].
(** codegen.c 3525-3533 *)
Definition gp_input (p : plan) (e : item) : res (list instr) :=
  let '(out, a, d) := e in
  do c <- (match o_kind a, o_reg a with
           | KMem, S r => match ihome e with Slot m => Ok [Ld 8 (S r) (via (alt_ptr p) m)] | _ => UB end
           | _, _ => Ok []
           end);
  do k <- (let r := get_input_reg a in if gp r then asm_reg_input (alt_ptr p) (ihome e) d r r else Ok []);
  Ok (c ++ k).
(** codegen.c 3571-3597 *)
Definition output (p : plan) (e : item) : res (list instr) :=
  let '(out, a, d) := e in
  match o_kind a with
  | KReg => match d_bits d with
            | Some (b, w) => asm_bitfield_out (alt_ptr p) (ihome e) (d_size d) b w (o_reg a) (p_tmp p)
            | None => asm_reg_output (alt_ptr p) (ihome e) d (o_reg a) (p_tmp p)
            end
  | KFlag c =>
      do (m, k) <- asm_gen_ptr (alt_ptr p) (ihome e) (p_tmp p);
      if gp_size (d_size d) then Ok (k ++ (if Nat.eqb (d_size d) 1 then [] else [Zero (d_size d) m]) ++ [SetCC c m]) else Err
  | _ => Ok []
  end.
(** codegen.c 3733-3742 *)
Definition masked (p : plan) : list nat := filter (fun r => mem r (p_mask p)) (range R12 R15).
Definition push_clobbers (p : plan) (F : nat) (sv : nat -> Z) : list instr := map (fun r => St 8 r (Base F (sv r))) (masked p).
Definition pop_clobbers (p : plan) (F : nat) (sv : nat -> Z) : list instr := map (fun r => Ld 8 r (Base F (sv r))) (rev (masked p)).
Definition when {A} (n : nat) (l : list A) : list A := if Nat.eqb n 0 then [] else l.
(** codegen.c 3745-3767 *)
Definition push_frame_ptr (p : plan) (F : nat) (sv : nat -> Z) : list instr :=
  let F := alt_ptr p F in
  when (p_alt1 p) [Mov (p_alt1 p) BP] ++ when (p_alt2 p) [Mov (p_alt2 p) BX] ++
  when (p_alt1 p) [St 8 BP (Base F (sv BP))] ++ when (p_alt2 p) [St 8 BX (Base F (sv BX))].
(** codegen.c 3769-3775 *)
Definition pop_frame_ptr (p : plan) (F : nat) (sv : nat -> Z) : list instr :=
  let F := alt_ptr p F in
  when (p_alt2 p) [Ld 8 BX (Base F (sv BX))] ++ when (p_alt1 p) [Ld 8 BP (Base F (sv BP))].
(** codegen.c 3777-3825: before and after the instructions. *)
Definition items (n : nat) (p : plan) (ds : list side) : list item :=
  map (fun e => (fst e <? n, fst (snd e), snd (snd e))) (combine (seq 0 (length (p_ops p))) (combine (p_ops p) ds)).
Definition gen_asm (outs : nat) (p : plan) (ds : list side) (F : nat) (sv : nat -> Z) : res (list instr * list instr) :=
  let l := items outs p ds in
  do x <- each xmm_input l;
  do g <- each (gp_input p) l;
  do o <- each (output p) (firstn outs l);
  Ok (x ++ push_clobbers p F sv ++ push_frame_ptr p F sv ++ g, o ++ pop_frame_ptr p F sv ++ pop_clobbers p F sv).

(** codegen.c 3382-3395: what the slots hold, and is_memop; [f]: the registers before the statement. *)
Definition ready (f : nat -> Z) (M : memory) (e : item) (x : obj) : Prop :=
  let d := snd e in
  match ihome e with
  | Own r => addr f r = x_at x /\ rd M (x_at x) (d_size d) = x_val x
  | Slot r => rd M (addr f r) 8 = x_at x /\ (d_bits d = None -> rd M (x_at x) (d_size d) = x_val x)
  | Copy r => rd M (addr f r) (d_size d) = x_val x
  | Nowhere => True
  end.
Definition pairs (n : nat) (p : plan) (ds : list side) (xs : list obj) : list (item * obj) := combine (items n p ds) xs.
Definition inside (a x : Z) (n : nat) : Prop := (x <= a < x + Z.of_nat n)%Z.
Definition disjoint (x : Z) (n : nat) (y : Z) (k : nat) : Prop := (x + Z.of_nat n <= y \/ y + Z.of_nat k <= x)%Z.
Definition keepers : list nat := [10; 11; 12; 13; BX; BP].
(** The memory of the compiler: stack slots of registers, and slots of operands. *)
Record layout (f : nat -> Z) (F : nat) (sv : nat -> Z) (l : list (item * obj)) : Prop := {
  y_frame : F = BP \/ F = BX;
  y_base : forall e x, In (e, x) l -> match d_ref (snd e) with Base r _ => r = BP \/ r = BX | Abs _ => True end;
  y_saves : forall r q, In r keepers -> In q keepers -> r <> q -> disjoint (f F + sv r) 8 (f F + sv q) 8;
  y_slots : forall e x r, In (e, x) l -> In r keepers ->
    match ihome e with
    | Own _ => disjoint (x_at x) (d_size (snd e)) (f F + sv r) 8
    | Slot m => disjoint (x_at x) (d_size (snd e)) (f F + sv r) 8 /\ disjoint (addr f m) 8 (f F + sv r) 8
    | Copy m => disjoint (addr f m) (d_size (snd e)) (f F + sv r) 8
    | Nowhere => True
    end;
  y_objs : forall e x e' x' m, In (e, x) l -> In (e', x') l -> ihome e' = Slot m ->
    match ihome e with Own _ | Slot _ => disjoint (x_at x) (d_size (snd e)) (addr f m) 8 | _ => True end }.
Definition private (f : nat -> Z) (F : nat) (sv : nat -> Z) (l : list (item * obj)) (a : Z) : Prop :=
  (exists r, In r keepers /\ inside a (f F + sv r) 8) \/ (exists e x m, In (e, x) l /\ ihome e = Slot m /\ inside a (addr f m) 8).
