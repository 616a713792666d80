(** Model of emit_text, codegen.c:4040-4178, for functions with integer parameters. *)
From Coq Require Import ZArith List Bool.
From Verif Require Import Base IntSpec IntModel X86 CgModel StmtSpec StmtModel ArgModel FunSpec.
Import ListNotations.
Local Open Scope Z_scope.

(** push and leave, written as the instructions they abbreviate (lea leaves the flags alone). *)
Definition push_reg (r : reg) : list instr :=
  [Lea (BReg SP) (-8) (R S8 SP); Mov None (R S8 r) (M (BReg SP) 0)].
Definition leave : list instr :=
  [Mov None (R S8 BP) (R S8 SP); Mov None (M (BReg SP) 0) (R S8 BP); Lea (BReg SP) 8 (R S8 SP)].

(** codegen.c:4064-4070. *)
Definition prologue (fn : func) : list instr :=
  push_reg BP ++ [Mov None (R S8 SP) (R S8 BP)] ++
  (if 16 <? fn_align fn
   then push_reg BX ++ [Alu AAnd None (I (- fn_align fn)) (R S8 SP); Mov None (R S8 SP) (R S8 BX)]
   else []).

(** store_gp, codegen.c:4007-4027, for sizes 1, 2, 4 and 8: one instruction. *)
Definition store_gp (r : reg) (n : Z) (b : reg) (o : Z) : outcome (list instr) :=
  do s <- size_of n; Ok [Mov None (R s r) (M (BReg b) o)].

(** codegen.c:4121-4151. Parameters on the stack stay where they are. *)
Fixpoint save_params (G : genv) (gp : nat) (l : list (ityp * nat)) (stk : list (option Z))
  : outcome (list instr) :=
  match l, stk with
  | _ :: l', Some _ :: stk' => save_params G gp l' stk'
  | (t, x) :: l', None :: stk' =>
      match loc G x with
      | VLoc b o =>
          do r <- argreg gp;
          do c <- store_gp r (sz (mty t)) b o;
          do k <- save_params G (S gp) l' stk'; Ok (c ++ k)
      | _ => Abort
      end
  | _, _ => Ok []
  end.

(** codegen.c:4163-4169. *)
Definition epilogue (fn : func) : list instr :=
  (if 16 <? fn_align fn then [Mov None (M (BReg BP) (-8)) (R S8 BX)] else []) ++ leave.

(** codegen.c:4040-4170 up to the ret instruction: the code and peak_stk_usage. [c0] is the
    value of count() taken for rtn_label. Left out: the save area of variadic functions (C43),
    VLAs, results in memory, directives. The C int of align_to must not overflow. *)
Definition emit_text (G : genv) (nul f : nat) (fn : func) (id c0 : Z) : outcome (list instr * Z) :=
  do p <- parse_stmt (gc G) (fn_ret fn) None id (fn_body fn);
  let pro := prologue fn in
  do sv <- save_params G 0 (fn_params fn) (calling_conv 0 0 (length (fn_params fn)));
  let st := mkgst (pro ++ Nop :: sv) [] (lvar_sz G) (c0 + 1) in
  do st1 <- gen_stmt G nul f c0 (fst p) st;
  let n := (peak st1 + 15) / 16 * 16 in
  if 2 ^ 31 <=? n then UB else
  let st2 := if peak st1 =? 0 then st1
             else insrtln st1 (length pro) (Alu ASub None (I n) (R S8 SP)) in
  Ok (out st2 ++ (if fn_main fn then [Alu AXor None (R S4 AX) (R S4 AX)] else [])
        ++ [Lab (LRtn, c0)] ++ epilogue fn, peak st1).
