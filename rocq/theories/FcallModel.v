(** Model of gen_funcall for integer arguments and a function called by name. *)
From Coq Require Import ZArith List Bool.
From Verif Require Import Base IntSpec IntModel X86 CgModel StmtModel ArgSpec ArgModel.
Import ListNotations.
Local Open Scope Z_scope.

(** The value of calling_convention, codegen.c:1175-1224, for integer arguments. *)
Definition arg_stk_size (k : nat) : Z :=
  8 * Z.of_nat (length (filter (fun o => match o with Some _ => true | None => false end) (calling_conv 0 0 k))).

(** codegen.c:317-320. *)
Definition clobber_all_regs (st : gst) : gst :=
  mkgst (out st) (map (fun s => mkslot SL_ST (s_gp s) (s_st s) (s_loc s)) (slots st)) (peak st) (cnt st).

(** codegen.c:1466-1530; [Nop] stands for the line of the call. The first state is the one
    before that line. Integer arguments have alignment at most 8, so that arg_stk_align is 16
    and no floating register is used. Left out: alloca, function pointers, results in memory.
    align_to is an int. *)
Definition gen_funcall (G : genv) (f : nat) (variadic : bool) (l : list (node * nat)) (st : gst)
  : outcome (list marg * gst * gst) :=
  do ms <- prepare_funcall G false l;
  let asz := arg_stk_size (length l) in
  let n := (asz + 15) / 16 * 16 in
  if 2 ^ 31 <=? n then UB else
  let st0 := if asz =? 0 then st else emit [Alu ASub None (I n) (R S8 SP)] st in
  do st1 <- gen_funcall_args G f false ms st0;
  let st2 := if variadic then emit [Alu AXor None (R S1 AX) (R S1 AX)] st1 else st1 in
  let st3 := clobber_all_regs (emit [Nop] st2) in
  Ok (ms, st2, if asz =? 0 then st3 else emit [Alu AAdd None (I n) (R S8 SP)] st3).
