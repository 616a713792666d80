(** Model of the allocation of local variables and temporaries in the stack frame (codegen.c). *)
From Coq Require Import ZArith List Bool.
From Verif Require Import Base FrameSpec.
Import ListNotations.
Local Open Scope Z_scope.

(** align_to, codegen.c:523-525; C int arithmetic. *)
Definition align_to (n a : Z) : outcome Z :=
  if a =? 0 then UB
  else do x <- int_of (n + a); do y <- int_of (x - 1); int_of (Z.quot y a * a).

(** The fields of Obj used here: pass_by_stack, stack_offset, ty->kind == TY_ARRAY,
    ty->kind == TY_VLA, ty->size, align. *)
Record lvar := mklvar { lstack : bool; lstackofs : Z; larray : bool; lvla : bool; lsize : Z; lalign : Z }.
(** codegen.c:3845-3855. *)
Definition var_align (v : lvar) : Z :=
  if larray v && (16 <=? lsize v) then Z.max 16 (lalign v) else if lvla v then 8 else lalign v.
(** First loop of assign_lvar_offsets, codegen.c:3838-3861: var->ofs of each variable; var->ptr is
    %rbp for those passed on the stack and lvar_ptr for the others. ty->size is an int64_t: the sum
    is one too, and is converted to int. *)
Fixpoint assign_vars (vs : list lvar) (bottom : Z) : outcome (list (lvar * Z) * Z) :=
  match vs with
  | [] => Ok ([], bottom)
  | v :: r =>
      if lstack v
      then do o <- int_of (lstackofs v + 16); do q <- assign_vars r bottom; Ok ((v, o) :: fst q, snd q)
      else
        do b <- long_of (bottom + lsize v);
        do b2 <- align_to (int_conv b) (var_align v);
        do o <- int_of (- b2);
        do q <- assign_vars r b2; Ok ((v, o) :: fst q, snd q)
  end.
(** assign_lvar_offsets, codegen.c:3837-3872. [reuse]: opt_reuse_stack && !dont_reuse_stk. *)
Fixpoint assign_lvar_offsets (reuse : bool) (sc : tree lvar) (bottom : Z) : outcome (tree (lvar * Z) * Z) :=
  match sc with
  | Node vs cs =>
      do r <- assign_vars vs bottom;
      do q <- (fix go (cs : list (tree lvar)) (bottom max_depth : Z) : outcome (list (tree (lvar * Z)) * Z) :=
                 match cs with
                 | [] => Ok ([], max_depth)
                 | c :: cs' =>
                     do x <- assign_lvar_offsets reuse c bottom;
                     do y <- (if reuse then go cs' bottom (Z.max max_depth (snd x)) else go cs' (snd x) (snd x));
                     Ok (fst x :: fst y, snd y)
                 end) cs (snd r) (snd r);
      Ok (Node (fst r) (fst q), snd q)
  end.
(** get_lvar_align, codegen.c:3826-3835. *)
Fixpoint get_lvar_align (sc : tree lvar) (a : Z) : Z :=
  match sc with
  | Node vs cs =>
      fold_left (fun a c => Z.max a (get_lvar_align c a)) cs
        (fold_left (fun a v => if lstack v then a else Z.max a (lalign v)) vs a)
  end.
(** emit_text, codegen.c:4073-4118: the bytes in use before the variables (176 for the registers
    of a variadic function, 8 for the stack pointer when variable length arrays are freed, 8 for
    the address of a returned object), the variables, and the size rounded up. *)
Definition frame_start (variadic dealloc_vla rtn_by_stk : bool) : Z :=
  (if variadic then 176 else 0) + (if dealloc_vla then 8 else 0) + (if rtn_by_stk then 8 else 0).
(** What the prologue saves below the frame pointer, offsets and sizes (codegen.c:4081-4115): the
    unnamed arguments in registers of a variadic function with [gp] and [fp] named ones (the
    switches fall through), vla_base_ofs, rtn_ptr_ofs. *)
Definition saved (variadic dealloc_vla rtn_by_stk : bool) (gp fp : nat) : list (Z * Z) :=
  (if variadic
   then map (fun o => (o, 8)) (skipn gp [-176; -168; -160; -152; -144; -136]) ++
        map (fun o => (o, 16)) (skipn fp [-128; -112; -96; -80; -64; -48; -32; -16])
   else []) ++
  (if dealloc_vla then [(- frame_start variadic true false, 8)] else []) ++
  (if rtn_by_stk then [(- frame_start variadic dealloc_vla true, 8)] else []).
Definition layout_frame (variadic dealloc_vla rtn_by_stk reuse : bool) (sc : tree lvar) : outcome (tree (lvar * Z) * Z) :=
  do r <- assign_lvar_offsets reuse sc (frame_start variadic dealloc_vla rtn_by_stk);
  do s <- align_to (snd r) 8;
  Ok (fst r, s).

(** Temporaries. Slot, codegen.c:122-130; [s_born] is the time of the push, for the
    specification only. *)
Record slot := mkslot { s_kind : skind; s_gp : Z; s_fp : Z; s_st : Z; s_born : nat }.
Definition GP_SLOTS : Z := 6.
Definition FP_SLOTS : Z := 6.
(** What happens to tmp_stack (type [event]): push_tmpstack 329-339, pop_tmpstack 341-368 (with sz
    1, or 2 when [wide]), clobber_all_regs 317-320, clobber_gp 322-327. Growing the array is not
    modelled. *)
Record tstate := mkts { t_stack : list slot; t_peak : Z }.
Definition is_kind (a b : skind) : Z :=
  match a, b with SL_GP, SL_GP | SL_FP, SL_FP | SL_ST, SL_ST => 1 | _, _ => 0 end.
Definition pop_kind (s : slot) : skind :=
  match s_kind s with
  | SL_GP => if GP_SLOTS <=? s_gp s then SL_ST else SL_GP
  | SL_FP => if FP_SLOTS <=? s_fp s then SL_ST else SL_FP
  | SL_ST => SL_ST
  end.
(** pop_tmpstack, and the place it stands for: pop_gp, pop_fp, pop_x87 (codegen.c:379-398,
    419-435, 449-454). Registers are numbered in the order of tmpreg64; vector registers from 2. *)
Definition pop_tmpstack (reuse : bool) (lvar_sz : Z) (wide : bool) (st : tstate) : outcome (tstate * (nat * place)) :=
  match t_stack st with
  | [] => Abort
  | s :: r =>
      let sz := if wide then 2 else 1 in
      let k := pop_kind s in
      do d <- int_of (s_st s + is_kind k SL_ST * sz);
      let r' := match r with
                | [] => []
                | s2 :: r2 => mkslot (s_kind s2) (Z.max (s_gp s2) (s_gp s + is_kind k SL_GP)) (Z.max (s_fp s2) (s_fp s + is_kind k SL_FP)) (Z.max (s_st s2) d) (s_born s2) :: r2
                end in
      match k with
      | SL_GP => Ok (mkts r' (t_peak st), (s_born s, InGp (s_gp s)))
      | SL_FP => Ok (mkts r' (t_peak st), (s_born s, InFp (s_fp s)))
      | SL_ST =>
          if reuse
          then do x <- int_of (lvar_sz + (s_st s + sz) * 8);
               Ok (mkts r' (Z.max (t_peak st) x), (s_born s, InMem (- x) (8 * sz)))
          else do x <- int_of (t_peak st + sz * 8);
               Ok (mkts r' x, (s_born s, InMem (- x) (8 * sz)))
      end
  end.
Definition to_st (s : slot) : slot := mkslot SL_ST (s_gp s) (s_fp s) (s_st s) (s_born s).
Definition tstep (reuse : bool) (lvar_sz : Z) (t : nat) (e : event) (st : tstate) : outcome (tstate * list temporary) :=
  match e with
  | EPush k => Ok (mkts (mkslot k 0 0 0 t :: t_stack st) (t_peak st), [])
  | EPop w => do r <- pop_tmpstack reuse lvar_sz w st; Ok (fst r, [mktmp (fst (snd r)) t (snd (snd r))])
  | EClobber => Ok (mkts (map to_st (t_stack st)) (t_peak st), [])
  | EClobberGp i =>
      match t_stack st with
      | [] => Ok (st, [])
      | s :: r => Ok (mkts (mkslot (s_kind s) (Z.max (s_gp s) i) (s_fp s) (s_st s) (s_born s) :: r) (t_peak st), [])
      end
  end.
(** A function body as the sequence of what it does to tmp_stack; at its start the stack is empty
    and peak_stk_usage is lvar_stk_sz (codegen.c:4118). *)
Fixpoint trun (reuse : bool) (lvar_sz : Z) (t : nat) (es : list event) (st : tstate) (log : list temporary) : outcome (tstate * list temporary) :=
  match es with
  | [] => Ok (st, log)
  | e :: r => do q <- tstep reuse lvar_sz t e st; trun reuse lvar_sz (S t) r (fst q) (snd q ++ log)
  end.
Definition temporaries (reuse : bool) (lvar_sz : Z) (es : list event) : outcome (tstate * list temporary) :=
  trun reuse lvar_sz 0 es (mkts [] lvar_sz) [].
