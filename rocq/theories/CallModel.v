(** Model of argument passing: codegen.c 1130-1224, 1377-1464 (without the optimisations for constants),
    3995-4026, 4127-4151. [int64_t] sizes are unbounded integers; conversions to int are explicit. *)
From Coq Require Import ZArith List Bool.
From Verif Require Import Base X86 Sse MemModel FrameModel CallSpec.
Import ListNotations.
Local Open Scope Z_scope.

Section Loops.
Variable hf : aty -> Z -> outcome bool.
Variables lo hi : Z.
(** codegen.c:1132-1140 *)
Fixpoint members_loop (offset : Z) (ms : list (Z * aty)) : outcome bool :=
  match ms with
  | [] => Ok true
  | (mo, mt) :: r =>
      do ofs <- int_of (offset + mo);
      if ofs + asize mt <=? lo then members_loop offset r
      else if hi <=? ofs then Ok true
      else do b <- hf mt ofs; if b then members_loop offset r else Ok false
  end.
End Loops.
Section Array.
Variable hf : Z -> outcome bool.
Variables lo hi size : Z.
(** codegen.c:1145-1153; [n] elements are left, [size] is the size of one. *)
Fixpoint array_loop (offset : Z) (n : nat) (i : Z) : outcome bool :=
  match n with
  | O => Ok true
  | S n' =>
      let ofs := int_conv (offset + size * i) in
      do i' <- int_of (i + 1);
      if ofs + size <=? lo then array_loop offset n' i'
      else if hi <=? ofs then Ok true
      else do x <- hf ofs; if x then array_loop offset n' i' else Ok false
  end.
End Array.
(** codegen.c:1130-1158 *)
Fixpoint has_flonum (lo hi : Z) (t : aty) (offset : Z) {struct t} : outcome bool :=
  match t with
  | ARec _ _ ms => members_loop (has_flonum lo hi) lo hi offset ms
  | AArr len b => array_loop (has_flonum lo hi b) lo hi (asize b) offset (Z.to_nat len) 0
  | AFloat | ADouble => Ok true
  | _ => Ok false
  end.
(** codegen.c:1160-1166 *)
Definition has_flonum1 (t : aty) : outcome bool := has_flonum 0 8 t 0.
Definition has_flonum2 (t : aty) : outcome bool := has_flonum 8 16 t 0.

Definition b2z (b : bool) : Z := if b then 1 else 0.
Definition GP_MAX : Z := 6.
Definition FP_MAX : Z := 8.
Record cc_state := mkcc { cc_gp : Z; cc_fp : Z; cc_stack : Z; cc_align : Z }.
(** codegen.c:1184-1210: the counters if the argument goes to registers. *)
Definition to_regs (t : aty) (s : cc_state) : outcome (option (Z * Z) * (Z * Z)) :=
  let gp := cc_gp s in
  let fp := cc_fp s in
  match t with
  | ARec size _ _ =>
      if size <=? 16 then
        do f1 <- has_flonum1 t;
        do f2 <- (if 8 <? size then has_flonum2 t else Ok false);
        let fp_inc := b2z f1 + b2z ((8 <? size) && f2) in
        let gp_inc := b2z (negb f1) + b2z ((8 <? size) && negb f2) in
        if ((fp_inc =? 0) || (fp + fp_inc <=? FP_MAX)) && ((gp_inc =? 0) || (gp + gp_inc <=? GP_MAX))
        then Ok (Some (gp + gp_inc, fp + fp_inc), (gp, fp))
        else Ok (None, (gp, fp))
      else Ok (None, (gp, fp))
  | AFloat | ADouble => Ok (if fp <? FP_MAX then Some (gp, fp + 1) else None, (gp, fp + 1))
  | ALdouble => Ok (None, (gp, fp))
  | _ => Ok (if gp <? GP_MAX then Some (gp + 1, fp) else None, (gp + 1, fp))
  end.
(** codegen.c:1175-1224, the loop: for each argument the stack offset if it is passed on the stack. *)
Fixpoint cc_loop (ts : list aty) (s : cc_state) : outcome (list (option Z) * cc_state) :=
  match ts with
  | [] => Ok ([], s)
  | t :: r =>
      if asize t =? 0 then Abort
      else
        do q <- to_regs t s;
        match fst q with
        | Some (gp, fp) =>
            do p <- cc_loop r (mkcc gp fp (cc_stack s) (cc_align s));
            Ok (None :: fst p, snd p)
        | None =>
            let '(gp, fp) := snd q in
            do st <- (if 8 <? aalign t then align_to (cc_stack s) (aalign t) else Ok (cc_stack s));
            let al := if 8 <? aalign t then Z.max (cc_align s) (aalign t) else cc_align s in
            do sz <- align_to (int_conv (asize t)) 8;
            do st' <- int_of (st + sz);
            do p <- cc_loop r (mkcc gp fp st' al);
            Ok (Some st :: fst p, snd p)
        end
  end.
(** codegen.c:1175-1224: stack offsets, final counters, stack size, stack alignment. *)
Definition calling_convention (ts : list aty) (gp fp : Z) : outcome (list (option Z) * cc_state) :=
  do p <- cc_loop ts (mkcc gp fp 0 16);
  let s := snd p in
  Ok (fst p, mkcc (Z.min (cc_gp s) GP_MAX) (Z.min (cc_fp s) FP_MAX) (cc_stack s) (cc_align s)).

(** codegen.c:78-81 *)
Definition argreg (i : nat) : outcome reg :=
  match nth_error [DI; SI; DX; CX; R8; R9] i with Some r => Ok r | None => UB end.

(** codegen.c:501-510 *)
Definition load_extend_int (unsigned : bool) (size : Z) (b : base) (ofs : Z) (r : reg) : outcome xinstr :=
  if size =? 1 then Ok (G (Movx (negb unsigned) S1 S4 (M b ofs) (R S4 r)))
  else if size =? 2 then Ok (G (Movx (negb unsigned) S2 S4 (M b ofs) (R S4 r)))
  else if size =? 4 then Ok (G (Mov (Some S4) (M b ofs) (R S4 r)))
  else if size =? 8 then Ok (G (Mov None (M b ofs) (R S8 r)))
  else Abort.

(** codegen.c:1377-1405: code and new counters. *)
Definition place_chunk (f : bool) (b : base) (ofs : Z) (gp fp : nat) : outcome (xinstr * (nat * nat)) :=
  if f then Ok (MovsdLd b ofs fp, (gp, S fp))
  else do r <- argreg gp; Ok (G (Mov None (M b ofs) (R S8 r)), (S gp, fp)).
Definition place_reg_arg (t : aty) (b : base) (ofs : Z) (gp fp : nat) : outcome (list xinstr * (nat * nat)) :=
  match t with
  | ARec size _ _ =>
      do f1 <- has_flonum1 t;
      do c1 <- place_chunk f1 b ofs gp fp;
      if 8 <? size then
        do f2 <- has_flonum2 t;
        do c2 <- place_chunk f2 b (8 + ofs) (fst (snd c1)) (snd (snd c1));
        Ok ([fst c1; fst c2], snd c2)
      else Ok ([fst c1], snd c1)
  | AFloat => Ok ([MovssLd b ofs fp], (gp, S fp))
  | ADouble => Ok ([MovsdLd b ofs fp], (gp, S fp))
  | _ =>
      do r <- argreg gp;
      do i <- load_extend_int (match t with AGp u _ => u | _ => false end) (asize t) b ofs r;
      Ok ([i], (S gp, fp))
  end.
(** codegen.c:1414-1460: the register arguments, each from its place b+ofs. *)
Fixpoint gen_reg_args (l : list (aty * option Z * (base * Z))) (gp fp : nat) : outcome (list (list xinstr)) :=
  match l with
  | [] => Ok []
  | (t, Some _, _) :: r => do c <- gen_reg_args r gp fp; Ok ([] :: c)
  | (t, None, (b, ofs)) :: r =>
      do q <- place_reg_arg t b ofs gp fp;
      do c <- gen_reg_args r (fst (snd q)) (snd (snd q));
      Ok (fst q :: c)
  end.

(** codegen.c:3995-4005 *)
Definition store_fp (x : nat) (sz ofs : Z) (b : base) : outcome (list xinstr) :=
  if sz =? 4 then Ok [MovssSt x b ofs] else if sz =? 8 then Ok [MovsdSt x b ofs] else Abort.
(** codegen.c:4024-4026 *)
Definition store_gp (i : nat) (sz ofs : Z) (b : base) : outcome (list xinstr) :=
  do r <- argreg i; store_gp2 r sz ofs b.
Definition save_chunk (f : bool) (sz : Z) (b : base) (ofs : Z) (gp fp : nat) : outcome (list xinstr * (nat * nat)) :=
  if f then do c <- store_fp fp sz ofs b; Ok (c, (gp, S fp))
  else do c <- store_gp gp sz ofs b; Ok (c, (S gp, fp)).
(** codegen.c:4130-4150, one parameter kept at b+ofs. *)
Definition save_param (t : aty) (b : base) (ofs : Z) (gp fp : nat) : outcome (list xinstr * (nat * nat)) :=
  match t with
  | ARec size _ _ =>
      if 16 <? size then Abort
      else
        do f1 <- has_flonum1 t;
        do c1 <- save_chunk f1 (Z.min 8 size) b ofs gp fp;
        if 8 <? size then
          do f2 <- has_flonum2 t;
          do o <- int_of (ofs + 8);
          do c2 <- save_chunk f2 (size - 8) b o (fst (snd c1)) (snd (snd c1));
          Ok (fst c1 ++ fst c2, snd c2)
        else Ok c1
  | AFloat | ADouble => save_chunk true (asize t) b ofs gp fp
  | _ => save_chunk false (asize t) b ofs gp fp
  end.
(** codegen.c:4124-4152 *)
Fixpoint save_params (l : list (aty * option Z * (base * Z))) (gp fp : nat) : outcome (list xinstr) :=
  match l with
  | [] => Ok []
  | (t, Some _, _) :: r => save_params r gp fp
  | (t, None, (b, ofs)) :: r =>
      do q <- save_param t b ofs gp fp;
      do c <- save_params r (fst (snd q)) (snd (snd q));
      Ok (fst q ++ c)
  end.
