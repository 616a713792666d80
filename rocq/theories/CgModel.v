(** Model of code generation for integer expressions (codegen.c). Simplifications common to
    the file: integer nodes only (IntModel.node: no assignments, calls, pointers, floating
    point); operand strings are structured operands; output is a list of instructions and a
    reserved line (codegen.c:169-186) is a Nop later overwritten; label strings are a kind
    and the number from count(); stack offsets are unbounded integers; fp_depth and push_reg
    of a slot are omitted (no FP slots, no push_from); print_loc (-g) is omitted.
    Functions that return bool and emit nothing when they return false return an option. *)
From Coq Require Import ZArith List Bool.
From Verif Require Import Base IntSpec IntModel X86.
Import ListNotations.
Local Open Scope Z_scope.

(** Where an object lives (slimcc.h struct Obj: is_local, ofs, ptr, symbol) and whether
    use_rip (codegen.c:213-216) holds for a global. Thread-local objects and VLAs omitted.
    [VHere] is not an object: a variable node with this location stands for an ND_NULL_EXPR
    node, whose value has already been left in %rax. *)
Inductive vloc := VLoc (r : reg) (ofs : Z) | VGlob (s : nat) (rip : bool) | VHere.

(** Options and per-function data: [pic] = opt_fpic || opt_fpie; [reuse] = opt_reuse_stack
    && !current_fn->dont_reuse_stk; [lvar_sz] = lvar_stk_sz; [lptr] = lvar_ptr; [loc] =
    location of variables; [moff] = member offset of a bit-field's storage unit in its
    variable. *)
Record genv := mkgenv {
  gc : cfg; pic : bool; reuse : bool; lvar_sz : Z; lptr : reg;
  loc : nat -> vloc; moff : nat -> Z
}.

(** codegen.c:122-130. *)
Inductive slkind := SL_GP | SL_ST.
Record slot := mkslot { s_kind : slkind; s_gp : nat; s_st : nat; s_loc : nat }.

(** Output file, tmp_stack (top first), peak_stk_usage, count(). *)
Record gst := mkgst { out : list instr; slots : list slot; peak : Z; cnt : Z }.

Definition emit (l : list instr) (st : gst) : gst :=
  mkgst (out st ++ l) (slots st) (peak st) (cnt st).

(** codegen.c:192-195. *)
Definition count_ (st : gst) : Z * gst :=
  (cnt st, mkgst (out st) (slots st) (peak st) (cnt st + 1)).

(** codegen.c:85-86. *)
Definition tmpreg (i : nat) : reg :=
  match i with 0%nat => DI | 1%nat => SI | 2%nat => R8 | 3%nat => R9 | 4%nat => R10 | _ => R11 end.
Definition GP_SLOTS : nat := 6.

(** codegen.c:329-339, 370-372 (push). *)
Definition push (st : gst) : gst :=
  mkgst (out st ++ [Nop]) (mkslot SL_GP 0 0 (length (out st)) :: slots st) (peak st) (cnt st).

(** codegen.c:349-355 for sz = 1. *)
Definition bump (k : slkind) (g d : nat) (l : list slot) : list slot :=
  match l with
  | [] => []
  | s :: r =>
      mkslot (s_kind s)
             (Nat.max (s_gp s) (g + match k with SL_GP => 1 | SL_ST => 0 end))
             (Nat.max (s_st s) (d + match k with SL_ST => 1 | SL_GP => 0 end))
             (s_loc s) :: r
  end.

(** codegen.c:341-368 for sz = 1: the popped slot, its st_ofs and the new state. *)
Definition pop_tmpstack (G : genv) (st : gst) : outcome (slot * Z * gst) :=
  match slots st with
  | [] => Abort
  | sl :: rest =>
      let k := match s_kind sl with
               | SL_GP => if (GP_SLOTS <=? s_gp sl)%nat then SL_ST else SL_GP
               | SL_ST => SL_ST
               end in
      let rest' := bump k (s_gp sl) (s_st sl) rest in
      let sl' := mkslot k (s_gp sl) (s_st sl) (s_loc sl) in
      match k with
      | SL_GP => Ok (sl', 0, mkgst (out st) rest' (peak st) (cnt st))
      | SL_ST =>
          if reuse G then
            let bottom := lvar_sz G + (Z.of_nat (s_st sl) + 1) * 8 in
            Ok (sl', - bottom, mkgst (out st) rest' (Z.max (peak st) bottom) (cnt st))
          else
            let p := peak st + 8 in
            Ok (sl', - p, mkgst (out st) rest' p (cnt st))
      end
  end.

Definition gsize (r64 : bool) : size := if r64 then S8 else S4.

(** insrtln, codegen.c:176-186. *)
Definition insrtln (st : gst) (at_ : nat) (i : instr) : gst :=
  mkgst (upd (out st) at_ i) (slots st) (peak st) (cnt st).

(** codegen.c:374-398; the result is the register holding the popped value. [src] is the
    register saved by the matching push or push_from (push_reg of the slot). *)
Definition pop_from (G : genv) (src : reg) (r64 : bool) (dest : reg) (must : bool) (st : gst)
  : outcome (reg * gst) :=
  do p <- pop_tmpstack G st;
  let '(sl, ofs, st1) := p in
  let s := gsize r64 in
  match s_kind sl with
  | SL_GP =>
      let pr := tmpreg (s_gp sl) in
      let st2 := insrtln st1 (s_loc sl) (Mov None (R s src) (R s pr)) in
      if must then Ok (dest, emit [Mov None (R s pr) (R s dest)] st2)
      else Ok (pr, st2)
  | SL_ST =>
      let st2 := insrtln st1 (s_loc sl) (Mov None (R s src) (M (BReg (lptr G)) ofs)) in
      Ok (dest, emit [Mov None (M (BReg (lptr G)) ofs) (R s dest)] st2)
  end.
Definition pop_gp (G : genv) : bool -> reg -> bool -> gst -> outcome (reg * gst) := pop_from G AX.

(** codegen.c:527-555: reg_dx, reg_ax, regop_ax. internal_error is Abort. *)
Definition size_of (n : Z) : outcome size :=
  if n =? 1 then Ok S1 else if n =? 2 then Ok S2 else if n =? 4 then Ok S4
  else if n =? 8 then Ok S8 else Abort.
Definition opsize_of (n : Z) : outcome size :=
  do s <- size_of n; Ok (match s with S8 => S8 | _ => S4 end).

(** codegen.c:501-510 load_extend_int. *)
Definition load_extend_int (t : ty) (b : base) (o : Z) (s : size) (r : reg) : outcome (list instr) :=
  do n <- size_of (sz t);
  Ok (match n with
      | S1 => [Movx (negb (uns t)) S1 S4 (M b o) (R s r)]
      | S2 => [Movx (negb (uns t)) S2 S4 (M b o) (R s r)]
      | S4 => [Mov (Some S4) (M b o) (R s r)]
      | S8 => [Mov None (M b o) (R s r)]
      end).

(** codegen.c:512-519. *)
Definition load_extend_int64 (t : ty) (b : base) (o : Z) (r : reg) : outcome (list instr) :=
  do n <- size_of (sz t);
  match n with
  | S4 => Ok [Movx true S4 S8 (M b o) (R S8 r)]
  | S2 => Ok [Movx true S2 S8 (M b o) (R S8 r)]
  | S1 => Ok [Movx true S1 S8 (M b o) (R S8 r)]
  | S8 => Abort
  end.

(** codegen.c:787-806, integer types. *)
Definition load3 (t : ty) (b : base) (o : Z) : outcome (list instr) :=
  do s <- opsize_of (sz t); load_extend_int t b o s AX.

(** codegen.c:282-290. *)
Definition bitwidth_to_ty (w : Z) (u : bool) : option ty :=
  if w =? 64 then Some (if u then ty_ullong else ty_llong)
  else if w =? 32 then Some (if u then ty_uint else ty_int)
  else if w =? 16 then Some (if u then ty_ushort else ty_short)
  else if w =? 8 then Some (if u then ty_uchar else ty_char)
  else None.

(** codegen.c:646-661. *)
Definition gen_bitfield_load (t : ty) (w off ofs : Z) : outcome (list instr) :=
  let plain :=
    do l <- load3 t (BReg AX) ofs;
    do s <- opsize_of (sz t);
    let shft := (if sz t =? 8 then 64 else 32) - w in
    Ok (l ++ (if shft - off =? 0 then [] else [Sh XShl (CImm (shft - off)) (R s AX)])
          ++ [Sh (if uns t then XShr else XSar) (CImm shft) (R s AX)]) in
  match bitwidth_to_ty w (uns t) with
  | Some alt => if off =? off / 8 * 8 then load3 alt (BReg AX) (ofs + off / 8) else plain
  | None => plain
  end.

(** codegen.c:209-211. *)
Definition in_imm_range (v : Z) : bool := v =? sext 32 v.

(** codegen.c:298-305. *)
Definition limit_imm (v n : Z) : Z :=
  if n =? 4 then sext 32 v else if n =? 2 then sext 16 v else if n =? 1 then sext 8 v else v.

(** codegen.c:205-207, on uint64_t. *)
Definition is_pow_of_two (v : Z) : bool := Z.land (u64 v) (u64 (u64 v - 1)) =? 0.

(** codegen.c:871-892 load_val. [t] supplies ty->size. *)
Definition load_val (t : ty) (v : Z) : list instr :=
  if v =? 0 then [Alu AXor None (R S4 AX) (R S4 AX)]
  else if v =? trunc 32 v then [Mov (Some S4) (I v) (R S4 AX)]
  else if v =? sext 32 v then
    (if sz t =? 8 then [Mov (Some S8) (I v) (R S8 AX)] else [Mov (Some S4) (I v) (R S4 AX)])
  else [Mov (Some S8) (I v) (R S8 AX)].

(** codegen.c:2386-2401 for the two-operand instructions; shifts go through [sh_ins]. *)
Definition arith_ins (o : binop) : outcome alu :=
  match o with
  | BAdd => Ok AAdd | BSub => Ok ASub | BMul => Ok AImul | BAnd => Ok AAnd
  | BOr => Ok AOr | BXor => Ok AXor | BDiv | BMod => Abort
  end.

(** codegen.c:2403-2411; [s] is the size of the registers op and tmp. *)
Definition imm_arith2 (i : alu) (s : size) (op tmp : reg) (v : Z) : list instr :=
  if in_imm_range v then [Alu i None (I v) (R s op)]
  else [Mov None (I v) (R s tmp); Alu i None (R s tmp) (R s op)].

(** codegen.c:2413-2437. *)
Definition imm_add (s : size) (op tmp : reg) (v : Z) : list instr :=
  if v =? 0 then [] else if v =? 1 then [Un XInc (R s op)]
  else if v =? -1 then [Un XDec (R s op)] else imm_arith2 AAdd s op tmp v.
Definition imm_sub (s : size) (op tmp : reg) (v : Z) : list instr :=
  if v =? 0 then [] else if v =? 1 then [Un XDec (R s op)]
  else if v =? -1 then [Un XInc (R s op)] else imm_arith2 ASub s op tmp v.
Definition imm_and (s : size) (op tmp : reg) (v : Z) : list instr :=
  if v =? 0 then [Alu AXor None (R s op) (R s op)]
  else if v =? -1 then [] else imm_arith2 AAnd s op tmp v.

(** codegen.c:2439-2450; [ts] is the size of the register tmp. *)
Definition imm_cmp (s ts : size) (op tmp : reg) (v : Z) : list instr :=
  if v =? 0 then [Alu ATest None (R s op) (R s op)]
  else if in_imm_range v then [Alu ACmp None (I v) (R s op)]
  else [Mov None (I v) (R ts tmp); Alu ACmp None (R ts tmp) (R s op)].

(** codegen.c:2221-2232 with instruction cmp. *)
Definition imm_tmpl_cmp (s : size) (b : base) (o : Z) (v : Z) : list instr :=
  if v =? sext 32 v then [Alu ACmp (Some s) (I v) (M b o)]
  else (if v =? trunc 32 v then [Mov (Some S4) (I v) (R S4 DX)]
        else [Mov (Some S8) (I v) (R S8 DX)])
       ++ [Alu ACmp (Some s) (R S8 DX) (M b o)].

(** 1LL << i == v for some 1 <= i < n, codegen.c:2495-2500, 2542-2548. *)
Fixpoint find_pow (k : nat) (i : Z) (n v : Z) : option Z :=
  match k with
  | O => None
  | S k' => if i <? n then (if i64 (2 ^ i) =? v then Some i else find_pow k' (i + 1) n v)
            else None
  end.

(** codegen.c:2452-2505 for ADD, SUB, MUL, AND, OR, XOR. [n] is sz. *)
Definition imm_arith (o : binop) (n : Z) (v : Z) : outcome (list instr) :=
  do s <- size_of n;
  do i <- arith_ins o;
  match o with
  | BAdd => Ok (imm_add s AX DX v)
  | BSub => Ok (imm_sub s AX DX v)
  | BAnd => Ok (imm_and s AX DX v)
  | _ =>
      if v =? 0 then
        match o with
        | BMul => Ok [Alu AXor None (R S4 AX) (R S4 AX)]
        | _ => Ok []
        end
      else if (v =? 1) && match o with BMul => true | _ => false end then Ok []
      else if v =? -1 then
        match o with
        | BMul => Ok [Un XNeg (R s AX)]
        | BOr => Ok [Mov None (I (-1)) (R s AX)]
        | _ => Ok [Un XNot (R s AX)]
        end
      else
        match o with
        | BMul =>
            match (if is_pow_of_two v then find_pow 64 1 (n * 8) v else None) with
            | Some k => Ok [Sh XShl (CImm k) (R s AX)]
            | None => Ok (imm_arith2 i s AX DX v)
            end
        | _ => Ok (imm_arith2 i s AX DX v)
        end
  end.

(** codegen.c:2452-2505 for shifts: v = 0 emits nothing, otherwise imm_arith2; a count
    outside the immediate range is an undefined shift and would need a 64-bit move followed
    by an instruction that does not exist (Abort). *)
Definition imm_shift (o : xsh) (n : Z) (v : Z) : outcome (list instr) :=
  do s <- size_of n;
  if v =? 0 then Ok []
  else if in_imm_range v then Ok [Sh o (CImm v) (R s AX)] else Abort.

(** codegen.c:629-644. *)
Definition cmp_cc (o : cmpop) (u : bool) : cc :=
  match o with
  | CEq => CcE | CNe => CcNE
  | CLt => if u then CcB else CcL | CLe => if u then CcBE else CcLE
  | CGt => if u then CcA else CcG | CGe => if u then CcAE else CcGE
  end.
Definition gen_cmp_setcc (o : cmpop) (u : bool) : list instr :=
  [Set_ (cmp_cc o u) (R S1 AX); Movx false S1 S4 (R S1 AX) (R S4 AX)].

(** codegen.c:615-627. *)
Definition flip_cmp (o : cmpop) (flip : bool) : cmpop :=
  if flip then
    match o with CEq => CNe | CNe => CEq | CLt => CGe | CLe => CGt | CGt => CLe | CGe => CLt end
  else o.

(** codegen.c:979-1001. *)
Inductive tid := I8 | I16 | I32 | I64 | U8 | U16 | U32 | U64.
Definition getTypeId (t : ty) : tid :=
  match kd t with
  | KPChar | KChar => if uns t then U8 else I8
  | KShort => if uns t then U16 else I16
  | KInt => if uns t then U32 else I32
  | KLong | KLLong => if uns t then U64 else I64
  | KBool => U64
  end.

(** codegen.c:1004-1015, 1085-1100: integer rows and columns. *)
Definition i32i8 := [Movx true S1 S4 (R S1 AX) (R S4 AX)].
Definition i32u8 := [Movx false S1 S4 (R S1 AX) (R S4 AX)].
Definition i32i16 := [Movx true S2 S4 (R S2 AX) (R S4 AX)].
Definition i32u16 := [Movx false S2 S4 (R S2 AX) (R S4 AX)].
Definition i32i64 := [Movx true S4 S8 (R S4 AX) (R S8 AX)].
Definition u32i64 := [Mov None (R S4 AX) (R S4 AX)].
Definition cast_table (a b : tid) : list instr :=
  match a, b with
  | I8, (I8 | I16 | I32 | U32) => []
  | I8, (I64 | U64) => i32i64
  | I8, U8 => i32u8
  | I8, U16 => i32u16
  | I16, I8 => i32i8
  | I16, (I16 | I32 | U32) => []
  | I16, (I64 | U64) => i32i64
  | I16, U8 => i32u8
  | I16, U16 => i32u16
  | I32, I8 => i32i8
  | I32, I16 => i32i16
  | I32, (I32 | U32) => []
  | I32, (I64 | U64) => i32i64
  | I32, U8 => i32u8
  | I32, U16 => i32u16
  | I64, I8 => i32i8
  | I64, I16 => i32i16
  | I64, (I32 | U32 | I64 | U64) => []
  | I64, U8 => i32u8
  | I64, U16 => i32u16
  | U8, I8 => i32i8
  | U8, (I16 | I32 | U8 | U16 | U32) => []
  | U8, (I64 | U64) => i32i64
  | U16, I8 => i32i8
  | U16, I16 => i32i16
  | U16, (I32 | U16 | U32) => []
  | U16, (I64 | U64) => i32i64
  | U16, U8 => i32u8
  | U32, I8 => i32i8
  | U32, I16 => i32i16
  | U32, (I32 | U32) => []
  | U32, (I64 | U64) => u32i64
  | U32, U8 => i32u8
  | U32, U16 => i32u16
  | U64, I8 => i32i8
  | U64, I16 => i32i16
  | U64, (I32 | U32 | I64 | U64) => []
  | U64, U8 => i32u8
  | U64, U16 => i32u16
  end.

(** codegen.c:218-224. *)
Fixpoint skip_gp_cast (n : node) : node :=
  match n with
  | NCast t a => if (sz t =? sz (nty a)) && negb (is_bool t) then skip_gp_cast a else n
  | _ => n
  end.

(** codegen.c:226-245 on a variable, with an extra offset (member). *)
Definition var_memop (G : genv) (x : nat) (extra : Z) : option (base * Z) :=
  match loc G x with
  | VLoc r o => Some (BReg r, extra + o)
  | VGlob s rip => if rip then Some (BSym s, extra) else None
  | VHere => None
  end.

(** codegen.c:261-267. *)
Definition is_memop (G : genv) (n : node) : option (base * Z) :=
  match skip_gp_cast n with
  | NVar _ x => var_memop G x 0
  | _ => None
  end.

(** codegen.c:712-758 (ND_VAR) without thread-local variables and VLAs. *)
Definition gen_addr_var (G : genv) (x : nat) : list instr :=
  match loc G x with
  | VLoc r o => [Lea (BReg r) o (R S8 AX)]
  | VGlob s rip =>
      if negb (pic G) then [MovSym s (R S4 AX)]
      else if rip then [Lea (BSym s) 0 (R S8 AX)]
      else [LeaGot s (R S8 AX)]
  | VHere => []
  end.

(** codegen.c:708-711, 961-971 and 712-758: gen_addr on a variable. *)
Definition gen_addr (G : genv) (x : nat) : list instr :=
  match (if opt (gc G) then var_memop G x 0 else None) with
  | Some (b, o) => [Lea b o (R S8 AX)]
  | None => gen_addr_var G x
  end.

(** codegen.c:274-276. *)
Definition int_cast_arg (n : node) : option (ty * node) :=
  match n with NCast t a => Some (t, a) | _ => None end.

(** codegen.c:2723-2758 with r = REG_AX; the pointer case cannot occur. *)
Definition gen_load_opt_gp (G : genv) (n : node) : outcome (option (list instr)) :=
  match n with
  | NCast t a =>
      match is_memop G a with
      | Some (b, o) =>
          let ta := nty a in
          if sz ta <? sz t then
            if negb (uns ta) && (sz t =? 8) then
              do l <- load_extend_int64 ta b o AX; Ok (Some l)
            else if negb ((sz t =? 2) && uns t && negb (uns ta)) then
              do l <- load_extend_int ta b o S4 AX; Ok (Some l)
            else Ok None
          else if negb (is_bool t) then
            do l <- load_extend_int t b o (if sz t =? 8 then S8 else S4) AX; Ok (Some l)
          else Ok None
      | None => Ok None
      end
  | _ => Ok None
  end.

(** codegen.c:2801-2836. [bx] = boolexpr and boolexpr_has_not. *)
Fixpoint bool_expr_opt2 (n : node) (has_not : bool) (bx : option (node * bool))
  : option (node * bool) :=
  match n with
  | NNot a => bool_expr_opt2 a (negb has_not) bx
  | NCmp _ _ _ | NLogAnd _ _ | NLogOr _ _ => Some (n, has_not)
  | NCast t a =>
      bool_expr_opt2 a has_not (if is_bool t then Some (n, has_not) else bx)
  | _ => if is_bool (nty n) then Some (n, has_not) else bx
  end.
Definition bool_expr_opt (n : node) : option (node * bool) := bool_expr_opt2 n false None.

Definition is_cast (n : node) : bool := match n with NCast _ _ => true | _ => false end.
Definition is_not (n : node) : bool := match n with NNot _ => true | _ => false end.

(** is_const_expr, parse.c:3103-3114: None when the node is not constant. *)
Definition const_of (G : genv) (n : node) : outcome (option Z) :=
  match eval2 (gc G) n with Ok v => Ok (Some v) | Abort => Ok None | UB => UB end.

(** What is generated for a node: its value in %rax, nothing but its effects, or a jump to
    a label when its value is [jc]. *)
Inductive mode := MExpr | MVoid | MCond (jc : bool) (l : label).

Section Gen.
  Variable G : genv.
  (** gen_expr, gen_void_expr and gen_cond on other nodes. *)
  Variable rec : mode -> node -> gst -> outcome gst.

  Definition seq (l : outcome (list instr)) (st : gst) : outcome gst :=
    do c <- l; Ok (emit c st).

  (** codegen.c:958-963. *)
  Definition gen_cmp_zero (n : node) (o : cmpop) (st : gst) : outcome gst :=
    do p <- usual_arith_conv (gc G) n (NNum (nty n) 0);
    rec MExpr (NCmp o (fst p) (snd p)) st.

  (** codegen.c:1102-1116. *)
  Definition gen_cast (t : ty) (a : node) (st : gst) : outcome gst :=
    if is_bool t then gen_cmp_zero a CNe st
    else
      do st1 <- rec MExpr a st;
      Ok (emit (cast_table (getTypeId (nty a)) (getTypeId t)) st1).

  (** codegen.c:1599-1617. *)
  Definition gen_logical (is_or : bool) (a b : node) (flip : bool) (st : gst) : outcome gst :=
    let '(c, st) := count_ st in
    do st1 <- rec (MCond is_or (LShort, c)) a st;
    do st2 <- rec (MCond is_or (LShort, c)) b st1;
    let zero := Alu AXor None (R S4 AX) (R S4 AX) in
    let one := Mov (Some S4) (I 1) (R S4 AX) in
    let sc := xorb is_or flip in
    Ok (emit [ (if sc then zero else one); Jmp (LFall, c); Lab (LShort, c);
               (if sc then one else zero); Lab (LFall, c) ] st2).

  (** codegen.c:2570-2591. *)
  Definition gen_cmp_opt_gp2 (l r : node) (st : gst) : outcome (option gst) :=
    do k <- const_of G r;
    match k with
    | Some v =>
        match is_memop G l with
        | Some (b, o) =>
            Ok (Some (emit (imm_tmpl_cmp (if sz (nty l) =? 8 then S8 else S4) b o
                              (limit_imm v (sz (nty l)))) st))
        | None =>
            do st1 <- rec MExpr l st;
            do s <- opsize_of (sz (nty l));
            Ok (Some (emit (imm_cmp s S8 AX DX (limit_imm v (sz (nty l)))) st1))
        end
    | None =>
        match is_memop G l with
        | Some (b, o) =>
            do st1 <- rec MExpr r st;
            do s <- opsize_of (sz (nty l));
            Ok (Some (emit [Alu ACmp None (R s AX) (M b o)] st1))
        | None => Ok None
        end
    end.

  (** codegen.c:2597-2602. *)
  Definition swap_cmp (o : cmpop) : cmpop :=
    match o with CLt => CGt | CLe => CGe | CGt => CLt | CGe => CLe | _ => o end.

  (** codegen.c:2593-2606. *)
  Definition gen_cmp_opt_gp (o : cmpop) (a b : node) (st : gst) : outcome (option (cmpop * gst)) :=
    do r <- gen_cmp_opt_gp2 a b st;
    match r with
    | Some st1 => Ok (Some (o, st1))
    | None =>
        do r2 <- gen_cmp_opt_gp2 b a st;
        match r2 with
        | Some st1 => Ok (Some (swap_cmp o, st1))
        | None => Ok None
        end
    end.

  (** Evaluate both operands of a comparison and compare: codegen.c:1551-1557 and
      2003-2009, 2054. *)
  Definition gen_cmp_plain (a b : node) (st : gst) : outcome gst :=
    do st1 <- rec MExpr a st;
    do st2 <- rec MExpr b (push st1);
    let r64 := sz (nty a) =? 8 in
    do p <- pop_gp G r64 DI false st2;
    do s <- opsize_of (sz (nty a));
    Ok (emit [Alu ACmp None (R s AX) (R (gsize r64) (fst p))] (snd p)).

  (** codegen.c:1532-1597. *)
  Definition gen_cond_tail (n : node) (jc : bool) (l : label) (st : gst) : outcome gst :=
    do st1 <- rec MExpr n st;
    Ok (emit [Alu ATest None (R S1 AX) (R S1 AX); Jcc (if jc then CcNE else CcE) l] st1).

  Definition gen_cond (n0 : node) (jc0 : bool) (l : label) (st : gst) : outcome gst :=
    if opt (gc G) then
      let '(n, jc) := match bool_expr_opt n0 with
                      | Some (e, flip) => (e, xorb jc0 flip)
                      | None => (n0, jc0)
                      end in
      do k <- const_of G n;
      match k with
      | Some v => Ok (if v =? z_of_bool jc then emit [Jmp l] st else st)
      | None =>
          match n with
          | NCmp o a b =>
              do r <- gen_cmp_opt_gp o a b st;
              do q <- match r with
                      | Some p => Ok p
                      | None => do st1 <- gen_cmp_plain a b st; Ok (o, st1)
                      end;
              let '(o', st1) := q in
              Ok (emit [Jcc (cmp_cc (flip_cmp o' (negb jc)) (uns (nty a))) l] st1)
          | NLogAnd a b | NLogOr a b =>
              let sc := match n with NLogOr _ _ => true | _ => false end in
              if Bool.eqb sc jc then
                do st1 <- rec (MCond jc l) a st; rec (MCond jc l) b st1
              else
                let '(c, st) := count_ st in
                do st1 <- rec (MCond sc (LShort, c)) a st;
                do st2 <- rec (MCond sc (LShort, c)) b st1;
                Ok (emit [Jmp l; Lab (LShort, c)] st2)
          | NCast t a =>
              if is_bool t then
                do p <- usual_arith_conv (gc G) a (NNum (nty a) 0);
                rec (MCond jc l) (NCmp CNe (fst p) (snd p)) st
              else gen_cond_tail n jc l st
          | _ => gen_cond_tail n jc l st
          end
      end
    else gen_cond_tail n0 jc0 l st.

  (** codegen.c:2838-2863. *)
  Definition gen_bool_opt (n : node) (st : gst) : outcome (option gst) :=
    match bool_expr_opt n with
    | None => Ok None
    | Some (e, flip) =>
        (* boolexpr == node: pointer equality; the search returned the node it started at *)
        if negb (is_not n) && (negb (is_cast n) ||
             match n with NCast t a => is_bool t &&
               match bool_expr_opt2 a false None with None => true | Some _ => false end
             | _ => false end)
        then Ok None
        else
          match e with
          | NCmp o a b => do r <- rec MExpr (NCmp (flip_cmp o flip) a b) st; Ok (Some r)
          | NLogAnd a b => do r <- gen_logical false a b flip st; Ok (Some r)
          | NLogOr a b => do r <- gen_logical true a b flip st; Ok (Some r)
          | _ =>
              match e with
              | NCast t a =>
                  if is_bool t then
                    do r <- gen_cmp_zero a (if flip then CEq else CNe) st; Ok (Some r)
                  else
                    do r <- rec MExpr e st;
                    Ok (Some (if flip then emit [Alu AXor None (I 1) (R S1 AX)] r else r))
              | _ =>
                  do r <- rec MExpr e st;
                  Ok (Some (if flip then emit [Alu AXor None (I 1) (R S1 AX)] r else r))
              end
          end
    end.

  (** codegen.c:2507-2568. *)
  Definition divmod_opt (is_div : bool) (t : ty) (e : node) (v : Z) (st : gst)
    : outcome (option gst) :=
    do s <- size_of (sz t);
    let zero := Alu AXor None (R S4 AX) (R S4 AX) in
    let after (l : list instr) := do st1 <- rec MExpr e st; Ok (Some (emit l st1)) in
    if v =? 1 then after (if is_div then [] else [zero])
    else if v =? -1 then
      if negb (uns t) then after (if is_div then [Un XNeg (R s AX)] else [zero])
      else if is_div then
        after (Alu ACmp None (I (-1)) (R s AX) :: gen_cmp_setcc CEq false)
      else
        after [Alu AXor None (R S4 DX) (R S4 DX); Alu ACmp None (I (-1)) (R s AX);
               Cmov CcE (R s DX) (R s AX)]
    else
      match (if is_div && is_pow_of_two v && uns t then find_pow 64 1 (sz t * 8) v else None) with
      | Some k => after [Sh XShr (CImm k) (R s AX)]
      | None =>
          if negb is_div && is_pow_of_two v && uns t && negb (v =? 0) then
            let msk := u64 (v - 1) in
            if msk =? two32 - 1 then after [Mov (Some S4) (R S4 AX) (R S4 AX)]
            else if msk <=? INT_MAX then after [Alu AAnd None (I msk) (R S4 AX)]
            else after (imm_and s AX DX (i64 msk))
          else Ok None
      end.

  (** codegen.c:2608-2652. *)
  Definition gen_arith_opt_gp2 (o : binop) (n : Z) (l r : node) (pass : nat) (st : gst)
    : outcome (option gst) :=
    do s <- size_of n;
    do i <- arith_ins o;
    let after (c : outcome (list instr)) :=
      do st1 <- rec MExpr l st; do x <- c; Ok (Some (emit x st1)) in
    match pass with
    | 0%nat =>
        do k <- const_of G r;
        match k with
        | Some v => after (imm_arith o n (limit_imm v n))
        | None => Ok None
        end
    | 1%nat =>
        match is_memop G r with
        | Some (b, ofs) => after (Ok [Alu i None (M b ofs) (R s AX)])
        | None => Ok None
        end
    | 2%nat =>
        match r with
        | NCast _ ra =>
            match is_memop G ra with
            | Some (b, ofs) =>
                if n <=? sz (nty ra) then after (Ok [Alu i None (M b ofs) (R s AX)])
                else Ok None
            | None => Ok None
            end
        | _ => Ok None
        end
    | _ =>
        match r with
        | NCast _ ra =>
            match is_memop G ra with
            | Some (b, ofs) =>
                if sz (nty ra) <? n then
                  after (do c <- (if negb (uns (nty ra)) && (n =? 8)
                                  then load_extend_int64 (nty ra) b ofs DX
                                  else load_extend_int (nty ra) b ofs S4 DX);
                         Ok (c ++ [Alu i None (R s DX) (R s AX)]))
                else Ok None
            | None => Ok None
            end
        | _ => Ok None
        end
    end.

  Definition orelse (a b : outcome (option gst)) : outcome (option gst) :=
    do r <- a; match r with Some st => Ok (Some st) | None => b end.

  (** codegen.c:2654-2672. *)
  Definition gen_arith_opt_gp (nd : node) (n : Z) (st : gst) : outcome (option gst) :=
    match nd with
    | NBin o _ a b =>
        let both p := orelse (gen_arith_opt_gp2 o n a b p st) (gen_arith_opt_gp2 o n b a p st) in
        let one p := gen_arith_opt_gp2 o n a b p st in
        match o with
        | BAdd | BMul | BAnd | BOr | BXor =>
            orelse (both 0%nat) (orelse (both 1%nat) (orelse (both 2%nat) (both 3%nat)))
        | BSub => orelse (one 0%nat) (orelse (one 1%nat) (orelse (one 2%nat) (one 3%nat)))
        | BDiv | BMod => Ok None
        end
    | _ => Ok None
    end.

  (** codegen.c:2674-2692. *)
  Definition gen_shift_opt_gp (o : xsh) (t : ty) (a b : node) (st : gst) : outcome (option gst) :=
    do s <- size_of (sz t);
    do k <- const_of G b;
    match k with
    | Some v => do st1 <- rec MExpr a st; do c <- imm_shift o (sz t) v; Ok (Some (emit c st1))
    | None =>
        match is_memop G b with
        | Some (bs, ofs) =>
            do st1 <- rec MExpr a st;
            Ok (Some (emit [Mov (Some S1) (M bs ofs) (R S1 CX); Sh o CCl (R s AX)] st1))
        | None => Ok None
        end
    end.

  (** codegen.c:2694-2721. *)
  Definition gen_gp_opt (n : node) (st : gst) : outcome (option gst) :=
    match n with
    | NShl t a b => gen_shift_opt_gp XShl t a b st
    | NShr t a b => gen_shift_opt_gp XShr t a b st
    | NSar t a b => gen_shift_opt_gp XSar t a b st
    | NBin BDiv t a b =>
        do k <- const_of G b;
        match k with Some v => divmod_opt true t a v st | None => Ok None end
    | NBin BMod t a b =>
        do k <- const_of G b;
        match k with Some v => divmod_opt false t a v st | None => Ok None end
    | NCmp o a b =>
        do r <- gen_cmp_opt_gp o a b st;
        match r with
        | Some (o', st1) => Ok (Some (emit (gen_cmp_setcc o' (uns (nty a))) st1))
        | None => Ok None
        end
    | _ => gen_arith_opt_gp n (sz (nty n)) st
    end.

  (** codegen.c:2865-2959. *)
  Definition gen_expr_opt (n : node) (st : gst) : outcome (option gst) :=
    do k <- const_of G n;
    match k with
    | Some v => Ok (Some (emit (load_val (nty n) v) st))
    | None =>
        do l <- gen_load_opt_gp G n;
        match l with
        | Some c => Ok (Some (emit c st))
        | None =>
            match is_memop G n with
            | Some (b, o) => do c <- load3 (nty n) b o; Ok (Some (emit c st))
            | None =>
                orelse (gen_bool_opt n st)
                (orelse (gen_gp_opt n st)
                (orelse
                  (match n with
                   | NCast t a => if (sz t =? 4) && (sz (nty a) =? 8)
                                  then gen_arith_opt_gp a (sz t) st else Ok None
                   | _ => Ok None
                   end)
                 (match n with
                  | NCond _ c a b =>
                      do q <- const_of G c;
                      match q with
                      | Some v => do r <- rec MExpr (if v =? 0 then b else a) st; Ok (Some r)
                      | None => Ok None
                      end
                  | NBit t w off x =>
                      match var_memop G x (moff G x) with
                      | Some (b, o) =>
                          do c <- gen_bitfield_load t w off 0;
                          Ok (Some (emit (Lea b o (R S8 AX) :: c) st))
                      | None =>
                          do c <- gen_bitfield_load t w off (moff G x);
                          Ok (Some (emit (gen_addr G x ++ c) st))
                      end
                  | _ => Ok None
                  end)))
            end
        end
    end.

  (** codegen.c:2003-2057, integer binary operators. *)
  Definition gen_binary (o : binop) (t : ty) (a b : node) (st : gst) : outcome gst :=
    do st1 <- rec MExpr a st;
    do st2 <- rec MExpr b (push st1);
    let r64 := sz (nty a) =? 8 in
    let s := gsize r64 in
    do p <- pop_gp G r64 DI false st2;
    let '(r, st3) := p in
    let op := R s r in
    let ax := R s AX in
    let divide :=
      Xchg op ax ::
      (if uns t then [Alu AXor None (R S4 DX) (R S4 DX); Div false op]
       else [(if sz (nty a) =? 8 then Cqo else Cdq); Div true op]) in
    Ok (emit
         (match o with
          | BAdd => [Alu AAdd None op ax]
          | BSub => [Alu ASub None ax op; Mov None op ax]
          | BMul => [Alu AImul None op ax]
          | BDiv => divide
          | BMod => divide ++ [Mov None (R S8 DX) (R S8 AX)]
          | BAnd => [Alu AAnd None op ax]
          | BOr => [Alu AOr None op ax]
          | BXor => [Alu AXor None op ax]
          end) st3).

  (** codegen.c:1752-1768. *)
  Definition gen_shift (o : xsh) (t : ty) (a b : node) (st : gst) : outcome gst :=
    do st1 <- rec MExpr a st;
    do st2 <- rec MExpr b (push st1);
    let st3 := emit [Mov None (R S1 AX) (R S1 CX)] st2 in
    do s <- opsize_of (sz t);
    do p <- pop_gp G (sz t =? 8) AX true st3;
    Ok (emit [Sh o CCl (R s AX)] (snd p)).

  (** codegen.c:1627-2060. *)
  Definition gen_expr_plain (n : node) (st : gst) : outcome gst :=
    match n with
    | NNum t v => Ok (emit (load_val t v) st)
    | NPos _ a => rec MExpr a st
    | NNeg _ a =>
        do st1 <- rec MExpr a st;
        do s <- opsize_of (sz (nty a)); Ok (emit [Un XNeg (R s AX)] st1)
    | NVar t x =>
        match loc G x with
        | VHere => Ok st
        | _ => do c <- load3 t (BReg AX) 0; Ok (emit (gen_addr G x ++ c) st)
        end
    | NBit t w off x =>
        do c <- gen_bitfield_load t w off 0;
        Ok (emit (gen_addr G x ++ imm_add S8 AX DX (moff G x) ++ c) st)
    | NComma _ a b => do st1 <- rec MVoid a st; rec MExpr b st1
    | NCast t a => gen_cast t a st
    | NCond _ k a b =>
        let '(c, st) := count_ st in
        do st1 <- rec (MCond false (LElse, c)) k st;
        do st2 <- rec MExpr a st1;
        do st3 <- rec MExpr b (emit [Jmp (LEnd, c); Lab (LElse, c)] st2);
        Ok (emit [Lab (LEnd, c)] st3)
    | NNot a =>
        do st1 <- rec MExpr a st; Ok (emit [Alu AXor None (I 1) (R S1 AX)] st1)
    | NBitNot _ a =>
        do st1 <- rec MExpr a st; Ok (emit [Un XNot (R S8 AX)] st1)
    | NLogAnd a b => gen_logical false a b false st
    | NLogOr a b => gen_logical true a b false st
    | NShl t a b => gen_shift XShl t a b st
    | NShr t a b => gen_shift XShr t a b st
    | NSar t a b => gen_shift XSar t a b st
    | NBin o t a b => gen_binary o t a b st
    | NCmp o a b =>
        do st1 <- gen_cmp_plain a b st;
        Ok (emit (gen_cmp_setcc o (uns (nty a))) st1)
    end.

  (** codegen.c:1620-1625. *)
  Definition gen_expr2 (n : node) (st : gst) : outcome gst :=
    if opt (gc G) then
      do r <- gen_expr_opt n st;
      match r with Some st1 => Ok st1 | None => gen_expr_plain n st end
    else gen_expr_plain n st.

  (** codegen.c:2336-2384. *)
  Definition gen_void_expr (n : node) (st : gst) : outcome gst :=
    match n with
    | NVar _ _ | NNum _ _ | NBit _ _ _ _ => Ok st
    | NPos _ a | NNeg _ a | NNot a | NBitNot _ a | NCast _ a => rec MVoid a st
    | NBin _ _ a b | NShl _ a b | NShr _ a b | NSar _ a b | NCmp _ a b | NComma _ a b =>
        do st1 <- rec MVoid a st; rec MVoid b st1
    | NLogAnd _ _ | NLogOr _ _ | NCond _ _ _ _ => gen_expr2 n st
    end.
End Gen.

(** The mutually recursive generator, by fuel (Abort when it runs out). *)
Fixpoint gen (G : genv) (f : nat) (md : mode) (n : node) (st : gst) : outcome gst :=
  match f with
  | O => Abort
  | S f' =>
      match md with
      | MExpr => gen_expr2 G (gen G f') n st
      | MVoid => gen_void_expr G (gen G f') n st
      | MCond jc l => gen_cond G (gen G f') n jc l st
      end
  end.
