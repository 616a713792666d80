(** Model of the code for floating comparisons: codegen.c 615-627 (flip_cmp), 1532-1597 (gen_cond), 1740-1743 (ND_NOT), 1893-1998
    (comparisons in gen_expr2), 2801-2863 (bool_expr_opt, gen_bool_opt). *)
From Coq Require Import ZArith List Bool.
From Verif Require Import FcmpSpec.
Import ListNotations.
Local Open Scope Z_scope.

(** Float and double use the SSE registers, long double the x87 stack. *)
Inductive fkind := Sse | X87.
Inductive operand := Lhs | Rhs.
(** Registers that matter: the x87 stack, flags zero, parity, carry, %al and %dl, and whether the jump was taken. [lr] is how the left operand
    compares with the right one. *)
Record fm := mkf { st0 : operand; st1 : operand; fz : bool; fp : bool; fc : bool; al : Z; dl : Z; jumped : bool }.
Inductive fi :=
| Ucomi (src dst : operand)       (* ucomiss/ucomisd src, dst: compares dst with src *)
| Fxch                            (* fxch %st(1) *)
| Fucomip                         (* fucomip; fstp %st(0): compares st(0) with st(1) *)
| Sete | Setne | Seta | Setae     (* to %al *)
| Setnp | Setp                    (* to %dl *)
| AndDlAl | OrDlAl
| Movzbl                          (* movzbl %al, %eax *)
| Xor1                            (* xor $1, %al *)
| TestAl | J (ne : bool).
Definition swap (r : rel) : rel := match r with Some c => Some (CompOpp c) | None => None end.
Definition compare_ (a b : operand) (lr : rel) : rel :=
  match a, b with
  | Lhs, Rhs => lr
  | Rhs, Lhs => swap lr
  | _, _ => Some Eq
  end.
(** Intel SDM, UCOMISD and FUCOMIP: zero, parity, carry. *)
Definition flags_of (r : rel) : bool * bool * bool :=
  match r with
  | None => (true, true, true)
  | Some Gt => (false, false, false)
  | Some Lt => (false, false, true)
  | Some Eq => (true, false, false)
  end.
Definition set_flags (f : bool * bool * bool) (m : fm) : fm :=
  let '(z, p, c) := f in mkf (st0 m) (st1 m) z p c (al m) (dl m) (jumped m).
Definition set_al (v : Z) (m : fm) : fm := mkf (st0 m) (st1 m) (fz m) (fp m) (fc m) v (dl m) (jumped m).
Definition set_dl (v : Z) (m : fm) : fm := mkf (st0 m) (st1 m) (fz m) (fp m) (fc m) (al m) v (jumped m).
Definition fexec (lr : rel) (i : fi) (m : fm) : fm :=
  match i with
  | Ucomi s d => set_flags (flags_of (compare_ d s lr)) m
  | Fxch => mkf (st1 m) (st0 m) (fz m) (fp m) (fc m) (al m) (dl m) (jumped m)
  | Fucomip => set_flags (flags_of (compare_ (st0 m) (st1 m) lr)) m
  | Sete => set_al (val (fz m)) m
  | Setne => set_al (val (negb (fz m))) m
  | Seta => set_al (val (negb (fc m) && negb (fz m))) m
  | Setae => set_al (val (negb (fc m))) m
  | Setnp => set_dl (val (negb (fp m))) m
  | Setp => set_dl (val (fp m)) m
  | AndDlAl => set_al (Z.land (al m) (dl m)) m
  | OrDlAl => set_al (Z.lor (al m) (dl m)) m
  | Movzbl => m
  | Xor1 => set_al (Z.lxor (al m) 1) m
  | TestAl => mkf (st0 m) (st1 m) (al m =? 0) (fp m) (fc m) (al m) (dl m) (jumped m)
  | J ne => mkf (st0 m) (st1 m) (fz m) (fp m) (fc m) (al m) (dl m) (jumped m || (if ne then negb (fz m) else fz m))
  end.
Definition frun (lr : rel) (l : list fi) (m : fm) : fm := fold_left (fun m i => fexec lr i m) l m.

(** codegen.c:1919-1945: the left operand is in another register, the right one in %xmm0; 1950-1998: pop_x87 puts the left operand on top. *)
Definition set_code (k : fcmp) : list fi :=
  match k with
  | FEq => [Sete; Setnp; AndDlAl]
  | FNe => [Setne; Setp; OrDlAl]
  | FLt | FGt => [Seta]
  | FLe | FGe => [Setae]
  end ++ [Movzbl].
Definition cmp_code (f : fkind) (k : fcmp) : list fi :=
  match f with
  | Sse => match k with FGt | FGe => [Ucomi Rhs Lhs] | _ => [Ucomi Lhs Rhs] end
  | X87 => match k with FLt | FLe => [Fxch] | _ => [] end ++ [Fucomip]
  end ++ set_code k.
(** codegen.c:615-627. *)
Definition flip_cmp (k : fcmp) (flip : bool) : fcmp :=
  if flip then match k with FEq => FNe | FNe => FEq | FLt => FGe | FLe => FGt | FGt => FLe | FGe => FLt end else k.
(** codegen.c:2801-2836: the search always ends at the comparison. *)
Fixpoint bool_expr_opt (e : fexp) (has_not : bool) : fcmp * bool :=
  match e with
  | FCmp k => (k, has_not)
  | FNot a => bool_expr_opt a (negb has_not)
  | FConv a => bool_expr_opt a has_not
  end.
(** gen_expr. Without optimisation: conversions between integer types, and to _Bool by comparing with zero, do not change 0 and 1. *)
Fixpoint gen_plain (f : fkind) (e : fexp) : list fi :=
  match e with
  | FCmp k => cmp_code f k
  | FNot a => gen_plain f a ++ [Xor1]            (* 1740-1743 *)
  | FConv a => gen_plain f a
  end.
Definition gen_expr (opt : bool) (f : fkind) (e : fexp) : list fi :=
  if opt then
    match e with
    | FCmp k => cmp_code f k                       (* boolexpr == node *)
    | _ => let '(k, flip) := bool_expr_opt e false in cmp_code f (flip_cmp k flip)   (* 2842-2848 *)
    end
  else gen_plain f e.
(** gen_cond: the comparison is not of integers (1552), so the value is computed and tested (1592-1596). *)
Definition gen_cond (opt : bool) (f : fkind) (e : fexp) (jump_cond : bool) : list fi :=
  let '(code, jc) :=
    if opt then let '(k, flip) := bool_expr_opt e false in (cmp_code f k, xorb jump_cond flip)
    else (gen_plain f e, jump_cond) in
  code ++ [TestAl; J jc].
