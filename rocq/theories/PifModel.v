(** Model of the evaluation of #if expressions (preprocess.c). *)
From Coq Require Import ZArith List Bool.
From Verif Require Import Base IntSpec IntModel NumModel PifSpec.
Import ListNotations.
Local Open Scope Z_scope.

(** The type of a model type that is an integer type. *)
Definition ityp_of (t : ty) : ityp :=
  match kd t, uns t with
  | KBool, _ => TBool | KPChar, _ => TChar
  | KChar, false => TSChar | KChar, true => TUChar
  | KShort, false => TShort | KShort, true => TUShort
  | KInt, false => TInt | KInt, true => TUInt
  | KLong, false => TLong | KLong, true => TULong
  | KLLong, false => TLLong | KLLong, true => TULLong
  end.

(** Tokens to operands: convert_pp_int (tokenize.c:490-567) for numbers, of base 10 or 8 as
    only the difference from 10 matters once the value is known; to_int_token
    (preprocess.c:320-325) for defined, identifiers and true (preprocess.c:333-361).
    Character constants have type int (C24). The parser sees ordinary tokens
    (preprocess.c:371-390, parse.c:3129-3141). *)
Fixpoint read_const_expr (p : pexp) : exp :=
  match p with
  | PLit dec u l v =>
      ENum (ityp_of (infer_type (if dec then 10 else 8) (Nat.eqb l 2) (Nat.eqb l 1) u (i64 v))) v
  | PInt v => ENum TInt v
  | PUn o a => EUn o (read_const_expr a)
  | PBin o a b => EBin o (read_const_expr a) (read_const_expr b)
  | PShl a b => EShl (read_const_expr a) (read_const_expr b)
  | PShr a b => EShr (read_const_expr a) (read_const_expr b)
  | PCmp o a b => ECmp o (read_const_expr a) (read_const_expr b)
  | PAnd a b => ELAnd (read_const_expr a) (read_const_expr b)
  | POr a b => ELOr (read_const_expr a) (read_const_expr b)
  | PCond c a b => ECond (read_const_expr c) (read_const_expr a) (read_const_expr b)
  end.

(** preprocess.c:371-390; the result is an int64_t. *)
Definition eval_const_expr (c : cfg) (p : pexp) : outcome Z :=
  do n <- elab c (read_const_expr p); eval2 c n.

(** The group after #if, preprocess.c:1296-1302, is kept when the value is not zero. *)
Definition if_active (c : cfg) (p : pexp) : outcome bool :=
  do v <- eval_const_expr c p; Ok (negb (v =? 0)).
