(** Model of the code of assignments, compound assignments, ++ and -- whose value is used
    (codegen.c). Simplifications: those of StmtModel. *)
From Coq Require Import ZArith List Bool.
From Verif Require Import Base IntSpec StmtSpec IntModel X86 CgModel StmtModel.
Import ListNotations.
Local Open Scope Z_scope.

Section Gen.
  Variable G : genv.
  Variable nul : nat.
  Variable f : nat.

  (** ND_POST_INCDEC: codegen.c:1691-1700. push_by_ty and pop_by_ty are push and pop for
      integers; push_from keeps %rcx. *)
  Definition gen_post (t : ty) (x : nat) (rhs : node) (st : gst) : outcome gst :=
    do l <- load3 t (BReg AX) 0;
    let st1 := push (emit (gen_addr G x ++ [Mov None (R S8 AX) (R S8 CX)] ++ l) st) in
    do st2 <- gen_expr_null_lhs G nul f (KArith BAdd) t rhs (push st1);
    do s <- size_of (sz t);
    do p <- pop_from G CX true DI false st2;
    do q <- pop_gp G true AX true (emit [Mov None (R s AX) (M (BReg (fst p)) 0)] (snd p));
    Ok (snd q).

  (** gen_expr, codegen.c:1620-1640, on the nodes of StmtModel: ND_ASSIGN 1678-1683 and
      2895-2899, ND_ARITH_ASSIGN 1684-1690, ND_POST_INCDEC, ND_COMMA 1715-1718. PCast over
      PAdd is the tree of new_inc_dec: gen_expr of the cast of the sum evaluates the
      assignment first, which is neither a constant nor a memory operand, and goes on as
      after ND_NULL_EXPR (gen_expr_null_lhs builds the same sum and cast over it). Other
      PAdd and PCast nodes are not built by parse_eff. *)
  Fixpoint gen_val (a : enode) (st : gst) : outcome gst :=
    match a with
    | PE n => gen G f MExpr n st
    | PSet t x rhs => gen_assign G f t x rhs st
    | PArith k t x rhs => gen_arith_assign G nul f k t x rhs st
    | PPost t x rhs => gen_post t x rhs st
    | PComma a b => do st1 <- gen_void G nul f a st; gen_val b st1
    | PCast t (PAdd a n) =>
        do st1 <- gen_val a st; gen_expr_null_lhs G nul f (KArith BAdd) t n st1
    | PNone | PAdd _ _ | PCast _ _ => Abort
    end.
End Gen.
