(** Model of assignments and compound assignments to bit-fields, and of ++ and -- after them
    (parse.c, codegen.c). Simplifications: those of StmtModel; the bit-field is a member, at
    byte [moff G x], of the variable [x]. *)
From Coq Require Import ZArith List Bool.
From Verif Require Import Base IntSpec StmtSpec BfOpSpec IntModel X86 CgModel StmtModel BfModel.
Import ListNotations.
Local Open Scope Z_scope.

(** ND_ASSIGN, ND_ARITH_ASSIGN and ND_POST_INCDEC whose left operand is a bit-field of
    declared type [t], width [w] and position [off]. *)
Inductive bnode :=
| QSet (t : ty) (w off : Z) (x : nat) (rhs : node)
| QArith (k : akind) (t : ty) (w off : Z) (x : nat) (rhs : node)
| QPost (t : ty) (w off : Z) (x : nat) (rhs : node).

(** parse.c:3257-3331, 3679-3685, 3956-3974 (is_bitfield: no optimised tree), type.c:462-468
    (the cast of the right operand of = to the declared type). *)
Definition parse_beff (c : cfg) (t : ityp) (w off : Z) (x : nat) (a : beff) : outcome bnode :=
  match a with
  | BSet e => do n <- elab c e; do r <- new_cast c n (mty t); Ok (QSet (mty t) w off x r)
  | BOp o e =>
      do n <- elab c e;
      let k := match o with
               | ABin b => KArith b
               | AShl => KShl
               | AShr => if uns (mty t) then KShr else KSar
               end in
      Ok (QArith k (mty t) w off x n)
  | BPre inc => Ok (QArith (KArith (if inc then BAdd else BSub)) (mty t) w off x (NNum ty_int 1))
  | BPost inc => Ok (QPost (mty t) w off x (NNum ty_int (if inc then 1 else -1)))
  end.

Section Gen.
  Variable G : genv.
  Variable nul : nat.
  Variable f : nat.
  Let c : cfg := gc G.

  (** codegen.c:708-711, 767-780, 961-971, 2972-2982: address of the storage unit. *)
  Definition gen_addr_unit (x : nat) : list instr :=
    match (if opt c then var_memop G x (moff G x) else None) with
    | Some (b, o) => [Lea b o (R S8 AX)]
    | None => gen_addr G x ++ imm_add S8 AX DX (moff G x)
    end.

  (** codegen.c:663-704: gen_bitfield_store with the pop of the address. [src] is the register
      the matching push saved. *)
  Definition store_bf (t : ty) (w off : Z) (src : reg) (is_void : bool) (st : gst) : outcome gst :=
    let merged :=
      do a <- store_value t w;
      do p <- pop_from G src true DI false (emit a st);
      do b <- store_unit t w off (fst p) is_void;
      Ok (emit b (snd p)) in
    match bitwidth_to_ty w (uns t) with
    | Some alt =>
        if off =? off / 8 * 8 then
          do p <- pop_from G src true DI false st;
          do stc <- store3 alt (BReg (fst p)) (off / 8);
          if negb is_void && (sz alt <? 4)
          then do e <- cast_extend_eax alt; Ok (emit (stc ++ e) (snd p))
          else Ok (emit stc (snd p))
        else merged
    | None => merged
    end.

  (** codegen.c:1678-1700. is_void is true when the value is not used (gen_void_arith_assign,
      2265-2292, and gen_void_assign, 2294-2334, go on to gen_expr2 for bit-fields); a
      postfix operator is then an ND_ARITH_ASSIGN with the same right operand. *)
  Definition gen_bf (is_void : bool) (a : bnode) (st : gst) : outcome gst :=
    match a with
    | QSet t w off x rhs =>
        do st1 <- gen G f MExpr rhs (push (emit (gen_addr_unit x) st));
        store_bf t w off AX is_void st1
    | QArith k t w off x rhs =>
        do l <- gen_bitfield_load t w off 0;
        do st1 <- gen_expr_null_lhs G nul f k t rhs (emit l (push (emit (gen_addr_unit x) st)));
        store_bf t w off AX is_void st1
    | QPost t w off x rhs =>
        do l <- gen_bitfield_load t w off 0;
        if is_void then
          do st1 <- gen_expr_null_lhs G nul f (KArith BAdd) t rhs
                      (emit l (push (emit (gen_addr_unit x) st)));
          store_bf t w off AX true st1
        else
          let st1 := push (emit (gen_addr_unit x ++ [Mov None (R S8 AX) (R S8 CX)] ++ l) st) in
          do st2 <- gen_expr_null_lhs G nul f (KArith BAdd) t rhs (push st1);
          do st3 <- store_bf t w off CX true st2;
          do q <- pop_gp G true AX true st3;
          Ok (snd q)
    end.
End Gen.
