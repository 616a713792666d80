(** Model of the parsing and code generation of statements and assignments over integer
    variables (parse.c, codegen.c). Simplifications common to the file: those of IntModel
    and CgModel; no declarations, switch, goto, labels, asm or deferred actions inside the
    statements; lhs of an assignment is a variable that is not atomic and not a bit-field. *)
From Coq Require Import ZArith List Bool.
From Verif Require Import Base IntSpec StmtSpec IntModel X86 CgModel.
Import ListNotations.
Local Open Scope Z_scope.

(** ** Trees *)

(** arith_kind of ND_ARITH_ASSIGN. *)
Inductive akind := KArith (o : binop) | KShl | KShr | KSar.

(** Nodes with effects: a side-effect free node, ND_ASSIGN, ND_ARITH_ASSIGN,
    ND_POST_INCDEC, and the ND_COMMA, ND_ADD and ND_CAST nodes built over them. *)
Inductive enode :=
| PNone
| PE (n : node)
| PSet (t : ty) (x : nat) (rhs : node)
| PArith (k : akind) (t : ty) (x : nat) (rhs : node)
| PPost (t : ty) (x : nat) (rhs : node)
| PComma (a b : enode)
| PAdd (a : enode) (b : node)
| PCast (t : ty) (a : enode).

(** Statement nodes: ND_NULL_STMT, ND_EXPR_STMT, ND_BLOCK, ND_IF, ND_FOR, ND_DO, ND_GOTO
    (for break and continue) and ND_RETURN. *)
Inductive lstmt :=
| LNull
| LExpr (a : enode)
| LBlock (a b : lstmt)
| LIf (c : node) (a : lstmt) (els : option lstmt)
| LFor (init : enode) (c : option node) (inc : enode) (body : lstmt) (brk cont : label)
| LDo (body : lstmt) (c : node) (brk cont : label)
| LGoto (l : label)
| LReturn (e : option node).

(** ** Parser *)

(** parse.c:488-492: the name .L..k. The number is stored as -1-k, apart from the numbers
    of count(); the strings cannot coincide with names such as .L.else.N. *)
Definition unique_label (k : Z) : label := (LOther, -1 - k).

(** parse.c:3956-3974; [n] is addend. Bit-fields, floating and atomic types omitted. *)
Definition new_inc_dec (c : cfg) (t : ty) (x : nat) (n : Z) : outcome enode :=
  let one v := NNum ty_int v in
  if opt c && negb (is_bool t) then
    (* the second addition gets its operand types in add_type (type.c:350-411); in void
       context only the shape of the tree matters *)
    Ok (PCast t (PAdd (PArith (KArith BAdd) t x (one n)) (one (- n))))
  else Ok (PPost t x (one n)).

(** parse.c:3269-3331 (assign), 3257-3267 (to_assign), 3679-3685 (unary ++ and --), 4026-4035
    (postfix), type.c:462-468 (cast of the right operand of =). *)
Fixpoint parse_eff (c : cfg) (a : eff) : outcome enode :=
  match a with
  | XNone => Ok PNone
  | XE e => do n <- elab c e; Ok (PE n)
  | XSet t x e => do n <- elab c e; do r <- new_cast c n (mty t); Ok (PSet (mty t) x r)
  | XOp o t x e =>
      do n <- elab c e;
      let k := match o with
               | ABin b => KArith b
               | AShl => KShl
               | AShr => if uns (mty t) then KShr else KSar
               end in
      Ok (PArith k (mty t) x n)
  | XPre inc t x => Ok (PArith (KArith (if inc then BAdd else BSub)) (mty t) x (NNum ty_int 1))
  | XPost inc t x => new_inc_dec c (mty t) x (if inc then 1 else -1)
  | XSeq a b => do n <- parse_eff c a; do m <- parse_eff c b; Ok (PComma n m)
  end.

(** parse.c:2492-2657 (stmt), 2445-2458 (loop_body). [ctx] = brk_label and cont_label of
    the innermost JumpContext, [id] = number of the next unique name. Scopes, labelled
    break and continue, and declarations in conditions are omitted. error_tok is Abort. *)
Fixpoint parse_stmt (c : cfg) (rt : ityp) (ctx : option (label * label)) (id : Z) (s : stmt)
  : outcome (lstmt * Z) :=
  match s with
  | SSkip => Ok (LNull, id)
  | SExpr a => do n <- parse_eff c a; Ok (LExpr n, id)
  | SSeq a b =>
      do p <- parse_stmt c rt ctx id a;
      do q <- parse_stmt c rt ctx (snd p) b;
      Ok (LBlock (fst p) (fst q), snd q)
  | SIf e a =>
      do n <- elab c e; do k <- cond_cast c n;
      do p <- parse_stmt c rt ctx id a;
      Ok (LIf k (fst p) None, snd p)
  | SIfElse e a b =>
      do n <- elab c e; do k <- cond_cast c n;
      do p <- parse_stmt c rt ctx id a;
      do q <- parse_stmt c rt ctx (snd p) b;
      Ok (LIf k (fst p) (Some (fst q)), snd q)
  | SFor i e n body =>
      do i' <- parse_eff c i;
      do k <- match e with
              | None => Ok None
              | Some e => do m <- elab c e; do k <- cond_cast c m; Ok (Some k)
              end;
      do n' <- parse_eff c n;
      let brk := unique_label id in
      let cont := unique_label (id + 1) in
      do p <- parse_stmt c rt (Some (brk, cont)) (id + 2) body;
      Ok (LFor i' k n' (fst p) brk cont, snd p)
  | SDo body e =>
      let brk := unique_label id in
      let cont := unique_label (id + 1) in
      do p <- parse_stmt c rt (Some (brk, cont)) (id + 2) body;
      do n <- elab c e; do k <- cond_cast c n;
      Ok (LDo (fst p) k brk cont, snd p)
  | SBreak => match ctx with Some (b, _) => Ok (LGoto b, id) | None => Abort end
  | SContinue => match ctx with Some (_, k) => Ok (LGoto k, id) | None => Abort end
  | SReturn None => Ok (LReturn None, id)
  | SReturn (Some e) =>
      do n <- elab c e; do k <- new_cast c n (mty rt); Ok (LReturn (Some k), id)
  end.

(** ** Code generator *)

(** codegen.c:2221-2232 for an instruction built by [mk]. *)
Definition imm_tmpl (mk : opnd -> opnd -> instr) (b : base) (o : Z) (v : Z) : list instr :=
  if v =? sext 32 v then [mk (I v) (M b o)]
  else (if v =? trunc 32 v then [Mov (Some S4) (I v) (R S4 DX)]
        else [Mov (Some S8) (I v) (R S8 DX)])
       ++ [mk (R S8 DX) (M b o)].

(** codegen.c:834-866: store to a variable whose address was pushed: store, store2,
    store3, integer types. *)
Definition store (G : genv) (t : ty) (st : gst) : outcome gst :=
  do s <- size_of (sz t);
  do p <- pop_gp G true DI false st;
  Ok (emit [Mov None (R s AX) (M (BReg (fst p)) 0)] (snd p)).

(** codegen.c:557-571 for one integer object of type [t]. *)
Definition gen_mem_copy2 (sb : base) (so : Z) (db : base) (dof : Z) (t : ty)
  : outcome (list instr) :=
  do s <- size_of (sz t);
  Ok [Mov None (M sb so) (R s DX); Mov None (R s DX) (M db dof)].

Section Gen.
  Variable G : genv.
  (** Number of the variable that stands for ND_NULL_EXPR: [loc G nul = VHere]. *)
  Variable nul : nat.
  (** Fuel for expressions. *)
  Variable f : nat.
  Let c : cfg := gc G.

  (** add_type of the node null op rhs: type.c:413-461. *)
  Definition null_op (k : akind) (t : ty) (rhs : node) : outcome node :=
    match k with
    | KArith o =>
        do p <- usual_arith_conv c (NVar t nul) rhs;
        Ok (NBin o (nty (fst p)) (fst p) (snd p))
    | KShl => do l <- int_promotion c (NVar t nul); Ok (NShl (nty l) l rhs)
    | KShr => do l <- int_promotion c (NVar t nul); Ok (NShr (nty l) l rhs)
    | KSar => do l <- int_promotion c (NVar t nul); Ok (NSar (nty l) l rhs)
    end.

  (** codegen.c:972-977. *)
  Definition gen_expr_null_lhs (k : akind) (t : ty) (rhs : node) (st : gst) : outcome gst :=
    do e <- null_op k t rhs;
    do n <- new_cast c e t;
    gen G f MExpr n st.

  (** codegen.c:2234-2263. [mk] is the instruction with the size suffix. *)
  Definition memop_arith (mk : size -> opnd -> opnd -> instr) (t : ty) (x : nat) (rhs : node)
    (st : gst) : outcome gst :=
    do s <- size_of (sz t);
    do k <- const_of G rhs;
    match k with
    | Some v =>
        let v' := limit_imm v (sz t) in
        match var_memop G x 0 with
        | Some (b, o) => Ok (emit (imm_tmpl (mk s) b o v') st)
        | None => Ok (emit (gen_addr G x ++ imm_tmpl (mk s) (BReg AX) 0 v') st)
        end
    | None =>
        match var_memop G x 0 with
        | Some (b, o) =>
            do st1 <- gen G f MExpr rhs st;
            Ok (emit [mk s (R s AX) (M b o)] st1)
        | None =>
            do st1 <- gen G f MExpr rhs (push (emit (gen_addr G x) st));
            do p <- pop_gp G true DI false st1;
            Ok (emit [mk s (R s AX) (M (BReg (fst p)) 0)] (snd p))
        end
    end.

  (** ND_ASSIGN: codegen.c:1678-1683, and 2895-2899 with optimisation. *)
  Definition gen_assign (t : ty) (x : nat) (rhs : node) (st : gst) : outcome gst :=
    let plain :=
      do st1 <- gen G f MExpr rhs (push (emit (gen_addr G x) st));
      store G t st1 in
    if opt c then
      match var_memop G x 0 with
      | Some (b, o) =>
          do s <- size_of (sz t);
          do st1 <- gen G f MExpr rhs st;
          Ok (emit [Mov None (R s AX) (M b o)] st1)
      | None => plain
      end
    else plain.

  (** ND_ARITH_ASSIGN: codegen.c:1684-1690. *)
  Definition gen_arith_assign (k : akind) (t : ty) (x : nat) (rhs : node) (st : gst)
    : outcome gst :=
    do l <- load3 t (BReg AX) 0;
    do st1 <- gen_expr_null_lhs k t rhs (emit l (push (emit (gen_addr G x) st)));
    store G t st1.

  (** codegen.c:2265-2292. *)
  Definition gen_void_arith_assign (k : akind) (t : ty) (x : nat) (rhs : node) (st : gst)
    : outcome gst :=
    if opt c && negb (is_bool t) then
      match k with
      | KArith o =>
          do p <- usual_arith_conv c (NVar t nul) rhs;
          match o with
          | BAdd | BSub | BAnd | BOr | BXor =>
              do i <- arith_ins o;
              memop_arith (fun s => Alu i (Some s)) t x (snd p) st
          | _ => gen_arith_assign k t x rhs st
          end
      | _ => gen_arith_assign k t x rhs st
      end
    else gen_arith_assign k t x rhs st.

  (** codegen.c:2294-2334; the pointer case cannot occur. *)
  Definition copy_source (t : ty) (rhs : node) : option (base * Z) :=
    match is_memop G rhs with
    | Some p => Some p
    | None =>
        match rhs with
        | NCast _ a => if (sz t <=? sz (nty a)) && negb (is_bool t) then is_memop G a else None
        | _ => None
        end
    end.
  Definition gen_void_assign (t : ty) (x : nat) (rhs : node) (st : gst) : outcome gst :=
    do k <- const_of G rhs;
    match k with
    | Some _ => memop_arith (fun s => Mov (Some s)) t x rhs st
    | None =>
        match copy_source t rhs with
        | Some (sb, so) =>
            match var_memop G x 0 with
            | Some (b, o) => do l <- gen_mem_copy2 sb so b o t; Ok (emit l st)
            | None =>
                do l <- gen_mem_copy2 sb so (BReg AX) 0 t; Ok (emit (gen_addr G x ++ l) st)
            end
        | None => gen_assign t x rhs st
        end
    end.

  (** gen_void_expr, codegen.c:2336-2384. *)
  Fixpoint gen_void (a : enode) (st : gst) : outcome gst :=
    match a with
    | PNone => Ok st
    | PE n => gen G f MVoid n st
    | PSet t x rhs => gen_void_assign t x rhs st
    | PArith k t x rhs => gen_void_arith_assign k t x rhs st
    | PPost t x rhs => gen_void_arith_assign (KArith BAdd) t x rhs st
    | PComma a b => do st1 <- gen_void a st; gen_void b st1
    | PAdd a n => do st1 <- gen_void a st; gen G f MVoid n st1
    | PCast _ a => gen_void a st
    end.

  (** rtn_label, codegen.c:4060. *)
  Variable rtn : Z.

  (** codegen.c:2067-2219. *)
  Fixpoint gen_stmt (s : lstmt) (st : gst) : outcome gst :=
    match s with
    | LNull => Ok st
    | LExpr a => gen_void a st
    | LBlock a b => do st1 <- gen_stmt a st; gen_stmt b st1
    | LIf k a els =>
        let '(n, st) := count_ st in
        do st1 <- gen G f (MCond false (LElse, n)) k st;
        do st2 <- gen_stmt a st1;
        match els with
        | None => Ok (emit [Lab (LElse, n)] st2)
        | Some b =>
            do st3 <- gen_stmt b (emit [Jmp (LEnd, n); Lab (LElse, n)] st2);
            Ok (emit [Lab (LEnd, n)] st3)
        end
    | LFor i k inc body brk cont =>
        let '(n, st) := count_ st in
        do st0 <- gen_void i st;
        let st0 := emit [Lab (LBegin, n)] st0 in
        do st1 <- match k with Some k => gen G f (MCond false brk) k st0 | None => Ok st0 end;
        do st2 <- gen_stmt body st1;
        do st3 <- gen_void inc (emit [Lab cont] st2);
        Ok (emit [Jmp (LBegin, n); Lab brk] st3)
    | LDo body k brk cont =>
        let '(n, st) := count_ st in
        do st1 <- gen_stmt body (emit [Lab (LBegin, n)] st);
        do st2 <- gen G f (MCond true (LBegin, n)) k (emit [Lab cont] st1);
        Ok (emit [Lab brk] st2)
    | LGoto l => Ok (emit [Jmp l] st)
    | LReturn None => Ok (emit [Jmp (LRtn, rtn)] st)
    | LReturn (Some e) =>
        do st1 <- gen G f MExpr e st; Ok (emit [Jmp (LRtn, rtn)] st1)
    end.
End Gen.
