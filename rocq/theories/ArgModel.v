(** Model of the code for the integer arguments of a call: the conversions of parse.c funcall,
    prepare_funcall and gen_funcall_args of codegen.c. *)
From Coq Require Import ZArith List Bool.
From Verif Require Import Base IntSpec IntModel X86 CgModel StmtModel ArgSpec.
Import ListNotations.
Local Open Scope Z_scope.

(** parse.c:4064-4085, one argument of integer type: the type of the parameter through an
    assignment (type.c add_type: new_cast of the right operand), or the promotion. *)
Definition parse_arg (c : cfg) (a : sarg) : outcome node :=
  do n <- elab c (sa_e a);
  match sa_param a with
  | Some t => new_cast c n (mty t)
  | None => if sz (nty n) <? 4 then new_cast c n ty_int else Ok n
  end.

(** The object made for an argument, parse.c:4089-4090: arg_expr, the name of the object,
    stack_offset if pass_by_stack, and whether var->ptr is set by the time its code is
    generated (codegen.c:4187-4210; objects linked into scope->locals get one in
    assign_lvar_offsets). *)
Record marg := mkmarg { m_n : node; m_x : nat; m_stk : option Z; m_ptr : bool }.

(** codegen.c:1175-1224 for integer arguments: gp is counted up to GP_MAX = 6. *)
Fixpoint calling_conv (gp : nat) (stack : Z) (k : nat) : list (option Z) :=
  match k with
  | O => []
  | S k' => if (gp <? 6)%nat then None :: calling_conv (S gp) stack k'
            else Some stack :: calling_conv (S gp) (stack + 8) k'
  end.

(** codegen.c:4193-4206: the argument needs no object. [first] is reg_arg_cnt == 1 after the
    increment. *)
Definition in_place (G : genv) (first : bool) (n : node) : outcome bool :=
  if opt (gc G) then
    do k <- const_of G n;
    match k with
    | Some _ => Ok true
    | None =>
        do l <- gen_load_opt_gp G n;
        match l, is_memop G n with
        | None, None => Ok first
        | _, _ => Ok true
        end
    end
  else Ok false.

(** codegen.c:4184-4210. *)
Fixpoint prepare_args (G : genv) (first : bool) (l : list (node * nat)) (stk : list (option Z))
  : outcome (list marg) :=
  match l, stk with
  | (n, x) :: l', Some o :: stk' =>
      do r <- prepare_args G first l' stk'; Ok (mkmarg n x (Some o) true :: r)
  | (n, x) :: l', None :: stk' =>
      do b <- in_place G first n;
      do r <- prepare_args G false l' stk'; Ok (mkmarg n x None (negb b) :: r)
  | _, _ => Ok []
  end.
Definition prepare_funcall (G : genv) (hidden : bool) (l : list (node * nat)) : outcome (list marg) :=
  prepare_args G true l (calling_conv (if hidden then 1 else 0) 0 (length l)).

(** codegen.c:871-888 load_val2 with any register. *)
Definition load_val2 (t : ty) (v : Z) (r : reg) : list instr :=
  if v =? 0 then [Alu AXor None (R S4 r) (R S4 r)]
  else if v =? trunc 32 v then [Mov (Some S4) (I v) (R S4 r)]
  else if v =? sext 32 v then
    (if sz t =? 8 then [Mov (Some S8) (I v) (R S8 r)] else [Mov (Some S4) (I v) (R S4 r)])
  else [Mov (Some S8) (I v) (R S8 r)].

(** codegen.c:2737-2756 with any register; addresses (is_memop_ptr, 2729-2735) are left out. *)
Definition load_opt_to (G : genv) (n : node) (r : reg) : outcome (option (list instr)) :=
  match n with
  | NCast t a =>
      match is_memop G a with
      | Some (b, o) =>
          let ta := nty a in
          if sz ta <? sz t then
            if negb (uns ta) && (sz t =? 8) then
              do l <- load_extend_int64 ta b o r; Ok (Some l)
            else if negb ((sz t =? 2) && uns t && negb (uns ta)) then
              do l <- load_extend_int ta b o S4 r; Ok (Some l)
            else Ok None
          else if negb (is_bool t) then
            do l <- load_extend_int t b o (if sz t =? 8 then S8 else S4) r; Ok (Some l)
          else Ok None
      | None => Ok None
      end
  | _ => Ok None
  end.

(** codegen.c:1400-1404. *)
Definition place_reg_arg (t : ty) (b : base) (o : Z) (r : reg) : outcome (list instr) :=
  load_extend_int t b o (if sz t <=? 4 then S4 else S8) r.

(** argreg32 and argreg64, codegen.c:80-83. *)
Definition argreg (gp : nat) : outcome reg :=
  match gp with
  | 0 => Ok DI | 1 => Ok SI | 2 => Ok DX | 3 => Ok CX | 4 => Ok R8 | 5 => Ok R9 | _ => Abort
  end%nat.

Section Args.
  Variable G : genv.
  Variable f : nat.

  (** codegen.c:1410-1412 and gen_var_assign, 965-970. *)
  Fixpoint spill_args (l : list marg) (st : gst) : outcome gst :=
    match l with
    | [] => Ok st
    | a :: l' =>
        if m_ptr a then
          do r <- new_cast (gc G) (m_n a) (nty (m_n a));
          do st1 <- gen_void_assign G f (nty (m_n a)) (m_x a) r st; spill_args l' st1
        else spill_args l' st
    end.

  (** codegen.c:1421-1459, one register argument. [first]: reg_arg_cnt == 1. *)
  Definition load_slot (a : marg) (r : reg) (st : gst) : outcome gst :=
    match loc G (m_x a) with
    | VLoc b o => do c <- place_reg_arg (nty (m_n a)) (BReg b) o r; Ok (emit c st)
    | _ => Abort
    end.
  Definition load_arg (first : bool) (a : marg) (r : reg) (st : gst) : outcome gst :=
    if opt (gc G) then
      let n := m_n a in
      do k <- const_of G n;
      match k with
      | Some v => Ok (emit (load_val2 (nty n) v r) st)
      | None =>
          do l <- load_opt_to G n r;
          match l with
          | Some c => Ok (emit c st)
          | None =>
              match is_memop G n with
              | Some (b, o) => do c <- place_reg_arg (nty n) b o r; Ok (emit c st)
              | None =>
                  if first then
                    do st1 <- gen G f MExpr n st; Ok (emit [Mov None (R S8 AX) (R S8 r)] st1)
                  else load_slot a r st
              end
          end
      end
    else load_slot a r st.

  (** codegen.c:1414-1460. *)
  Fixpoint load_args (gp : nat) (first : bool) (l : list marg) (st : gst) : outcome gst :=
    match l with
    | [] => Ok st
    | a :: l' =>
        match m_stk a with
        | Some _ => load_args gp first l' st
        | None =>
            do r <- argreg gp;
            do st1 <- load_arg first a r st; load_args (S gp) false l' st1
        end
    end.

  (** codegen.c:1408-1460; the address of the result buffer (1462-1463) and the call itself
      are not part of it. *)
  Definition gen_funcall_args (hidden : bool) (l : list marg) (st : gst) : outcome gst :=
    do st1 <- spill_args l st; load_args (if hidden then 1 else 0)%nat true l st1.
End Args.

(** The objects used by the code: those with a place in memory. *)
Fixpoint arg_objects (l : list sarg) (ms : list marg) : list (ityp * nat) :=
  match l, ms with
  | a :: l', m :: ms' =>
      (if m_ptr m then [(arg_type a, sa_x a)] else []) ++ arg_objects l' ms'
  | _, _ => []
  end.

(** The expressions and objects of a list of arguments, parse.c:4062-4091. *)
Fixpoint parse_args (c : cfg) (l : list sarg) : outcome (list (node * nat)) :=
  match l with
  | [] => Ok []
  | a :: l' => do n <- parse_arg c a; do r <- parse_args c l'; Ok ((n, sa_x a) :: r)
  end.
