(** The types /repo/parse.c and /repo/type.c give to expressions, and pointer arithmetic.
    The source expressions are those of TypSpec.v: the parsing of their tokens is in
    ExpModel.v. A type is its qualifiers and a [ctype]; type.c 202-252 [is_compatible] is [ceq], what it
    answers on the objects in memory is C35. Whether a node is a constant expression of value 0
    (eval in parse.c) is the parameter [zero] of the expression. Objects of type [Type] are identified
    only for arithmetic types, where type.c 6-32 has one for each type; a pointer type in a cast is
    taken to be a new object. Not modelled: enumeration types, statement
    expressions, compound literals, functions declared without a prototype, builtins. *)
From Coq Require Import String ZArith List Bool.
From Verif Require Import CompatSpec CompatModel CompatProofs TypSpec.
Import ListNotations.
Local Open Scope Z_scope.
Local Open Scope list_scope.

(** The parts of a slimcc.h [Node] the types of other nodes depend on: its type; the width found by
    [is_bitfield2]; whether it is an ND_MEMBER; whether it has the constant value 0; for an ND_CAST
    the answer of [is_nullptr] to its operand; whether it is an ND_EQ, ... , ND_NOT, for which
    [cond_cast] makes no cast. *)
Record node := Node { nq : quals; nt : ctype; nbf : option Z; nmem : bool; nzero : bool; ncast : option bool; ncmp : bool }.
Inductive res (A : Type) := Ok (a : A) | Err.
Arguments Ok {A}. Arguments Err {A}.
Definition bind {A B} (x : res A) (f : A -> res B) : res B := match x with Ok a => f a | Err => Err end.
Notation "'do' x <- e ; f" := (bind e (fun x => f)) (at level 200, x pattern, e at level 100, f at level 200).
Definition mk (q : quals) (t : ctype) : node := Node q t None false false None false.

(** type.c 111-128 *)
Definition is_integer (t : ctype) : bool := match t with CBool | CInt _ _ => true | _ => false end.
Definition is_flonum (t : ctype) : bool := match t with CFlo _ => true | _ => false end.
Definition is_numeric (t : ctype) : bool := is_integer t || is_flonum t.
(** [ty->base] *)
Definition base (t : ctype) : option (quals * ctype) :=
  match t with CPtr q u | CArr _ q u | CVla q u => Some (q, u) | _ => None end.
Definition has_base (t : ctype) : bool := match base t with Some _ => true | None => false end.
Definition is_array (t : ctype) : bool := match t with CArr _ _ _ | CVla _ _ => true | _ => false end.
Definition is_func (t : ctype) : bool := match t with CFun _ _ _ => true | _ => false end.
Definition is_void (t : ctype) : bool := match t with CVoid => true | _ => false end.
(** type.c 261-265 *)
Definition array_to_pointer (t : ctype) : ctype :=
  match t with CArr _ q u | CVla q u => CPtr q u | _ => t end.

(** type.c 6-32: [ty->size] of the integer types, and [is_unsigned]. *)
Definition isize (t : ctype) : Z :=
  match t with
  | CInt (KPchar | KChar) _ => 1 | CInt KShort _ => 2 | CInt KInt _ => 4
  | CInt (KLong | KLongLong) _ => 8 | _ => 1
  end.
Definition is_unsigned (t : ctype) : bool := match t with CBool => true | CInt _ u => u | _ => false end.
(** type.c 292-306; [None]: internal_error. *)
Definition int_rank (t : ctype) : option Z :=
  match t with
  | CBool | CInt KChar _ | CInt KShort _ => Some 0
  | CInt KInt _ => Some 1
  | CInt KLong _ => Some 2
  | CInt KLongLong _ => Some 3
  | _ => None
  end.
(** type.c 34-46 [to_unsigned] *)
Definition to_unsigned (t : ctype) : ctype := match t with CInt k _ => CInt k true | _ => t end.
Definition ty_int := CInt KInt false.
Definition ty_uint := CInt KInt true.
Definition ty_long := CInt KLong false.
Definition ty_ulong := CInt KLong true.

Section Elab.
(** The members of a structure or union, its size (-1 if incomplete), and constants of value 0. *)
Variable members : Z -> list mem.
Variable rsize : Z -> Z.
Variable zero : cx -> bool.
Variable opt_optimize : bool.

(** type.c 8, 231-289: [ty->size]. *)
Fixpoint size (t : ctype) : Z :=
  match t with
  | CVoid | CFun _ _ _ => 1
  | CBool | CInt _ _ => isize t
  | CEnum _ k u => isize (CInt k u)
  | CFlo KFloat => 4 | CFlo KDouble => 8 | CFlo KLdouble => 16
  | CRec i => rsize i
  | CPtr _ _ | CVla _ _ => 8
  | CArr len _ u => size u * match len with Some n => n | None => -1 end
  end.

(** parse.c 331-345 *)
Definition invalid_cast (from to : ctype) : bool :=
  (negb (is_void to) && match from with CVoid | CRec _ => true | _ => false end)
  || (has_base from && is_flonum to).
(** Two arithmetic types are the same object. *)
Definition same_arith (s t : ctype) : bool :=
  match s, t with
  | CBool, CBool => true
  | CInt k u, CInt k' u' => ikind_eqb k k' && Bool.eqb u u'
  | CFlo k, CFlo k' => fkind_eqb k k'
  | _, _ => false
  end.
(** type.c 308-318 *)
Definition is_nullptr (n : node) : bool :=
  match ncast n, nt n with
  | Some b, CPtr _ CVoid => b
  | _, _ => is_integer (nt n) && nzero n
  end.
(** type.c 126-128 *)
Definition is_bitfield (n : node) : bool := nmem n && match nbf n with Some _ => true | None => false end.
(** parse.c 347-381. A constant is made an ND_NUM, which is no bit-field either. *)
Definition new_cast (n : node) (t : ctype) : res node :=
  if invalid_cast (nt n) t then Err
  else if opt_optimize && negb (is_bitfield n) && same_arith (nt n) t then
    Ok (Node noq t (nbf n) (nmem n) (nzero n) (ncast n) (ncmp n))
  else Ok (Node noq t None false (nzero n) (Some (is_integer (nt n) && nzero n)) false).
(** parse.c 383-398 *)
Definition cond_cast (n : node) : res node := if ncmp n then Ok n else new_cast n CBool.
(** parse.c 400-408, type.c 92-108 *)
Definition apply_cv_qualifier (n : node) (q : quals) : node :=
  let p := nq n in
  if (negb (q_const p) && q_const q) || (negb (q_volatile p) && q_volatile q) then
    Node (Quals false (q_const p || q_const q) (q_volatile p || q_volatile q) false)
      (nt n) (nbf n) (nmem n) (nzero n) (ncast n) (ncmp n)
  else n.

(** type.c 320-347 *)
Definition int_promotion (n : node) : res node :=
  let t := nt n in
  match nbf n with
  | Some w =>
      if (w =? 32) && is_unsigned t then new_cast n ty_uint
      else if w <=? 32 then new_cast n ty_int
      else new_cast n t
  | None =>
      if isize t <? 4 then new_cast n ty_int
      else if isize t =? 4 then
        match int_rank t with
        | Some r => if r <? 1 then (if is_unsigned t then new_cast n ty_uint else new_cast n ty_int) else Ok n
        | None => Err
        end
      else Ok n
  end.
(** type.c 349-395, with the two operands as changed. *)
Definition get_common_type (l r : node) (handle_ptr : bool) : res (ctype * node * node) :=
  let t1 := if handle_ptr && is_func (nt l) then CPtr (nq l) (nt l) else nt l in
  let t2 := if handle_ptr && is_func (nt r) then CPtr (nq r) (nt r) else nt r in
  if handle_ptr && has_base t1 && is_nullptr r then Ok (array_to_pointer t1, l, r)
  else if handle_ptr && has_base t2 && is_nullptr l then Ok (array_to_pointer t2, l, r)
  else if handle_ptr && has_base t1 && has_base t2 then
    match base t1, base t2 with
    | Some (_, u1), Some (_, u2) =>
        if ceq u1 u2 then Ok (array_to_pointer t1, l, r) else Ok (CPtr noq CVoid, l, r)
    | _, _ => Err
    end
  else if negb (is_numeric t1) || negb (is_numeric t2) then Err
  else
    let fl k := match t1, t2 with CFlo a, CFlo b => fkind_eqb a k || fkind_eqb b k
                                | CFlo a, _ | _, CFlo a => fkind_eqb a k | _, _ => false end in
    if fl KLdouble then Ok (CFlo KLdouble, l, r)
    else if fl KDouble then Ok (CFlo KDouble, l, r)
    else if fl KFloat then Ok (CFlo KFloat, l, r)
    else
      do l' <- int_promotion l;
      do r' <- int_promotion r;
      let s := nt l' in let t := nt r' in
      if negb (isize s =? isize t) then Ok (if isize s <? isize t then t else s, l', r')
      else
        match int_rank s, int_rank t with
        | Some a, Some b =>
            let ranked := if b <? a then s else t in
            Ok (if Bool.eqb (is_unsigned s) (is_unsigned t) then ranked else to_unsigned ranked, l', r')
        | _, _ => Err
        end.
(** type.c 403-407 *)
Definition usual_arith_conv (l r : node) (handle_ptr : bool) : res (node * node) :=
  do x <- get_common_type l r handle_ptr;
  let '(t, l', r') := x in
  do l2 <- new_cast l' t;
  do r2 <- new_cast r' t;
  Ok (l2, r2).

(** type.c 426-448 [add_type] of arithmetic. *)
Definition arith_node (l r : node) : res node :=
  do x <- usual_arith_conv l r false; Ok (mk (nq (fst x)) (nt (fst x))).
(** type.c 426-438 for ND_ADD and ND_SUB; the offset is scaled already. *)
Definition add_node (l r : node) : res node :=
  let ptr (n : node) :=
    match nt n with
    | CPtr _ _ => Ok (mk (nq n) (nt n))
    | _ => match base (nt n) with
           | Some (q, u) => do c <- new_cast n (CPtr q u); Ok (mk (nq c) (nt c))
           | None => Err
           end
    end in
  if has_base (nt l) then ptr l else if has_base (nt r) then ptr r else arith_node l r.
(** An offset times the size of an element: ND_MUL with an intptr_t or the size_t variable of a VLA. *)
Definition scaled (ofs : node) (u : ctype) : res node :=
  arith_node ofs (mk noq (match u with CVla _ _ => ty_ulong | _ => ty_long end)).
Definition fun_cast (n : node) : res node := if is_func (nt n) then new_cast n (CPtr (nq n) (nt n)) else Ok n.
(** parse.c 3511-3537, and the type of the node *)
Definition new_add (l r : node) : res node :=
  if is_numeric (nt l) && is_numeric (nt r) then arith_node l r
  else
    do l <- fun_cast l;
    do r <- fun_cast r;
    if is_integer (nt l) then
      match base (nt l), base (nt r) with
      | None, Some (_, u) => do o <- scaled l u; add_node o r
      | _, _ => Err
      end
    else if is_integer (nt r) then
      match base (nt l) with
      | Some (_, u) => do o <- scaled r u; add_node l o
      | None => Err
      end
    else Err.
(** parse.c 3540-3570 *)
Definition new_sub (l r : node) : res node :=
  if is_numeric (nt l) && is_numeric (nt r) then arith_node l r
  else
    do l <- fun_cast l;
    do r <- fun_cast r;
    match base (nt l) with
    | Some (_, u) =>
        if is_integer (nt r) then do o <- scaled r u; add_node l o
        else if has_base (nt r) then
          do a <- new_cast l ty_long;
          do b <- new_cast r ty_long;
          do d <- arith_node a b;
          do e <- arith_node d (mk noq ty_int);
          new_cast e ty_long
        else Err
    | None => Err
    end.

(** type.c 449-455 ND_POS and ND_NEG, 480-485 ND_BITNOT, 486-495 shifts *)
Definition pos_node (n : node) : res node :=
  if negb (is_numeric (nt n)) then Err
  else do m <- (if is_integer (nt n) then int_promotion n else Ok n); Ok (mk (nq m) (nt m)).
Definition bitnot_node (n : node) : res node :=
  if negb (is_integer (nt n)) then Err else do m <- int_promotion n; Ok (mk (nq m) (nt m)).
Definition shift_node (l r : node) : res node :=
  if negb (is_integer (nt l)) then Err else if negb (is_integer (nt r)) then Err
  else do m <- int_promotion l; Ok (mk (nq m) (nt m)).
Definition int_node : node := Node noq ty_int None false false None true.
(** type.c 463-471 *)
Definition cmp_node (l r : node) : res node := do x <- usual_arith_conv l r true; Ok int_node.
(** parse.c 3373-3392 *)
Definition log_node (l r : node) : res node := do a <- cond_cast l; do b <- cond_cast r; Ok int_node.
(** parse.c 3394-3480, 3588-3608: the other binary operators *)
Definition binary_node (o : bop) (l r : node) : res node :=
  match o with
  | OAdd => new_add l r
  | OSub => new_sub l r
  | OMul | ODiv | OMod | OAnd | OXor | OOr => arith_node l r
  | OShl | OShr => shift_node l r
  | OLt | OGt | OLe | OGe | OEq | ONe => cmp_node l r
  | OLand | OLor => log_node l r
  end.

(** ND_ASSIGN (type.c 456-462): the node, with the type of the left operand. *)
Definition assign_node (l r : node) : res node :=
  if match nt l with CArr _ _ _ => true | _ => false end then Err
  else
    do r <- match nt l with CRec _ => Ok r | t => new_cast r t end;
    Ok (Node (nq l) (nt l) (nbf l) false false None false).
(** parse.c 3191-3253 for the node [op l r] made by [build]: [atomic_op], whose value is a new variable
    of the type of [l] to which [op] of two such variables is assigned, or ND_ARITH_ASSIGN. *)
Definition to_assign (op : node -> node -> res node) (l r : node) : res node :=
  if q_atomic (nq l) then
    do v <- assign_node (mk (nq r) (nt r)) r;
    do b <- op (mk (nq l) (nt l)) (mk (nq r) (nt r));
    do c <- assign_node (mk (nq l) (nt l)) b;
    Ok (mk (nq l) (array_to_pointer (nt l)))
  else Ok (Node (nq l) (nt l) (nbf l) false false None false).
(** parse.c 3511-3570 for the left operand of += and -=: the operands [new_add] and [new_sub] leave. *)
Definition assign_add (l r : node) : res node :=
  if is_numeric (nt l) && is_numeric (nt r) then to_assign arith_node l r
  else
    do l <- fun_cast l;
    do r <- fun_cast r;
    match base (nt l) with
    | Some (_, u) => if is_integer (nt r) then do o <- scaled r u; to_assign add_node l o else Err
    | None => Err
    end.
(** parse.c 3255-3332: assignment operators but [=] *)
Definition op_assign (o : bop) (l r : node) : res node :=
  match o with
  | OAdd | OSub => assign_add l r
  | OMul | ODiv | OMod | OAnd | OXor | OOr => to_assign arith_node l r
  | OShl | OShr => to_assign shift_node l r
  | _ => Err
  end.
(** parse.c 3262-3276: [=]; an atomic object is exchanged with a new variable of the type of [r]. *)
Definition simple_assign (l r : node) : res node :=
  if q_atomic (nq l) then
    do v <- assign_node (mk (nq r) (nt r)) r; Ok (mk (nq r) (nt r))
  else assign_node l r.
(** parse.c 3956-3975 *)
Definition new_inc_dec (n : node) : res node :=
  let one := mk noq ty_int in
  if q_atomic (nq n) then assign_add n one
  else if opt_optimize && negb (match nt n with CBool => true | _ => false end)
          && negb (is_bitfield n) && negb (is_flonum (nt n)) then
    do a <- assign_add n one;
    do b <- new_add a one;
    new_cast b (nt n)
  else
    do a <- new_add n one;
    Ok (Node (nq n) (nt n) (nbf n) false false None false).

(** parse.c 3907-3919: the first member of that name, with the qualifiers of the unnamed ones it is
    in. *)
Definition first {A B} (f : A -> option B) : list A -> option B :=
  fix go l := match l with [] => None | x :: m => match f x with Some r => Some r | None => go m end end.
Fixpoint find_mem (s : string) (m : mem) : option (list quals * (quals * ctype * option Z)) :=
  match m with
  | Named s' q t w => if String.eqb s' s then Some ([], (q, t, w)) else None
  | Anon q i l => match first (find_mem s) l with Some (p, f) => Some (q :: p, f) | None => None end
  end.
Definition get_struct_member (s : string) (l : list mem) := first (find_mem s) l.
(** parse.c 3934-3954: the qualifiers of the type [ty] of the last round are added. *)
Definition struct_ref (n : node) (s : string) : res node :=
  match nt n with
  | CRec i =>
      match get_struct_member s (members i) with
      | Some (p, (q, t, w)) => Ok (apply_cv_qualifier (Node q t w true false None false) (last p (nq n)))
      | None => Err
      end
  | _ => Err
  end.
(** type.c 516-523 ND_DEREF *)
Definition deref_node (n : node) : res node :=
  match base (nt n) with
  | Some (q, t) => if is_void t then Err else Ok (mk q t)
  | None => Err
  end.
(** parse.c 3647-3663, 4000-4012 and 4020-4031: qualifiers of an array *)
Definition from_array (a : node) (n : node) : node := if is_array (nt a) then apply_cv_qualifier n (nq a) else n.

(** type.c 499-507 ND_COND *)
Definition cond_node (a b : node) : res node :=
  if is_void (nt a) || is_void (nt b) then Ok (mk noq CVoid)
  else if negb (is_numeric (nt a)) && ceq (nt a) (nt b) then
    Ok (mk (if is_array (nt a) then noq else nq a) (array_to_pointer (nt a)))
  else do x <- usual_arith_conv a b true; Ok (mk (nq (fst x)) (nt (fst x))).

(** parse.c 4122-4130: the type of the controlling expression *)
Definition ctrl_type (n : node) : ctype :=
  match nt n with
  | CFun _ _ _ => CPtr (nq n) (nt n)
  | CArr _ q u | CVla q u => CPtr q u
  | t => t
  end.

(** The node made for an expression, by the functions of parse.c 3255-4150 and [add_type]. *)
Fixpoint elab (e : cx) {struct e} : res node :=
  let at_ (x : res node) : res node :=
    do n <- x; Ok (Node (nq n) (nt n) (nbf n) (nmem n) (zero e) (ncast n) (ncmp n)) in
  match e with
  | XConst t v => at_ (Ok (mk noq t))
  | XStr k u n => at_ (Ok (mk noq (CArr (Some n) noq (CInt k u))))
  | XVar q t => at_ (Ok (mk q t))
  | XMember x s => at_ (do a <- elab x; struct_ref a s)
  | XArrow x s => at_ (do a <- elab x; do d <- deref_node a; do m <- struct_ref d s; Ok (from_array a m))
  | XIdx x y => at_ (do a <- elab x; do b <- elab y; do p <- new_add a b; do d <- deref_node p; Ok (from_array a d))
  | XCall f l =>
      at_ (do a <- elab f;
           match (match nt a with CPtr _ t => t | t => t end) with
           | CFun r v ps =>
               do u <- (fix args (l : list cx) (ps : list (quals * ctype)) {struct l} : res unit :=
                          match l, ps with
                          | [], [] => Ok tt
                          | [], _ :: _ => Err
                          | x :: l, (q, t) :: ps => do b <- elab x; do c <- assign_node (mk q t) b; args l ps
                          | x :: l, [] => if v then do b <- elab x; args l [] else Err
                          end) l ps;
               Ok (mk noq r)
           | _ => Err
           end)
  | XPost x => at_ (do a <- elab x; new_inc_dec a)
  | XPre x => at_ (do a <- elab x; assign_add a (mk noq ty_int))
  | XAddr x => at_ (do a <- elab x; if is_bitfield a then Err else Ok (mk noq (CPtr (nq a) (nt a))))
  | XDeref x => at_ (do a <- elab x; if is_func (nt a) then Ok a else do d <- deref_node a; Ok (from_array a d))
  | XUn o x =>
      at_ (do a <- elab x;
           match o with
           | UPos | UNeg => pos_node a
           | UCompl => bitnot_node a
           | UNot => do c <- cond_cast a; Ok int_node
           end)
  | XSizeof x =>
      at_ (do a <- elab x;
           match nt a with
           | CVla _ _ => Ok (mk noq ty_ulong)
           | t => if size t <? 0 then Err else Ok (mk noq ty_ulong)
           end)
  | XCast q t x => at_ (do a <- elab x; new_cast a t)
  | XBin o x y => at_ (do a <- elab x; do b <- elab y; binary_node o a b)
  | XCond z x y => at_ (do c <- elab z; do c' <- cond_cast c; do a <- elab x; do b <- elab y; cond_node a b)
  | XAssign None x y => at_ (do a <- elab x; do b <- elab y; simple_assign a b)
  | XAssign (Some o) x y => at_ (do a <- elab x; do b <- elab y; op_assign o a b)
  | XComma x y => at_ (do a <- elab x; do b <- elab y;
                       Ok (Node (if is_array (nt b) then noq else nq b) (array_to_pointer (nt b)) (nbf b) false false None false))
  | XGeneric c l =>
      do a <- elab c;
      do r <- (fix assocs (l : list (option (quals * ctype) * cx)) (ret : option node) {struct l} : res (option node) :=
                 match l with
                 | [] => Ok ret
                 | (None, x) :: l => do n <- elab x; assocs l (match ret with Some _ => ret | None => Some n end)
                 | (Some (q, t), x) :: l =>
                     if is_func t then Err
                     else do n <- elab x; assocs l (if same_quals noq q && ceq (ctrl_type a) t then Some n else ret)
                 end) l None;
      match r with Some n => Ok n | None => Err end
  end.
End Elab.

(** * Values of pointer arithmetic *)
Definition wrap64 (z : Z) : Z := z mod 2 ^ 64.
(** [z] converted to an integer type of [n] bits. *)
Definition conv_bits (n : Z) (u : bool) (z : Z) : Z :=
  let w := z mod 2 ^ n in if negb u && (2 ^ (n - 1) <=? w) then w - 2 ^ n else w.
Definition conv (t : ctype) (z : Z) : Z := conv_bits (8 * isize t) (is_unsigned t) z.
Section Values.
Variable opt_optimize : bool.
(** parse.c 3527-3533, 3552-3558: the value [i] of the offset node [n] times the size [sz] of the
    element type [t]: an ND_MUL in the type of that node. *)
Definition offset_value (n : node) (t : ctype) (i sz : Z) : res Z :=
  do m <- scaled opt_optimize n t;
  Ok (conv (nt m) (conv (nt m) i * conv (nt m) sz)).
(** ND_ADD and ND_SUB of a pointer and the offset, 64 bits *)
Definition add_value (p : Z) (n : node) (t : ctype) (i sz : Z) : res Z :=
  do o <- offset_value n t i sz; Ok (wrap64 (p + o)).
Definition sub_value (p : Z) (n : node) (t : ctype) (i sz : Z) : res Z :=
  do o <- offset_value n t i sz; Ok (wrap64 (p - o)).
End Values.
(** parse.c 3560-3564, [int sz]: the difference of two intptr_t divided by an int and converted to
    ptrdiff_t; [Err]: a division by zero. *)
Definition diff_value (p q sz : Z) : res Z :=
  let n := conv ty_int sz in
  if n =? 0 then Err
  else Ok (conv ty_long (Z.quot (conv ty_long (conv ty_long p - conv ty_long q)) n)).
