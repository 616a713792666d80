(** Model of the typing, conversion and constant folding of integer expressions
    (type.c, parse.c). Simplifications common to the file: only integer types (no
    pointers, floating point, VLAs); qualifiers are erased; side-effect free nodes. *)
From Coq Require Import ZArith List Bool.
From Verif Require Import Base IntSpec.
Local Open Scope Z_scope.

(** slimcc.h TypeKind, integer members. *)
Inductive kind := KBool | KPChar | KChar | KShort | KInt | KLong | KLLong.

(** slimcc.h struct Type: kind, size, is_unsigned. *)
Record ty := mkty { kd : kind; sz : Z; uns : bool }.

(** type.c:4-18. *)
Definition ty_bool := mkty KBool 1 true.
Definition ty_pchar := mkty KPChar 1 false.
Definition ty_char := mkty KChar 1 false.
Definition ty_short := mkty KShort 2 false.
Definition ty_int := mkty KInt 4 false.
Definition ty_long := mkty KLong 8 false.
Definition ty_llong := mkty KLLong 8 false.
Definition ty_uchar := mkty KChar 1 true.
Definition ty_ushort := mkty KShort 2 true.
Definition ty_uint := mkty KInt 4 true.
Definition ty_ulong := mkty KLong 8 true.
Definition ty_ullong := mkty KLLong 8 true.

(** parse.c:929-995 (declspec): the Type object chosen for each C type. *)
Definition mty (t : ityp) : ty :=
  match t with
  | TBool => ty_bool | TChar => ty_pchar | TSChar => ty_char | TUChar => ty_uchar
  | TShort => ty_short | TUShort => ty_ushort | TInt => ty_int | TUInt => ty_uint
  | TLong => ty_long | TULong => ty_ulong | TLLong => ty_llong | TULLong => ty_ullong
  end.

(** type.c:30-40. internal_error is Abort. *)
Definition to_unsigned (k : kind) : outcome ty :=
  match k with
  | KInt => Ok ty_uint | KLong => Ok ty_ulong | KLLong => Ok ty_ullong
  | _ => Abort
  end.

(** type.c:292-306. *)
Definition int_rank (t : ty) : outcome Z :=
  match kd t with
  | KBool | KChar | KShort => Ok 0
  | KInt => Ok 1 | KLong => Ok 2 | KLLong => Ok 3
  | KPChar => Abort
  end.

Definition is_bool (t : ty) : bool := match kd t with KBool => true | _ => false end.

(** Typed expression nodes (slimcc.h Node with kinds ND_NUM, ND_VAR, ND_MEMBER with a
    bit-field member, ND_POS.., as left by add_type). *)
Inductive node :=
| NNum (t : ty) (v : Z)
| NVar (t : ty) (x : nat)
| NBit (t : ty) (w off : Z) (x : nat)
| NPos (t : ty) (a : node)
| NNeg (t : ty) (a : node)
| NBitNot (t : ty) (a : node)
| NNot (a : node)
| NBin (o : binop) (t : ty) (a b : node)
| NShl (t : ty) (a b : node)
| NShr (t : ty) (a b : node)
| NSar (t : ty) (a b : node)
| NCmp (o : cmpop) (a b : node)
| NLogAnd (a b : node)
| NLogOr (a b : node)
| NCond (t : ty) (c a b : node)
| NComma (t : ty) (a b : node)
| NCast (t : ty) (a : node).

(** node->ty. type.c:413-520: comparisons and logical operators have type int. *)
Definition nty (n : node) : ty :=
  match n with
  | NNum t _ | NVar t _ | NBit t _ _ _ | NPos t _ | NNeg t _ | NBitNot t _
  | NBin _ t _ _ | NShl t _ _ | NShr t _ _ | NSar t _ _ | NCond t _ _ _
  | NComma t _ _ | NCast t _ => t
  | NNot _ | NCmp _ _ _ | NLogAnd _ _ | NLogOr _ _ => ty_int
  end.

(** Parameters: [strict] = overflow of the compiler's own int64_t arithmetic and
    out-of-range shift counts are undefined behaviour (otherwise they behave as the x86
    instructions do); [opt] = opt_optimize; [same] = the test expr->ty == ty on Type
    pointers; [known x] = the bytes of object x as one unsigned number if it is constexpr
    or a static const object with an initializer (parse.c:2810-2837). *)
Record cfg := mkcfg {
  strict : bool;
  opt : bool;
  same : ty -> ty -> bool;
  known : nat -> option Z
}.

(** int64_t result of a C operation in the compiler. *)
Definition h64 (c : cfg) (z : Z) : outcome Z :=
  if (- two63 <=? z) && (z <? two63) then Ok z
  else if strict c then UB else Ok (sext 64 z).

(** x << n on int64_t. *)
Definition h_shl (c : cfg) (x n : Z) : outcome Z :=
  if (0 <=? n) && (n <? 64) && (0 <=? x) && (x * 2 ^ n <? two63) then Ok (x * 2 ^ n)
  else if strict c then UB else Ok (sext 64 (x * 2 ^ (n mod 64))).

(** x >> n on a type of [w] bits. *)
Definition h_shr (c : cfg) (w x n : Z) : outcome Z :=
  if (0 <=? n) && (n <? w) then Ok (x / 2 ^ n)
  else if strict c then UB else Ok (x / 2 ^ (n mod w)).

(** parse.c:2839-2849. The is_integer test is omitted (integer types only); sizes other
    than 1, 2, 4, 8 (internal_error) do not occur. *)
Definition eval_sign_extend (t : ty) (v : Z) : Z :=
  if sz t =? 8 then v
  else if sz t =? 1 then (if uns t then trunc 8 v else sext 8 v)
  else if sz t =? 2 then (if uns t then trunc 16 v else sext 16 v)
  else (if uns t then trunc 32 v else sext 32 v).

Definition u64 (v : Z) : Z := trunc 64 v.
Definition i64 (v : Z) : Z := sext 64 v.
Definition z_of_bool (b : bool) : Z := if b then 1 else 0.

(** Comparison parse.c:2929-2960, on uint64_t when lhs->ty is unsigned; ND_EQ/ND_NE
    compare the int64_t values. *)
Definition eval_cmp (o : cmpop) (u : bool) (x y : Z) : Z :=
  let a := if u then u64 x else x in
  let b := if u then u64 y else y in
  z_of_bool (match o with
             | CEq => x =? y | CNe => negb (x =? y)
             | CLt => a <? b | CLe => a <=? b | CGt => b <? a | CGe => b <=? a
             end).

(** parse.c:2851-2860. *)
Definition is_var (n : node) : bool := match n with NVar _ _ => true | _ => false end.

(** parse.c:2872-3101 for kind EV_CONST. Abort is eval_error. Simplifications: operands
    are evaluated left to right; the EV_LABEL probe of ND_CAST (2986-2993) is omitted: it
    cannot find a label in a tree of integer nodes. *)
Fixpoint eval2 (c : cfg) (n : node) : outcome Z :=
  match n with
  | NBin BAdd t a b =>
      do x <- eval2 c a; do y <- eval2 c b; do r <- h64 c (x + y); Ok (eval_sign_extend t r)
  | NBin BSub t a b =>
      do x <- eval2 c a; do y <- eval2 c b; do r <- h64 c (x - y); Ok (eval_sign_extend t r)
  | NBin BMul t a b =>
      do x <- eval2 c a; do y <- eval2 c b; do r <- h64 c (x * y); Ok (eval_sign_extend t r)
  | NBin BDiv t a b =>
      do x <- eval2 c a; do y <- eval2 c b;
      if y =? 0 then Abort
      else if uns t then Ok (i64 (u64 x / u64 y))
      else if (x =? - two63) && (y =? -1) then Ok (- two63)
      else Ok (Z.quot x y)
  | NBin BMod t a b =>
      do x <- eval2 c a; do y <- eval2 c b;
      if y =? 0 then Abort
      else if uns t then Ok (i64 (u64 x mod u64 y))
      else if (x =? - two63) && (y =? -1) then Ok 0
      else Ok (Z.rem x y)
  | NPos _ a => eval2 c a
  | NNeg t a => do x <- eval2 c a; do r <- h64 c (- x); Ok (eval_sign_extend t r)
  | NBin BAnd _ a b => do x <- eval2 c a; do y <- eval2 c b; Ok (Z.land x y)
  | NBin BOr _ a b => do x <- eval2 c a; do y <- eval2 c b; Ok (Z.lor x y)
  | NBin BXor _ a b => do x <- eval2 c a; do y <- eval2 c b; Ok (Z.lxor x y)
  | NShl t a b =>
      do x <- eval2 c a; do y <- eval2 c b; do r <- h_shl c x y; Ok (eval_sign_extend t r)
  | NShr t a b =>
      do x <- eval2 c a; do y <- eval2 c b;
      if sz t =? 4 then h_shr c 32 (trunc 32 x) y
      else do r <- h_shr c 64 (u64 x) y; Ok (i64 r)
  | NSar t a b =>
      do x <- eval2 c a; do y <- eval2 c b;
      if sz t =? 4 then h_shr c 32 (sext 32 x) y else h_shr c 64 x y
  | NCmp o a b =>
      do x <- eval2 c a; do y <- eval2 c b; Ok (eval_cmp o (uns (nty a)) x y)
  | NCond _ k a b => do x <- eval2 c k; if x =? 0 then eval2 c b else eval2 c a
  | NComma _ a b =>
      if is_var a then eval2 c b else do x <- eval2 c a; eval2 c b
  | NNot a => do x <- eval2 c a; Ok (z_of_bool (x =? 0))
  | NBitNot t a => do x <- eval2 c a; Ok (eval_sign_extend t (Z.lnot x))
  | NLogAnd a b =>
      do x <- eval2 c a;
      if x =? 0 then Ok 0 else do y <- eval2 c b; Ok (z_of_bool (negb (y =? 0)))
  | NLogOr a b =>
      do x <- eval2 c a;
      if x =? 0 then do y <- eval2 c b; Ok (z_of_bool (negb (y =? 0))) else Ok 1
  | NCast t a =>
      do x <- eval2 c a;
      if is_bool t then Ok (z_of_bool (negb (x =? 0))) else Ok (eval_sign_extend t x)
  | NNum _ v => Ok v
  (* parse.c:3085-3100 *)
  | NVar t x =>
      match known c x with
      | Some raw => Ok (eval_sign_extend t (i64 raw))
      | None => Abort
      end
  | NBit t w off x =>
      match known c x with
      | Some raw =>
          let v := eval_sign_extend t (i64 raw) in
          do s <- h_shl c v (64 - w - off);
          if uns t then do r <- h_shr c 64 (u64 s) (64 - w); Ok (i64 r)
          else h_shr c 64 s (64 - w)
      | None => Abort
      end
  end.

(** type.c:130-132. *)
Definition is_bitfield (n : node) : bool := match n with NBit _ _ _ _ => true | _ => false end.

(** type.c:134-157, the node kinds of this model. *)
Fixpoint is_bitfield2 (n : node) : option Z :=
  match n with
  | NComma _ _ b => is_bitfield2 b
  | NBit _ w _ _ => Some w
  | _ => None
  end.

(** type.c:159-187 on types: ty, ty2, ty3. *)
Definition redundant (t t2 t3 : ty) : bool :=
  if is_bool t3 then true
  else if is_bool t2 then false
  else if is_bool t then sz t3 <=? sz t2
  else if sz t <=? sz t3 then sz t <=? sz t2
  else if sz t <=? sz t2 then true
  else if sz t2 =? sz t3 then Bool.eqb (uns t3) (uns t2)
  else if sz t3 <? sz t2 then uns t3 || negb (uns t2)
  else false.

Definition is_redundant_cast (n : node) (t : ty) : bool :=
  match n with
  | NCast t2 a => redundant t t2 (nty a)
  | _ => false
  end.

(** expr->ty = ty on a cast node, parse.c:375. *)
Definition set_cast_ty (n : node) (t : ty) : node :=
  match n with NCast _ a => NCast t a | _ => n end.

(** parse.c:346-382 and is_const_expr 3103-3114. The origin test 368-371 is the same as
    the ty test once qualifiers are erased. *)
Definition new_cast (c : cfg) (n : node) (t : ty) : outcome node :=
  if opt c then
    match eval2 c (NCast t n) with
    | UB => UB
    | Ok v => Ok (NNum t v)
    | Abort =>
        if negb (is_bitfield n) && same c (nty n) t then Ok n
        else if is_redundant_cast n t then Ok (set_cast_ty n t)
        else Ok (NCast t n)
    end
  else Ok (NCast t n).

(** parse.c:384-398. *)
Definition cond_cast (c : cfg) (n : node) : outcome node :=
  match n with
  | NCmp _ _ _ | NLogAnd _ _ | NLogOr _ _ | NNot _ => Ok n
  | _ => new_cast c n ty_bool
  end.

(** type.c:319-348. *)
Definition int_promotion (c : cfg) (n : node) : outcome node :=
  let t := nty n in
  match is_bitfield2 n with
  | Some w =>
      if (w =? 32) && uns t then new_cast c n ty_uint
      else if w <=? 32 then new_cast c n ty_int
      else new_cast c n t
  | None =>
      if sz t <? 4 then new_cast c n ty_int
      else if sz t =? 4 then
        do r <- int_rank t;
        if r <? 1 then new_cast c n (if uns t then ty_uint else ty_int) else Ok n
      else Ok n
  end.

(** type.c:387-397: the common type of two promoted integer types. *)
Definition common_type (t1 t2 : ty) : outcome ty :=
  if negb (sz t1 =? sz t2) then Ok (if sz t1 <? sz t2 then t2 else t1)
  else
    do r1 <- int_rank t1; do r2 <- int_rank t2;
    let ranked := if r2 <? r1 then t1 else t2 in
    if Bool.eqb (uns t1) (uns t2) then Ok ranked else to_unsigned (kd ranked).

(** type.c:350-411 for integer operands. *)
Definition usual_arith_conv (c : cfg) (a b : node) : outcome (node * node) :=
  do a1 <- int_promotion c a;
  do b1 <- int_promotion c b;
  do t <- common_type (nty a1) (nty b1);
  do a2 <- new_cast c a1 t;
  do b2 <- new_cast c b1 t;
  Ok (a2, b2).

(** The parser (parse.c:3331-3697, type.c:413-520): tree built for a source expression. *)
Fixpoint elab (c : cfg) (e : exp) : outcome node :=
  match e with
  | ENum t z => Ok (NNum (mty t) (i64 z))
  | EVar t x => Ok (NVar (mty t) x)
  | EField t w off x => Ok (NBit (mty t) w off x)
  | EUn ULNot a => do n <- elab c a; do k <- cond_cast c n; Ok (NNot k)
  | EUn UPos a => do n <- elab c a; do k <- int_promotion c n; Ok (NPos (nty k) k)
  | EUn UNeg a => do n <- elab c a; do k <- int_promotion c n; Ok (NNeg (nty k) k)
  | EUn UBitNot a => do n <- elab c a; do k <- int_promotion c n; Ok (NBitNot (nty k) k)
  | EBin o a b =>
      do n <- elab c a; do m <- elab c b;
      do p <- usual_arith_conv c n m;
      Ok (NBin o (nty (fst p)) (fst p) (snd p))
  | EShl a b =>
      do n <- elab c a; do m <- elab c b;
      do k <- int_promotion c n; Ok (NShl (nty k) k m)
  | EShr a b =>
      do n <- elab c a; do m <- elab c b;
      do k <- int_promotion c n;
      Ok (if uns (nty n) then NShr (nty k) k m else NSar (nty k) k m)
  | ECmp o a b =>
      do n <- elab c a; do m <- elab c b;
      do p <- usual_arith_conv c n m;
      Ok (NCmp o (fst p) (snd p))
  | ELAnd a b =>
      do n <- elab c a; do k <- cond_cast c n;
      do m <- elab c b; do l <- cond_cast c m; Ok (NLogAnd k l)
  | ELOr a b =>
      do n <- elab c a; do k <- cond_cast c n;
      do m <- elab c b; do l <- cond_cast c m; Ok (NLogOr k l)
  | ECond g a b =>
      do n <- elab c g; do k <- cond_cast c n;
      do x <- elab c a; do y <- elab c b;
      do p <- usual_arith_conv c x y;
      Ok (NCond (nty (fst p)) k (fst p) (snd p))
  | EComma a b =>
      do n <- elab c a; do m <- elab c b; Ok (NComma (nty m) n m)
  | ECast t a => do n <- elab c a; new_cast c n (mty t)
  end.
