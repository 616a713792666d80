(** Model of declspec (parse.c 748-1025) with new_qualified_type (type.c 92-108) and is_typename
    (parse.c 2202-2204). Simplifications: struct, union, enum and typeof specifiers, the operand
    of _Atomic(...) and of _Alignas(...) arrive parsed, attributes are left out; the type inferred
    for auto is a parameter. *)
From Coq Require Import ZArith List Bool.
From Verif Require Import Base DeclSpec.
Import ListNotations.
Local Open Scope Z_scope.

(** The VarAttr argument: NULL, local_only, or neither. *)
Inductive dctx := NoAttr | LocalOnly | AnyAttr.
Record dst := mkdst { dty : option dtype; counter : Z; dq : quals; dauto : bool; dattr : vattr }.

(** The enum of parse.c:753-765. *)
Definition weight (k : kw) : Z :=
  match k with
  | KVoid => 1 | KBool => 4 | KChar => 16 | KShort => 64 | KInt => 256 | KLong => 1024
  | KFloat => 4096 | KDouble => 16384 | KSigned => 131072 | KUnsigned => 262144
  end.
Definition OTHER : Z := 65536.
(** parse.c:905-927 *)
Definition add_kw (c : Z) (k : kw) : Z :=
  match k with KSigned | KUnsigned => Z.lor c (weight k) | _ => c + weight k end.

(** parse.c:929-995 *)
Definition VOID := weight KVoid. Definition BOOL := weight KBool. Definition CHAR := weight KChar.
Definition SHORT := weight KShort. Definition INT := weight KInt. Definition LONG := weight KLong.
Definition FLOAT := weight KFloat. Definition DOUBLE := weight KDouble.
Definition SIGNED := weight KSigned. Definition UNSIGNED := weight KUnsigned.
Definition cases : list (Z * bty) :=
  [(VOID, BVoid); (BOOL, BBool); (CHAR, BChar); (SIGNED + CHAR, BSChar); (UNSIGNED + CHAR, BUChar);
   (SHORT, BShort); (SHORT + INT, BShort); (SIGNED + SHORT, BShort); (SIGNED + SHORT + INT, BShort);
   (UNSIGNED + SHORT, BUShort); (UNSIGNED + SHORT + INT, BUShort);
   (INT, BInt); (SIGNED, BInt); (SIGNED + INT, BInt);
   (UNSIGNED, BUInt); (UNSIGNED + INT, BUInt);
   (LONG, BLong); (LONG + INT, BLong); (SIGNED + LONG, BLong); (SIGNED + LONG + INT, BLong);
   (LONG + LONG, BLLong); (LONG + LONG + INT, BLLong); (SIGNED + LONG + LONG, BLLong);
   (SIGNED + LONG + LONG + INT, BLLong);
   (UNSIGNED + LONG, BULong); (UNSIGNED + LONG + INT, BULong);
   (UNSIGNED + LONG + LONG, BULLong); (UNSIGNED + LONG + LONG + INT, BULLong);
   (FLOAT, BFloat); (DOUBLE, BDouble); (LONG + DOUBLE, BLDouble)].
Fixpoint switch (l : list (Z * bty)) (c : Z) : option bty :=
  match l with [] => None | (v, b) :: r => if c =? v then Some b else switch r c end.

(** parse.c:786-806: set a flag, then check. *)
Definition b2z (b : bool) : Z := if b then 1 else 0.
Definition set_stor (a : vattr) (s : stor) : vattr :=
  match s with
  | STypedef => mkattr true (astatic a) (aextern a) (ainline a) (atls a) (aconstexpr a) (aregister a) (aalign a)
  | SStatic => mkattr (atypedef a) true (aextern a) (ainline a) (atls a) (aconstexpr a) (aregister a) (aalign a)
  | SExtern => mkattr (atypedef a) (astatic a) true (ainline a) (atls a) (aconstexpr a) (aregister a) (aalign a)
  | SInline => mkattr (atypedef a) (astatic a) (aextern a) true (atls a) (aconstexpr a) (aregister a) (aalign a)
  | SThread => mkattr (atypedef a) (astatic a) (aextern a) (ainline a) true (aconstexpr a) (aregister a) (aalign a)
  end.
Definition stor_clash (a : vattr) : bool :=
  atypedef a && (b2z (astatic a) + b2z (aextern a) + b2z (ainline a) + b2z (atls a) >? 1).

Definition set_q (q : quals) (k : qual) : quals :=
  match k with
  | QAtomic => mkq true (qconst q) (qvolatile q) (qrestrict q)
  | QConst => mkq (qatomic q) true (qvolatile q) (qrestrict q)
  | QVolatile => mkq (qatomic q) (qconst q) true (qrestrict q)
  | QRestrict => mkq (qatomic q) (qconst q) (qvolatile q) true
  end.
Definition with_q s q := mkdst (dty s) (counter s) q (dauto s) (dattr s).
Definition with_attr s a := mkdst (dty s) (counter s) (dq s) (dauto s) a.
Definition with_ty s t c := mkdst (Some t) c (dq s) (dauto s) (dattr s).

(** parse.c:1003-1024. *)
Definition finish (inferred : outcome dtype) (s : dst) : outcome dtype :=
  do ty <- match dty s with
           | Some t => Ok t
           | None => if dauto s then inferred else Ok (mkt (Basic BInt) noq)
           end;
  let q := dq s in
  if qatomic q || qconst q || qvolatile q || qrestrict q then Ok (mkt (tbase ty) q) else Ok ty.

Section Loop.
Variable ctx : dctx.
Variable c23 : bool.
Variable is_auto_type : bool.   (* the auto tokens are __auto_type *)
Variable inferred : outcome dtype.

(** The rest of the loop body, parse.c:817-999, after the storage classes, constexpr and register.
    [None] means break. *)
Definition specifier (s : dst) (t : dtok) : outcome (option dst) :=
  match t with
  | TNoreturn => Ok (Some s)
  | TAutoType => Ok (Some (mkdst (dty s) (counter s) (dq s) (dauto s || is_auto_type || c23) (dattr s)))
  | TAtomicOf ty => Ok (Some (mkdst (Some ty) (counter s) (set_q (dq s) QAtomic) (dauto s) (dattr s)))
  | TQual q => Ok (Some (with_q s (set_q (dq s) q)))
  | TAlignas a =>
      match ctx with
      | NoAttr => Abort
      | _ => let at_ := dattr s in
             Ok (Some (with_attr s (mkattr (atypedef at_) (astatic at_) (aextern at_) (ainline at_) (atls at_)
                                           (aconstexpr at_) (aregister at_) (Z.max (aalign at_) a))))
      end
  | TName ty =>
      if negb (counter s =? 0) || dauto s then Ok None
      else Ok (Some (with_ty s ty (counter s + OTHER)))
  | TTag ty => if negb (counter s =? 0) then Abort else Ok (Some (with_ty s ty (counter s + OTHER)))
  | TKw k =>
      let c := add_kw (counter s) k in
      match switch cases c with
      | Some b => Ok (Some (with_ty s (mkt (Basic b) noq) c))
      | None => Abort
      end
  | TStor _ | TConstexpr | TRegister | TStop => Abort     (* internal_error *)
  end.

(** parse.c:775-1001. [late]: "register" was read where no VarAttr is given; the rest of the body
    goes on with the token after it. *)
Fixpoint specifiers (l : list dtok) (late : bool) (s : dst) : outcome (dst * list dtok) :=
  match l with
  | [] => if late then Abort else Ok (s, [])
  | t :: r =>
      let rest_of_body :=
        do o <- specifier s t;
        match o with None => Ok (s, l) | Some s' => specifiers r false s' end in
      if late then rest_of_body
      else
        match t with
        | TStop => Ok (s, l)
        | TStor k =>
            match ctx with
            | AnyAttr =>
                let a := set_stor (dattr s) k in
                if stor_clash a then Abort else specifiers r false (with_attr s a)
            | _ => Abort
            end
        | TConstexpr =>
            match ctx with
            | NoAttr => Abort
            | _ => let a := dattr s in
                   specifiers r false
                     (mkdst (dty s) (counter s) (set_q (dq s) QConst) (dauto s)
                        (mkattr (atypedef a) (astatic a) (aextern a) (ainline a) (atls a) true (aregister a) (aalign a)))
            end
        | TRegister =>
            match ctx with
            | NoAttr => specifiers r true s
            | _ => let a := dattr s in
                   specifiers r false
                     (with_attr s (mkattr (atypedef a) (astatic a) (aextern a) (ainline a) (atls a) (aconstexpr a) true (aalign a)))
            end
        | _ => rest_of_body
        end
  end.

Definition declspec (l : list dtok) : outcome (dtype * vattr * list dtok) :=
  do p <- specifiers l false (mkdst None 0 noq false no_attr);
  do ty <- finish inferred (fst p);
  Ok (ty, dattr (fst p), snd p).
End Loop.
