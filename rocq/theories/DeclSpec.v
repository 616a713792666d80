(** Declaration specifiers of the standard (C17 6.7.1, 6.7.2, 6.7.3). *)
From Coq Require Import ZArith List Bool Permutation.
Import ListNotations.
Local Open Scope Z_scope.

(** Type specifier keywords. *)
Inductive kw := KVoid | KBool | KChar | KShort | KInt | KLong | KFloat | KDouble | KSigned | KUnsigned.
Definition kw_eq_dec : forall a b : kw, {a = b} + {a <> b}.
Proof. decide equality. Defined.

Inductive bty := BVoid | BBool | BChar | BSChar | BUChar | BShort | BUShort | BInt | BUInt
               | BLong | BULong | BLLong | BULLong | BFloat | BDouble | BLDouble.

(** 6.7.2 paragraph 2: the multisets of type specifiers and the types they denote. *)
Definition table : list (list kw * bty) :=
  [([KVoid], BVoid);
   ([KChar], BChar); ([KSigned; KChar], BSChar); ([KUnsigned; KChar], BUChar);
   ([KShort], BShort); ([KSigned; KShort], BShort); ([KShort; KInt], BShort); ([KSigned; KShort; KInt], BShort);
   ([KUnsigned; KShort], BUShort); ([KUnsigned; KShort; KInt], BUShort);
   ([KInt], BInt); ([KSigned], BInt); ([KSigned; KInt], BInt);
   ([KUnsigned], BUInt); ([KUnsigned; KInt], BUInt);
   ([KLong], BLong); ([KSigned; KLong], BLong); ([KLong; KInt], BLong); ([KSigned; KLong; KInt], BLong);
   ([KUnsigned; KLong], BULong); ([KUnsigned; KLong; KInt], BULong);
   ([KLong; KLong], BLLong); ([KSigned; KLong; KLong], BLLong); ([KLong; KLong; KInt], BLLong);
   ([KSigned; KLong; KLong; KInt], BLLong);
   ([KUnsigned; KLong; KLong], BULLong); ([KUnsigned; KLong; KLong; KInt], BULLong);
   ([KFloat], BFloat); ([KDouble], BDouble); ([KLong; KDouble], BLDouble);
   ([KBool], BBool)].
(** Specifiers may come in any order. *)
Definition denotes (ks : list kw) (b : bty) : Prop :=
  exists row, In (row, b) table /\ Permutation ks row.

(** Types as far as specifiers go: one named by keywords or another one (structs, unions, enums,
    types of typedef names), with qualifiers. *)
Record quals := mkq { qatomic : bool; qconst : bool; qvolatile : bool; qrestrict : bool }.
Definition noq : quals := mkq false false false false.
Definition union_q (a b : quals) : quals :=
  mkq (qatomic a || qatomic b) (qconst a || qconst b) (qvolatile a || qvolatile b) (qrestrict a || qrestrict b).
Inductive dbase := Basic (b : bty) | Other (id : Z).
Record dtype := mkt { tbase : dbase; tquals : quals }.

Inductive stor := STypedef | SStatic | SExtern | SInline | SThread.
Inductive qual := QAtomic | QConst | QVolatile | QRestrict.
(** The tokens of a declaration: [TTag] stands for a whole struct, union, enum or typeof
    specifier, [TName] for an identifier declared as a typedef name, [TAtomicOf] for
    _Atomic(type), [TStop] for everything that is no specifier. *)
Inductive dtok :=
| TKw (k : kw) | TTag (t : dtype) | TName (t : dtype) | TQual (q : qual) | TAtomicOf (t : dtype)
| TStor (s : stor) | TConstexpr | TRegister | TNoreturn | TAutoType | TAlignas (a : Z) | TStop.

Definition kw_of (t : dtok) : list kw := match t with TKw k => [k] | _ => [] end.
Definition kws (l : list dtok) : list kw := flat_map kw_of l.
Definition q_of (t : dtok) : quals :=
  match t with
  | TQual QAtomic => mkq true false false false
  | TQual QConst => mkq false true false false
  | TQual QVolatile => mkq false false true false
  | TQual QRestrict => mkq false false false true
  | _ => noq
  end.
Definition quals_in (l : list dtok) : quals := fold_right (fun t q => union_q (q_of t) q) noq l.
Definition stor_eqb (a b : stor) : bool :=
  match a, b with
  | STypedef, STypedef | SStatic, SStatic | SExtern, SExtern | SInline, SInline | SThread, SThread => true
  | _, _ => false end.
Definition stored_in (s : stor) (l : list dtok) : bool :=
  existsb (fun t => match t with TStor s' => stor_eqb s s' | _ => false end) l.

(** The flags of a declaration. *)
Record vattr := mkattr { atypedef : bool; astatic : bool; aextern : bool; ainline : bool; atls : bool;
                         aconstexpr : bool; aregister : bool; aalign : Z }.
Definition no_attr : vattr := mkattr false false false false false false false 0.

(** Flags of the storage classes. *)
Definition attr_of (l : list dtok) (a : vattr) : vattr :=
  mkattr (stored_in STypedef l || atypedef a) (stored_in SStatic l || astatic a) (stored_in SExtern l || aextern a)
         (stored_in SInline l || ainline a) (stored_in SThread l || atls a)
         (aconstexpr a) (aregister a) (aalign a).
(** Specifiers other than those that name a type not made of keywords. *)
Definition plain (t : dtok) : Prop :=
  match t with TKw _ | TQual _ | TStor _ | TNoreturn => True | _ => False end.
Definition no_type (t : dtok) : Prop :=
  match t with TQual _ | TStor _ | TNoreturn => True | _ => False end.
(** A typedef is neither static, extern, inline nor thread local. *)
Definition storage_ok (l : list dtok) : Prop :=
  stored_in STypedef l = true ->
  stored_in SStatic l = false /\ stored_in SExtern l = false /\ stored_in SInline l = false /\
  stored_in SThread l = false.
Definition signs_once (l : list dtok) : Prop :=
  (count_occ kw_eq_dec (kws l) KSigned <= 1)%nat /\ (count_occ kw_eq_dec (kws l) KUnsigned <= 1)%nat.
(** What ends a list of specifiers whose type specifiers are [ks]: no specifier at all, or a typedef
    name after a type specifier (it is the name declared). *)
Definition stops (ks : list kw) (l : list dtok) : Prop :=
  match l with TStop :: _ | [] => True | TName _ :: _ => ks <> [] | _ => False end.
