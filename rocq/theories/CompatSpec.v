(** C types and the relation "compatible types" of the C standard (6.2.7, 6.7.2.2, 6.7.3, 6.7.6.1-3),
    written without reference to the code. *)
From Coq Require Import ZArith List Bool.
Import ListNotations.
Local Open Scope Z_scope.

Record quals : Type := Quals { q_atomic : bool; q_const : bool; q_volatile : bool; q_restrict : bool }.
Definition noq : quals := Quals false false false false.

Inductive ikind : Type := KPchar | KChar | KShort | KInt | KLong | KLongLong.
Inductive fkind : Type := KFloat | KDouble | KLdouble.

(** [CRec id] is the structure or union type declared by definition number [id]; [CEnum id k u] the
    enumeration number [id] whose compatible integer type is [CInt k u]. The length of an array
    is [None] if it is not given. *)
Inductive ctype : Type :=
| CVoid | CBool
| CInt (k : ikind) (u : bool)
| CFlo (k : fkind)
| CRec (id : Z)
| CEnum (id : Z) (k : ikind) (u : bool)
| CPtr (q : quals) (t : ctype)
| CArr (len : option Z) (q : quals) (t : ctype)
| CVla (q : quals) (t : ctype)
| CFun (ret : ctype) (variadic : bool) (params : list (quals * ctype)).

(** 6.7.6.2: if both lengths are there they must be equal. *)
Definition len_agree (a b : option Z) : Prop :=
  match a, b with Some x, Some y => x = y | _, _ => True end.

(** Compatibility of two types without qualifiers. Pointers and arrays want identically qualified
    compatible types; a parameter loses its qualifiers, but an atomic type is another type
    (6.2.5, 6.7.6.3). *)
Inductive compat : ctype -> ctype -> Prop :=
| cp_void : compat CVoid CVoid
| cp_bool : compat CBool CBool
| cp_int : forall k u, compat (CInt k u) (CInt k u)
| cp_flo : forall k, compat (CFlo k) (CFlo k)
| cp_rec : forall i, compat (CRec i) (CRec i)
| cp_enum : forall i k u, compat (CEnum i k u) (CEnum i k u)
| cp_enum_l : forall i k u, compat (CEnum i k u) (CInt k u)
| cp_enum_r : forall i k u, compat (CInt k u) (CEnum i k u)
| cp_ptr : forall q a b, compat a b -> compat (CPtr q a) (CPtr q b)
| cp_arr : forall m n q a b, len_agree m n -> compat a b -> compat (CArr m q a) (CArr n q b)
| cp_vla_l : forall n q a b, compat a b -> compat (CVla q a) (CArr n q b)
| cp_vla_r : forall n q a b, compat a b -> compat (CArr n q a) (CVla q b)
| cp_vla : forall q a b, compat a b -> compat (CVla q a) (CVla q b)
| cp_fun : forall r1 r2 v l1 l2, compat r1 r2 -> compat_params l1 l2 ->
    compat (CFun r1 v l1) (CFun r2 v l2)
with compat_params : list (quals * ctype) -> list (quals * ctype) -> Prop :=
| cps_nil : compat_params [] []
| cps_cons : forall q1 q2 a b l1 l2, q_atomic q1 = q_atomic q2 -> compat a b -> compat_params l1 l2 ->
    compat_params ((q1, a) :: l1) ((q2, b) :: l2).

(** The types on which the code agrees with the standard: no enumeration and no
    atomic parameter inside. *)
Fixpoint plain (t : ctype) : Prop :=
  match t with
  | CEnum _ _ _ => False
  | CPtr _ a | CArr _ _ a | CVla _ a => plain a
  | CFun r _ l =>
      plain r /\
      (fix all (l : list (quals * ctype)) : Prop :=
         match l with [] => True | (q, a) :: m => q_atomic q = false /\ plain a /\ all m end) l
  | _ => True
  end.
