(** How type descriptors in memory stand for C types. [ty_void] and [ty_bool]
    are the addresses of those two descriptors (type.c:3-22). *)
From Coq Require Import ZArith List Bool.
From Verif Require Import Base CompatSpec CompatModel.
Import ListNotations.
Local Open Scope Z_scope.

Definition ikind_of (k : ikind) : tkind :=
  match k with
  | KPchar => TY_PCHAR | KChar => TY_CHAR | KShort => TY_SHORT | KInt => TY_INT
  | KLong => TY_LONG | KLongLong => TY_LONGLONG
  end.
Definition fkind_of (k : fkind) : tkind :=
  match k with KFloat => TY_FLOAT | KDouble => TY_DOUBLE | KLdouble => TY_LDOUBLE end.
Definition len_of (n : Z) : option Z := if n <? 0 then None else Some n.

Section Rep.
Variables ty_void ty_bool : Z.
Variable h : memory.

(** The descriptor at [p] (qualifiers aside) stands for the type. A structure type is the address
    of its definition; an enumeration is a descriptor of its integer type. *)
Inductive rep : Z -> ctype -> Prop :=
| rp_origin : forall p r t, p <> 0 -> h p = Some r -> origin r <> 0 -> rep (origin r) t -> rep p t
| rp_enum : forall p i k u, rep p (CInt k u) -> rep p (CEnum i k u)
| rp_void : forall r, ty_void <> 0 -> h ty_void = Some r -> origin r = 0 -> kind r = TY_VOID -> rep ty_void CVoid
| rp_bool : forall r, ty_bool <> 0 -> h ty_bool = Some r -> origin r = 0 -> kind r = TY_BOOL -> rep ty_bool CBool
| rp_int : forall p r k, p <> 0 -> h p = Some r -> origin r = 0 -> kind r = ikind_of k ->
    rep p (CInt k (is_unsigned r))
| rp_flo : forall p r k, p <> 0 -> h p = Some r -> origin r = 0 -> kind r = fkind_of k -> rep p (CFlo k)
| rp_rec : forall p r, p <> 0 -> h p = Some r -> origin r = 0 -> kind r = TY_STRUCT \/ kind r = TY_UNION ->
    rep p (CRec p)
| rp_ptr : forall p r q t, p <> 0 -> h p = Some r -> origin r = 0 -> kind r = TY_PTR -> repq (base r) q t ->
    rep p (CPtr q t)
| rp_arr : forall p r q t, p <> 0 -> h p = Some r -> origin r = 0 -> kind r = TY_ARRAY -> repq (base r) q t ->
    rep p (CArr (len_of (array_len r)) q t)
| rp_vla : forall p r q t, p <> 0 -> h p = Some r -> origin r = 0 -> kind r = TY_VLA -> repq (base r) q t ->
    rep p (CVla q t)
| rp_fun : forall p r ret l, p <> 0 -> h p = Some r -> origin r = 0 -> kind r = TY_FUNC ->
    rep (return_ty r) ret -> reps (params r) l -> rep p (CFun ret (is_variadic r) l)
with repq : Z -> quals -> ctype -> Prop :=
| rq : forall p r t, h p = Some r -> rep p t -> repq p (quals_of r) t
with reps : list Z -> list (quals * ctype) -> Prop :=
| rs_nil : reps [] []
| rs_cons : forall p q t l m, repq p q t -> reps l m -> reps (p :: l) ((q, t) :: m).
End Rep.

(** [p] and [q] are compared: the comparison ends with the given answer. *)
Definition compares (h : memory) (p q : Z) (b : bool) : Prop :=
  exists n, forall f, (n <= f)%nat -> is_compatible f h p q = Ok b.

(** The descriptors of void, bool, structures and unions that are nobody's variant carry no qualifiers. *)
Definition clean (h : memory) : Prop :=
  forall p r, h p = Some r -> origin r = 0 ->
    kind r = TY_VOID \/ kind r = TY_BOOL \/ kind r = TY_STRUCT \/ kind r = TY_UNION -> quals_of r = noq.

(** [h'] has all descriptors of [h], unchanged. *)
Definition extends (h h' : memory) : Prop := forall p r, h p = Some r -> h' p = Some r.
