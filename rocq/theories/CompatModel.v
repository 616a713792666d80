(** Model of type descriptors and type compatibility: type.c 63-108, 189-290 (and the copy of a
    structure type made by parse.c 1914-1915). A [Type *] is an address, NULL is 0; the memory
    maps addresses to the fields that compatibility looks at. Fields not modelled: size, align, members,
    decl_next, vla_len, vla_size, scopes, pre_calc, is_oldstyle, is_unspec_enum, is_flexible,
    is_packed. A recursion that does not end exhausts the fuel: [Abort]. *)
From Coq Require Import ZArith List Bool.
From Verif Require Import Base CompatSpec.
Import ListNotations.
Local Open Scope Z_scope.

(** slimcc.h:522-541, the type kinds. *)
Inductive tkind : Type :=
| TY_VOID | TY_BOOL | TY_PCHAR | TY_CHAR | TY_SHORT | TY_INT | TY_LONG | TY_LONGLONG
| TY_FLOAT | TY_DOUBLE | TY_LDOUBLE | TY_ENUM | TY_PTR | TY_FUNC | TY_ARRAY | TY_VLA
| TY_STRUCT | TY_UNION.
Definition kind_dec : forall a b : tkind, {a = b} + {a <> b}.
Proof. decide equality. Defined.
Definition kind_eqb (a b : tkind) : bool := if kind_dec a b then true else false.

(** slimcc.h:544-586. [params] are the types of the objects of param_list. *)
Record trec : Type := Trec {
  kind : tkind; is_unsigned : bool; quals_of : quals; origin : Z; base : Z; array_len : Z;
  return_ty : Z; params : list Z; is_variadic : bool }.
Definition memory : Type := Z -> option trec.
Definition deref (h : memory) (p : Z) : outcome trec :=
  match h p with Some r => Ok r | None => UB end.

(** type.c:126-128 *)
Definition is_array (k : tkind) : bool := kind_eqb k TY_ARRAY || kind_eqb k TY_VLA.

(** type.c:189-199: the comparison of the qualifiers. *)
Definition same_quals (a b : quals) : bool :=
  Bool.eqb (q_atomic a) (q_atomic b) && Bool.eqb (q_const a) (q_const b) &&
  Bool.eqb (q_volatile a) (q_volatile b) && Bool.eqb (q_restrict a) (q_restrict b).
Section Cmp.
Variable h : memory.
Variable cmp : Z -> Z -> outcome bool.
Definition is_compatible2 (p1 p2 : Z) : outcome bool :=
  do r1 <- deref h p1;
  do r2 <- deref h p2;
  if same_quals (quals_of r1) (quals_of r2) then cmp p1 p2 else Ok false.

(** type.c:240-243: the loop over both parameter lists. *)
Fixpoint cmp_params (l1 l2 : list Z) : outcome bool :=
  match l1, l2 with
  | [], [] => Ok true
  | a :: m1, b :: m2 => do c <- cmp a b; if c then cmp_params m1 m2 else Ok false
  | _, _ => Ok false
  end.

(** type.c:211-251: two types without origin. *)
Definition is_compatible_base (r1 r2 : trec) : outcome bool :=
  if (kind_eqb (kind r1) TY_VLA && is_array (kind r2)) || (is_array (kind r1) && kind_eqb (kind r2) TY_VLA)
  then is_compatible2 (base r1) (base r2)
  else if negb (kind_eqb (kind r1) (kind r2)) then Ok false
  else
    match kind r1 with
    | TY_PCHAR | TY_CHAR | TY_SHORT | TY_INT | TY_LONG | TY_LONGLONG =>
        Ok (Bool.eqb (is_unsigned r1) (is_unsigned r2))
    | TY_FLOAT | TY_DOUBLE | TY_LDOUBLE => Ok true
    | TY_PTR => is_compatible2 (base r1) (base r2)
    | TY_FUNC =>
        do c <- cmp (return_ty r1) (return_ty r2);
        if negb c then Ok false
        else if negb (Bool.eqb (is_variadic r1) (is_variadic r2)) then Ok false
        else cmp_params (params r1) (params r2)
    | TY_ARRAY =>
        do c <- is_compatible2 (base r1) (base r2);
        if negb c then Ok false
        else Ok ((array_len r1 <? 0) || (array_len r2 <? 0) || (array_len r1 =? array_len r2))
    | _ => Ok false
    end.
End Cmp.

(** type.c:201-252 *)
Fixpoint is_compatible (fuel : nat) (h : memory) (p1 p2 : Z) : outcome bool :=
  match fuel with
  | O => Abort
  | S f =>
      if p1 =? p2 then Ok true
      else
        do r1 <- deref h p1;
        if negb (origin r1 =? 0) then is_compatible f h (origin r1) p2
        else
          do r2 <- deref h p2;
          if negb (origin r2 =? 0) then is_compatible f h p1 (origin r2)
          else is_compatible_base h (is_compatible f h) r1 r2
  end.

(** type.c:63-75: a new object at an address not used before. *)
Definition alloc (h : memory) (p : Z) (r : trec) : memory := fun x => if x =? p then Some r else h x.
Definition new_type (k : tkind) : trec := Trec k false noq 0 0 0 0 [] false.
Definition copy_type (h : memory) (p new : Z) : outcome memory :=
  do r <- deref h p; Ok (alloc h new r).

(** type.c:91-108 with the qualifiers set by the callers (parse.c 1014-1019): the new type is [new]. *)
Definition new_qualified_type (h : memory) (p new : Z) (q : quals) : outcome memory :=
  do r0 <- deref h p;
  let p := if negb (origin r0 =? 0) then origin r0 else p in
  do r <- deref h p;
  Ok (alloc h new (Trec (kind r) (is_unsigned r) q p (base r) (array_len r) (return_ty r) (params r) (is_variadic r))).

(** type.c:77-89: the memory and the result; [new] is used if a copy is made. *)
Definition unqual (h : memory) (p new : Z) : outcome (memory * Z) :=
  do r0 <- deref h p;
  let p := if negb (origin r0 =? 0) then origin r0 else p in
  do r <- deref h p;
  let q := quals_of r in
  if q_atomic q || q_const q || q_volatile q || q_restrict q
  then Ok (alloc h new (Trec (kind r) (is_unsigned r) noq (origin r) (base r) (array_len r) (return_ty r)
                         (params r) (is_variadic r)), new)
  else Ok (h, p).

(** type.c:254-259 *)
Definition pointer_to (h : memory) (b new : Z) : memory :=
  alloc h new (Trec TY_PTR true noq 0 b 0 0 [] false).

(** type.c:278-283 (the size is not modelled) *)
Definition array_of (h : memory) (b len new : Z) : memory :=
  alloc h new (Trec TY_ARRAY false noq 0 b len 0 [] false).

(** type.c:285-290 *)
Definition vla_of (h : memory) (b new : Z) : memory :=
  alloc h new (Trec TY_VLA false noq 0 b 0 0 [] false).

(** type.c:267-276 and parse.c 1148-1150: a function type; [new1] is for [unqual]. *)
Definition func_type (h : memory) (ret new1 new : Z) (ps : list Z) (variadic : bool) : outcome memory :=
  do r <- deref h ret;
  if negb (base r =? 0) && negb (kind_eqb (kind r) TY_PTR) then Abort
  else
    do u <- unqual h ret new1;
    Ok (alloc (fst u) new (Trec TY_FUNC false noq 0 0 0 (snd u) ps variadic)).

(** parse.c:1285-1294, for a descriptor without later declarations (decl_next NULL). *)
Definition update_enum_ty (h : memory) (decl_ty ty : Z) : outcome memory :=
  do d <- deref h decl_ty;
  do r <- deref h ty;
  Ok (alloc h decl_ty (Trec (kind r) (is_unsigned r) (quals_of d) ty (base d) (array_len d) (return_ty d)
                         (params d) (is_variadic d))).
