(** Model of generic selections: parse.c 4105-4147. The descriptors of the type names are already in
    memory (they are made one after the other by typename, and older descriptors do not change); an
    expression is a number, and the parsing of the expressions is left out. *)
From Coq Require Import ZArith List Bool.
From Verif Require Import Base CompatSpec CompatModel CompatRep GenericSpec.
Import ListNotations.
Local Open Scope Z_scope.

Inductive assoc : Type := Default (e : nat) | For (p : Z) (e : nat).

(** parse.c:4116-4122: the memory and the type; [new] is used if a descriptor is made. *)
Definition control (h : memory) (p new : Z) : outcome (memory * Z) :=
  do r <- deref h p;
  if kind_eqb (kind r) TY_FUNC then Ok (pointer_to h p new, new)
  else if is_array (kind r) then Ok (pointer_to h (base r) new, new)
  else unqual h p new.

(** parse.c:4126-4142, the loop over the associations. *)
Fixpoint choose (fuel : nat) (h : memory) (t1 : Z) (ret : option nat) (l : list assoc) : outcome (option nat) :=
  match l with
  | [] => Ok ret
  | Default e :: m => choose fuel h t1 (match ret with None => Some e | Some _ => ret end) m
  | For t2 e :: m =>
      do r <- deref h t2;
      if kind_eqb (kind r) TY_FUNC then Abort
      else
        do c <- is_compatible2 h (is_compatible fuel h) t1 t2;
        choose fuel h t1 (if c then Some e else ret) m
  end.

(** parse.c:4109-4147 *)
Definition generic_selection (fuel : nat) (h : memory) (ctrl new : Z) (l : list assoc) : outcome nat :=
  do u <- control h ctrl new;
  do r <- choose fuel (fst u) (snd u) None l;
  match r with Some e => Ok e | None => Abort end.

(** A variant has the kind and the base type of its origin: copies made by new_qualified_type
    (type.c:91-108). *)
Definition variants (h : memory) : Prop :=
  forall p r, h p = Some r -> origin r <> 0 ->
    exists o, h (origin r) = Some o /\ kind r = kind o /\ base r = base o.

(** The associations in memory stand for those of the program; none has a function type, an enumeration
    or an atomic parameter. *)
Definition stands (vd bl : Z) (h : memory) (a : assoc) (b : association * nat) : Prop :=
  match a, b with
  | Default e, (ForDefault, e') => e = e'
  | For p e, (ForType q t, e') => e = e' /\ repq vd bl h p q t /\ plain t /\ ~ exists r v l, t = CFun r v l
  | _, _ => False
  end.
