(** Generic selections (6.5.1.1): which expression is chosen. *)
From Coq Require Import ZArith List Bool.
From Verif Require Import CompatSpec.
Import ListNotations.

(** The type of the controlling expression after lvalue, array and function conversion
    (6.3.2.1); it has no qualifiers. *)
Definition converted (t : ctype) : ctype :=
  match t with
  | CFun _ _ _ => CPtr noq t
  | CArr _ q e | CVla q e => CPtr q e
  | _ => t
  end.

(** An association with a type name, or the default one; its expression is a number. *)
Inductive association : Type := ForType (q : quals) (t : ctype) | ForDefault.
Definition fits (c : ctype) (a : association) : Prop :=
  match a with ForType q t => q = noq /\ compat c t | ForDefault => False end.

(** 6.5.1.1, constraints: the type of the controlling expression is compatible with at most one of the
    types, and there is at most one default. *)
Definition admissible (c : ctype) (l : list (association * nat)) : Prop :=
  ForallOrdPairs (fun a b => ~ (fits c (fst a) /\ fits c (fst b)) /\ ~ (fst a = ForDefault /\ fst b = ForDefault)) l.

(** 6.5.1.1, semantics. *)
Definition selects (c : ctype) (l : list (association * nat)) (e : nat) : Prop :=
  (exists a, In (a, e) l /\ fits c a) \/
  ((forall a e', In (a, e') l -> ~ fits c a) /\ In (ForDefault, e) l).
