(** Enumerations (6.7.2.2): the values of the enumerators and types for them. *)
From Coq Require Import ZArith List.
From Verif Require Import IntSpec.
Import ListNotations.
Local Open Scope Z_scope.

(** An enumerator: without value, or with a constant expression of value [v] and type [t]. *)
Definition enumerator : Type := option (Z * ityp).
Definition well_typed (e : enumerator) : Prop :=
  match e with None => True | Some (v, t) => in_range t v end.

(** The first enumerator without value is 0, any other one more than its predecessor. *)
Fixpoint values (prev : Z) (l : list enumerator) : list Z :=
  match l with
  | [] => []
  | None :: r => (prev + 1) :: values (prev + 1) r
  | Some (v, _) :: r => v :: values v r
  end.
Definition enum_values (l : list enumerator) : list Z := values (-1) l.

Definition all_in (t : ityp) (vs : list Z) : Prop := Forall (in_range t) vs.

(** Values the theorem is about. *)
Definition dom (v : Z) : Prop := - 2 ^ 63 <= v < 2 ^ 64 - 2 ^ 31 /\ v <> 2 ^ 63 - 1.
