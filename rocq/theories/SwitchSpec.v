(** Specification of switch: which label control goes to. *)
From Coq Require Import ZArith List Bool.
From Verif Require Import Base.
Import ListNotations.
Local Open Scope Z_scope.

(** Type of the controlling expression: bytes, bits (fewer than 8 per byte for a bit-field, which
    is taken to be of type int or smaller) and signedness. It is promoted: to int if that has all
    its values. *)
Record ctype := mkct { ct_size : Z; ct_bits : Z; ct_uns : bool }.
Definition ctype_ok (t : ctype) : Prop :=
  In (ct_size t) [1; 2; 4; 8] /\ 1 <= ct_bits t <= 8 * ct_size t /\ (ct_size t = 8 -> ct_bits t = 64).
(** Values of the type. *)
Definition ct_value (t : ctype) (v : Z) : Prop :=
  if ct_uns t then 0 <= v < 2 ^ ct_bits t else - 2 ^ (ct_bits t - 1) <= v < 2 ^ (ct_bits t - 1).
(** Conversion of a case constant to the promoted type. *)
Definition cconv (t : ctype) (z : Z) : Z :=
  if ct_size t =? 8 then if ct_uns t then trunc 64 z else sext 64 z
  else if (ct_bits t =? 32) && ct_uns t then trunc 32 z else sext 32 z.
(** What is inside the switch: case constants or ranges, and default, with labels of their own. *)
Inductive item (L : Type) := ICase (l : L) (lo hi : Z) | IDefault (l : L).
Arguments ICase {L}. Arguments IDefault {L}.
Definition hits {L} (t : ctype) (v : Z) (i : item L) : Prop :=
  match i with ICase _ lo hi => cconv t lo <= v <= cconv t hi | IDefault _ => False end.
(** A switch without mistakes: no range is empty, no value occurs twice, one default at most. *)
Definition nonempty {L} (t : ctype) (i : item L) : Prop :=
  match i with ICase _ lo hi => cconv t lo <= cconv t hi | IDefault _ => True end.
Definition compatible {L} (t : ctype) (i j : item L) : Prop :=
  match i, j with
  | IDefault _, IDefault _ => False
  | _, _ => forall v, ~ (hits t v i /\ hits t v j)
  end.
Definition valid {L} (t : ctype) (is : list (item L)) : Prop :=
  Forall (nonempty t) is /\ ForallOrdPairs (compatible t) is.
(** Where control goes for the value [v]; [brk]: past the switch. *)
Inductive goes {L} (t : ctype) (is : list (item L)) (brk : L) (v : Z) : L -> Prop :=
| goes_case : forall l lo hi, In (ICase l lo hi) is -> cconv t lo <= v <= cconv t hi -> goes t is brk v l
| goes_default : forall l, In (IDefault l) is -> (forall i, In i is -> ~ hits t v i) -> goes t is brk v l
| goes_out : (forall l, ~ In (IDefault l) is) -> (forall i, In i is -> ~ hits t v i) -> goes t is brk v brk.
(** Case constants, as the constant expressions give them. *)
Definition consts {L} (is : list (item L)) : list Z :=
  flat_map (fun i => match i with ICase _ lo hi => [lo; hi] | IDefault _ => [] end) is.
Definition in_int64 (z : Z) : Prop := - 2 ^ 63 <= z < 2 ^ 63.
(** For an unsigned type smaller than int: no range goes from a negative to a nonnegative value of
    the promoted type, or back. *)
Definition one_sign {L} (t : ctype) (i : item L) : Prop :=
  match i with
  | ICase _ lo hi => ct_uns t = true -> ct_bits t < 32 -> (0 <= cconv t lo <-> 0 <= cconv t hi)
  | IDefault _ => True
  end.
