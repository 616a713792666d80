(** The arguments of options on the command line. *)
From Coq Require Import ZArith List Bool.
Import ListNotations.
Local Open Scope Z_scope.

(** [joined l s]: [s] is the texts of [l] with commas between them, and no text has a comma. *)
Inductive joined : list (list Z) -> list Z -> Prop :=
  | j_one : forall a, ~ In 44 a -> joined [a] a
  | j_more : forall a l s, ~ In 44 a -> joined l s -> joined (a :: l) (a ++ 44 :: s).
(** The texts that are not empty, in order. *)
Definition nonempty (l : list (list Z)) : list (list Z) := filter (fun a => negb (Nat.eqb (length a) 0)) l.

(** [has_value opt args v used]: at the front of [args] the option [opt] stands with the value [v], and [used]
    arguments are its: the value is the next argument, or follows in the same one. *)
Inductive has_value (opt : list Z) : list (list Z) -> list Z -> nat -> Prop :=
  | hv_next : forall v r, has_value opt (opt :: v :: r) v 2
  | hv_same : forall v r, v <> [] -> has_value opt ((opt ++ v) :: r) v 1.
