(** Byte ranges inside numbered pages. *)
From Coq Require Import ZArith List Bool.
Import ListNotations.
Local Open Scope Z_scope.

(** A byte range: page, first offset, length. *)
Record range : Type := mkrange { rpage : nat; rstart : Z; rlen : Z }.

Definition covers (r : range) (p : nat) (o : Z) : Prop :=
  p = rpage r /\ rstart r <= o < rstart r + rlen r.

(** No byte belongs to both ranges. *)
Definition disjoint (r1 r2 : range) : Prop :=
  forall p o, covers r1 p o -> covers r2 p o -> False.

(** Any two blocks at different positions of the list are disjoint. *)
Definition pairwise_disjoint (l : list range) : Prop :=
  forall i j r1 r2, i <> j -> nth_error l i = Some r1 -> nth_error l j = Some r2 ->
  disjoint r1 r2.
