(** Compound assignment to an atomic object by several threads, and atomic exchange. *)
From Coq Require Import ZArith List Bool.
From Verif Require Import IntSpec.
Import ListNotations.
Local Open Scope Z_scope.

(** A change of the object: by whom ([None] for anything else in the program), from what, to what. *)
Definition change := (option nat * Z * Z)%type.
(** Newest first: the changes lead from [v0] to [v]. *)
Fixpoint leads (v0 : Z) (l : list change) (v : Z) : Prop :=
  match l with
  | [] => v = v0
  | (_, a, b) :: r => v = b /\ leads v0 r a
  end.
(** The changes by thread [i]. *)
Definition own (i : nat) (l : list change) : list change :=
  filter (fun c => match fst (fst c) with Some j => Nat.eqb i j | None => false end) l.
(** Every change by a thread [i] is by its operation [f i]. *)
Definition lawful (f : nat -> Z -> Z) (l : list change) : Prop :=
  forall i a b, In (Some i, a, b) l -> b = f i a.

(** Bytes of an integer type. *)
Definition bytes_of (t : ityp) : Z := Z.max 1 (iwidth t / 8).
