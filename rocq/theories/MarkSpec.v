(** Presumed line numbers and file names (6.10.5, C23; 6.10.4, C17). *)
From Coq Require Import ZArith List Bool.
From Verif Require Import LexSpec.
Import ListNotations.
Local Open Scope Z_scope.

(** The number of physical line [n] (from 1), where [marks k] is the number given by a #line directive
    that ends on line [k]: the line after the directive has that number, and every other
    line has the number after that of the line before. *)
Fixpoint number (marks : nat -> option Z) (n : nat) : Z :=
  match n with
  | O => 0
  | S k => match marks k with Some v => v | None => number marks k + 1 end
  end.
(** The presumed name in the same way; [base] is the name of the file. *)
Fixpoint naming {A : Type} (names : nat -> option A) (base : A) (n : nat) : A :=
  match n with
  | O => base
  | S k => match names k with Some s => s | None => naming names base k end
  end.

(** A digit sequence is always decimal here. *)
Definition says (w : list Z) (v : Z) : Prop := forallb digit w = true /\ w <> [] /\ value_of 10 w = v.
