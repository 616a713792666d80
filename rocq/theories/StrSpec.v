(** Specification for adjacent string literals (C23 6.4.5). *)
From Coq Require Import ZArith List Bool.
From Verif Require Import IntSpec LexSpec.
Import ListNotations.
Local Open Scope Z_scope.

Inductive prefix := PNone | PU8 | PU16 | PU32 | PWide.
Definition prefix_text (p : prefix) : list Z :=
  match p with PNone => [] | PU8 => [117; 56] | PU16 => [117] | PU32 => [85] | PWide => [76] end.
Definition prefix_enc (p : prefix) : strenc :=
  match p with PNone | PU8 => S8 | PU16 => S16 | PU32 | PWide => S32 end.
(** Type of the elements; the type of u8 strings is that of plain ones. *)
Definition prefix_type (p : prefix) : ityp :=
  match p with PNone | PU8 => TChar | PU16 => TUShort | PU32 => TUInt | PWide => TInt end.
Definition prefix_eqb (p q : prefix) : bool :=
  match p, q with PNone, PNone | PU8, PU8 | PU16, PU16 | PU32, PU32 | PWide, PWide => true | _, _ => false end.
(** The prefix of the result: literals without a prefix take that of the others, which must
    agree. *)
Fixpoint common_prefix (l : list prefix) : option prefix :=
  match l with
  | [] => Some PNone
  | p :: r =>
      match common_prefix r with
      | None => None
      | Some q => if prefix_eqb p PNone then Some q else if prefix_eqb q PNone || prefix_eqb p q then Some p else None
      end
  end.
(** Little-endian representation. *)
Fixpoint le (n : nat) (v : Z) : list Z :=
  match n with O => [] | S n' => v mod 256 :: le n' (v / 256) end.
Definition ebytes (p : prefix) : nat := match prefix_enc p with S8 => 1 | S16 => 2 | S32 => 4 end.
