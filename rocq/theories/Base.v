(** Common vocabulary: outcomes of modelled functions, machine words.
    Nothing here models a particular function of the code base. *)
From Coq Require Import ZArith List Bool Lia.
Import ListNotations.
Local Open Scope Z_scope.

(** Result of a modelled C function: a value, undefined behaviour of the compiler
    itself (overflow of a signed int, access outside an object), or a controlled
    abort (internal_error / error_tok). *)
Inductive outcome (A : Type) : Type :=
| Ok (a : A)
| UB
| Abort.
Arguments Ok {A} a.
Arguments UB {A}.
Arguments Abort {A}.

Definition bind {A B} (o : outcome A) (f : A -> outcome B) : outcome B :=
  match o with
  | Ok a => f a
  | UB => UB
  | Abort => Abort
  end.

Notation "'do' x <- o ; f" := (bind o (fun x => f))
  (at level 200, x name, o at level 100, f at level 200).

Definition two64 : Z := 18446744073709551616.
Definition two63 : Z := 9223372036854775808.
Definition two32 : Z := 4294967296.
Definition two31 : Z := 2147483648.

Definition INT_MAX : Z := 2147483647.
Definition INT_MIN : Z := -2147483648.

(** Value of a C [int] expression: UB on overflow. *)
Definition int_of (z : Z) : outcome Z :=
  if (INT_MIN <=? z) && (z <=? INT_MAX) then Ok z else UB.

(** Value of a C expression of type [int64_t]: UB on overflow. *)
Definition long_of (z : Z) : outcome Z :=
  if (-9223372036854775808 <=? z) && (z <=? 9223372036854775807) then Ok z else UB.

(** Low [n] bits of an integer. *)
Definition trunc (n : Z) (z : Z) : Z := z mod 2 ^ n.

(** Two's complement value of the low [n] bits. *)
Definition sext (n : Z) (z : Z) : Z :=
  let u := z mod 2 ^ n in
  if u <? 2 ^ (n - 1) then u else u - 2 ^ n.

(** Update one element of a list (no effect outside it). *)
Fixpoint upd {A} (l : list A) (i : nat) (x : A) : list A :=
  match l, i with
  | [], _ => []
  | _ :: r, O => x :: r
  | a :: r, S j => a :: upd r j x
  end.

(** Conversion of an [int64_t] to [int]: the low 32 bits. *)
Definition int_conv (z : Z) : Z := sext 32 z.
