(** Bit-fields as the standard and the ABI describe them: a field of [w] bits at bit [off]
    of a little-endian storage unit. *)
From Coq Require Import ZArith Bool.
From Verif Require Import IntSpec.
Local Open Scope Z_scope.

(** [new] is the unit [old] with the low bits of [v] in the field. *)
Definition field_set (w off old v new : Z) : Prop :=
  0 <= new /\
  forall k, 0 <= k -> Z.testbit new k =
    if (off <=? k) && (k <? off + w) then Z.testbit v (k - off) else Z.testbit old k.

(** Conversion of a value to a field of type [t] and width [w]. *)
Definition field_conv (t : ityp) (w v : Z) : Z :=
  let b := v mod 2 ^ w in
  if isigned t && (2 ^ (w - 1) <=? b) then b - 2 ^ w else b.

(** Where the field lies. [width_ok] is the constraint of the standard on the width. *)
Definition width_ok (t : ityp) (w : Z) : Prop := 1 <= w <= iwidth t.
Definition inside (t : ityp) (w off : Z) : Prop := 0 <= off /\ off + w <= Z.max 8 (iwidth t).
Definition apart (w off w' off' : Z) : Prop := off + w <= off' \/ off' + w' <= off.

(** Fields of 64-bit types for which the compiler leaves the upper half of the value of an
    assignment expression wrong. *)
Definition bad_value (t : ityp) (w off : Z) : Prop :=
  iwidth t = 64 /\ off mod 8 = 0 /\ ((isigned t = true /\ (w = 8 \/ w = 16)) \/ w = 32).
