(** C42, C54: conversions between integer and floating types. *)
From Coq Require Import ZArith List Bool Lia.
From Verif Require Import Base IntSpec IntModel X86 CgModel FcvtSpec FcvtModel FcvtProofs.
Import ListNotations.
Local Open Scope Z_scope.

(** C42: a floating value whose integral part the integer type has is converted to that integral part; the stack pointer, the control word
    and the memory above the stack are as before, and a long double is gone from the x87 stack. Some conversions from long double excepted. *)
Theorem C42_to_int : forall rnd f T x m,
  T <> TBool -> exact_on (prec f) rnd -> fits (prec f) x -> fval f m = Some x -> 0 <= cw m < 2 ^ 16 ->
  in_range T (trunc_dy x) -> (f = F80 -> ok80 T (trunc_dy x)) ->
  exists m', crun (prec f) rnd (f_to_i f (getTypeId (mty T))) m = Some m' /\ holds_int T (trunc_dy x) m' /\ safe m m' /\ popped f m m'.
Proof. exact to_int. Qed.
Print Assumptions C42_to_int.

Definition m0 (x : dy) (v : Z) : cm := mkc v 0 0 4096 x (0, 0) [x] 0x37F false (fun _ => 0).
Definition id_rnd (x : dy) : dy := x.
Example C42_example :
  exact_on 53 id_rnd /\ in_range TULong (trunc_dy (2 ^ 52 + 1, 11)) /\ fits 53 (2 ^ 52 + 1, 11) /\ fits 64 (- 7, -1) /\
  option_map ra (crun 53 id_rnd (f_to_i F64 (getTypeId (mty TULong))) (m0 (2 ^ 52 + 1, 11) 0)) = Some (2 ^ 63 + 2 ^ 11) /\
  option_map ra (crun 64 id_rnd (f_to_i F80 (getTypeId (mty TInt))) (m0 (- 7, -1) 0)) = Some (2 ^ 32 - 3).
Proof.
  split; [intros y z _ H; exact H|]. split; [vm_compute; split; discriminate|]. split; [vm_compute; reflexivity|]. split; [vm_compute; reflexivity|].
  split; vm_compute; reflexivity.
Qed.

(** C42 is false of long double: to short only the low byte is kept, to unsigned short the value is sign extended, and
    to unsigned int values from 2^31 are not converted at all. *)
Theorem C42_f80_refuted :
  (in_range TShort 256 /\ in_range TShort (-1) /\ in_range TUShort 40000 /\ in_range TUInt 3000000000) /\
  (trunc_dy (1, 8) = 256 /\ option_map (fun m => ra m mod 2 ^ 32) (crun 64 id_rnd (f_to_i F80 (getTypeId (mty TShort))) (m0 (1, 8) 0)) = Some 0) /\
  (trunc_dy (-1, 0) = -1 /\ option_map (fun m => ra m mod 2 ^ 32) (crun 64 id_rnd (f_to_i F80 (getTypeId (mty TShort))) (m0 (-1, 0) 0)) = Some 255) /\
  (trunc_dy (40000, 0) = 40000 /\ option_map (fun m => ra m mod 2 ^ 32) (crun 64 id_rnd (f_to_i F80 (getTypeId (mty TUShort))) (m0 (40000, 0) 0)) = Some (40000 - 2 ^ 16 + 2 ^ 32)) /\
  (trunc_dy (3000000000, 0) = 3000000000 /\ option_map (fun m => ra m mod 2 ^ 32) (crun 64 id_rnd (f_to_i F80 (getTypeId (mty TUInt))) (m0 (3000000000, 0) 0)) = Some (2 ^ 31)).
Proof. split; [repeat split; vm_compute; discriminate|]. repeat split; vm_compute; reflexivity. Qed.
Print Assumptions C42_f80_refuted.

(** C54: an integer is converted to the nearest value of the floating type, the even one of two; nothing else is disturbed. *)
Theorem C54_to_float : forall rnd f T n m,
  exact_on (prec f) rnd -> in_range T n -> 0 <= ra m < 2 ^ 64 -> holds_int T n m ->
  exists m' y, crun (prec f) rnd (i_to_f (getTypeId (mty T)) f) m = Some m' /\ fval f m' = Some y /\ same y (rne (prec f) n, 0) /\
    safe m m' /\ pushed f m m'.
Proof. exact to_float. Qed.
Print Assumptions C54_to_float.

(** 2^64 - 2^39 - 1 is not quite half way between two floats, 2^64 - 2^39 is exactly half way; a naive halving would round both alike. *)
Example C54_example :
  in_range TULong (2 ^ 64 - 2 ^ 39 - 1) /\ holds_int TULong (2 ^ 64 - 2 ^ 39 - 1) (m0 (0, 0) (2 ^ 64 - 2 ^ 39 - 1)) /\
  option_map x0 (crun 24 id_rnd (i_to_f (getTypeId (mty TULong)) F32) (m0 (0, 0) (2 ^ 64 - 2 ^ 39 - 1))) = Some (2 ^ 64 - 2 ^ 40, 0) /\
  option_map x0 (crun 24 id_rnd (i_to_f (getTypeId (mty TULong)) F32) (m0 (0, 0) (2 ^ 64 - 2 ^ 39))) = Some (2 ^ 64, 0) /\
  rne 24 16777217 = 16777216 /\ rne 24 16777219 = 16777220.
Proof. split; [vm_compute; split; discriminate|]. repeat split; vm_compute; reflexivity. Qed.
