(** C25: enumerations. *)
From Coq Require Import ZArith List Bool Lia.
From Verif Require Import Base IntSpec IntModel EnumSpec EnumModel EnumProofs.
Import ListNotations.
Local Open Scope Z_scope.

(** C25: an enumeration without fixed type whose values some integer type can represent gets a
    type that represents them all, every enumerator has its value, and enumerators have type int
    exactly when all values are ints. Values: below 2^64 - 2^31, other than 2^63 - 1. *)
Theorem C25_enum_type l : l <> [] -> Forall well_typed l -> Forall dom (enum_values l) ->
  (Forall (fun v => 0 <= v) (enum_values l) \/ Forall (fun v => v < 2 ^ 63) (enum_values l)) ->
  exists t u, enum_specifier None l = Ok (map i64 (enum_values l), mty t, u) /\
    all_in t (enum_values l) /\
    (u = true \/ t = TInt <-> all_in TInt (enum_values l)).
Proof. exact (enum_free l). Qed.
Print Assumptions C25_enum_type.

(** With a fixed type other than int and unsigned int: accepted exactly when every value is in
    its range, and the type stays what it is. *)
Theorem C25_fixed_type i l : l <> [] -> iwidth i <> 32 -> isigned i = true \/ iwidth i < 64 ->
  Forall well_typed l -> Forall (fun v => - 2 ^ 63 <= v < 2 ^ 63 - 1) (enum_values l) ->
  (all_in i (enum_values l) -> enum_specifier (Some (mty i)) l = Ok (map i64 (enum_values l), mty i, false)) /\
  (~ all_in i (enum_values l) -> enum_specifier (Some (mty i)) l = Abort).
Proof. exact (enum_fixed i l). Qed.
Print Assumptions C25_fixed_type.

(** *** Examples. enum { A = -1, B, C = 3000000000, D }. *)
Definition ex_l : list enumerator := [Some (-1, TInt); None; Some (3000000000, TLong); None].
Example ex_values : enum_values ex_l = [-1; 0; 3000000000; 3000000001].
Proof. reflexivity. Qed.
Example ex_hyps : Forall well_typed ex_l /\ Forall dom (enum_values ex_l) /\ Forall (fun v => v < 2 ^ 63) (enum_values ex_l).
Proof. repeat split; repeat constructor; unfold dom; cbn; lia || (split; lia) || exact Logic.I || (intros [=]). Qed.
Example ex_type : enum_specifier None ex_l = Ok ([-1; 0; 3000000000; 3000000001], ty_long, false).
Proof. vm_compute. reflexivity. Qed.
Example ex_unspec : enum_specifier None [None; Some (7, TInt)] = Ok ([0; 7], ty_uint, true).
Proof. vm_compute. reflexivity. Qed.
Example ex_fixed : enum_specifier (Some ty_short) [Some (32767, TInt); None] = Abort.
Proof. vm_compute. reflexivity. Qed.

(** *** Refuted outside these ranges. [enum { A = 0xFFFFFFFFFFFFFFFF }] gets a 4-byte type. *)
Theorem C25_large_refuted : exists l t, Forall well_typed l /\
  enum_specifier None l = Ok (map i64 (enum_values l), mty t, true) /\ ~ all_in t (enum_values l).
Proof.
  exists [Some (18446744073709551615, TULong)], TUInt. split; [|split].
  - repeat constructor; cbn; lia.
  - vm_compute. reflexivity.
  - intros H. inversion_clear H as [|? ? [_ A] _]. vm_compute in A. congruence.
Qed.
Print Assumptions C25_large_refuted.

(** [enum { A = 0x7FFFFFFFFFFFFFFF }]: the successor no enumerator asks for overflows. *)
Theorem C25_last_refuted : enum_specifier None [Some (9223372036854775807, TLong)] = UB.
Proof. vm_compute. reflexivity. Qed.
Print Assumptions C25_last_refuted.

(** [enum E : int { A }] turns the object of the type int, shared by all declarations, into
    unsigned int. *)
Theorem C25_fixed_int_refuted : exists l, all_in TInt (enum_values l) /\
  enum_specifier (Some (mty TInt)) l = Ok (map i64 (enum_values l), mty TUInt, true).
Proof. exists [None]. split; [repeat constructor; cbn; lia|vm_compute; reflexivity]. Qed.
Print Assumptions C25_fixed_int_refuted.

(** [enum E : unsigned { A = 3000000000 }]: A gets type int. *)
Theorem C25_fixed_uint_refuted : exists l v t u, all_in TUInt (enum_values l) /\
  enum_specifier (Some (mty TUInt)) l = Ok ([v], t, u) /\
  enum_const v t u = NNum (mty TInt) v /\ ~ in_range TInt v.
Proof.
  exists [Some (3000000000, TLong)], 3000000000, ty_uint, true. repeat split.
  - repeat constructor; cbn; lia.
  - unfold in_range. cbn. lia.
Qed.
Print Assumptions C25_fixed_uint_refuted.

(** [enum E : unsigned long { A = -1 }] is accepted. *)
Theorem C25_fixed_ulong_refuted : exists l v, ~ all_in TULong (enum_values l) /\
  enum_specifier (Some (mty TULong)) l = Ok ([v], ty_ulong, false).
Proof.
  exists [Some (-1, TInt)], (-1). split; [|vm_compute; reflexivity].
  intros H. inversion_clear H as [|? ? [A _] _]. vm_compute in A. congruence.
Qed.
Print Assumptions C25_fixed_ulong_refuted.

(** Inside the list the type still is the unspecified one: in
    [enum { A = 0x100000000, B = A + 1 }] A is an int constant and B becomes 1. *)
Theorem C25_reference_refuted : exists v, ~ in_range TInt v /\
  forall c, strict c = true -> eval2 c (NBin BAdd ty_int (enum_const v ty_uint true) (NNum ty_int 1)) = Ok 1.
Proof. exists 4294967296. split; [unfold in_range; cbn; lia|]. intros c H. cbn [eval2 enum_const bind]. unfold h64. rewrite H. vm_compute. reflexivity. Qed.
Print Assumptions C25_reference_refuted.
