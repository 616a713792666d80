(** C21: loads and stores of bit-fields. *)
From Coq Require Import ZArith List Bool Lia.
From Verif Require Import Base IntSpec IntModel IntProofs X86 CgModel CgLemmas CgSpec BfSpec BfModel BfProofs.
Import ListNotations.
Local Open Scope Z_scope.

(** A store puts the low bits of %rax into the field, leaves all other bits of the storage
    unit, all other bytes and all registers but the scratch registers alone, and (outside
    the fields of [bad_value]) leaves the converted value in %rax. *)
Theorem C21_store : forall sym i w off p m a void code,
  width_ok i w -> inside i w off -> p <> AX -> p <> CX -> p <> DX ->
  rg m p mod 2 ^ 64 = a -> a + isize i <= 2 ^ 64 ->
  gen_bitfield_store (mty i) w off p void = Ok code ->
  exists m', run sym code None m = Some (None, m') /\
    (forall r, r <> AX -> r <> CX -> r <> DX -> rg m' r = rg m r) /\
    (forall x, x < a \/ a + isize i <= x -> mm m' x = mm m x) /\
    field_set w off (loadn (Z.to_nat (isize i)) a (mm m)) (rg m AX)
      (loadn (Z.to_nat (isize i)) a (mm m')) /\
    (void = false -> ~ bad_value i w off ->
     eqm (result_bits i) (rg m' AX) (field_conv i w (rg m AX))).
Proof. exact bf_store. Qed.
Print Assumptions C21_store.

(** The stored value is the one read back; other fields of the unit keep theirs. *)
Theorem C21_fields : forall sym i w off p m a void code m',
  width_ok i w -> inside i w off -> p <> AX -> p <> CX -> p <> DX ->
  rg m p mod 2 ^ 64 = a -> a + isize i <= 2 ^ 64 ->
  gen_bitfield_store (mty i) w off p void = Ok code -> run sym code None m = Some (None, m') ->
  let u := loadn (Z.to_nat (isize i)) a (mm m) in
  let u' := loadn (Z.to_nat (isize i)) a (mm m') in
  field_value i w off u' = field_conv i w (rg m AX) /\
  forall i2 w2 off2, 1 <= w2 -> 0 <= off2 -> apart w off w2 off2 ->
    field_value i2 w2 off2 u' = field_value i2 w2 off2 u.
Proof. exact bf_store_others. Qed.
Print Assumptions C21_fields.

(** The loading code, run on any state with the memory the store left. *)
Theorem C21_load_after_store : forall sym i w off p m a void code m' m2 lcode,
  width_ok i w -> inside i w off -> ~ bad_field i w off -> p <> AX -> p <> CX -> p <> DX ->
  rg m p mod 2 ^ 64 = a -> a + isize i <= 2 ^ 64 ->
  gen_bitfield_store (mty i) w off p void = Ok code -> run sym code None m = Some (None, m') ->
  mm m2 = mm m' -> rg m2 AX mod 2 ^ 64 = a -> gen_bitfield_load (mty i) w off 0 = Ok lcode ->
  exists m3, run sym lcode None m2 = Some (None, m3) /\ mm m3 = mm m2 /\
    eqm (result_bits i) (rg m3 AX) (field_conv i w (rg m AX)).
Proof. exact bf_store_load. Qed.
Print Assumptions C21_load_after_store.

Theorem C21_load : forall sym i w off ofs m a code,
  width_ok i w -> inside i w off -> ~ bad_field i w off ->
  (rg m AX + ofs) mod 2 ^ 64 = a -> a + isize i <= 2 ^ 64 ->
  gen_bitfield_load (mty i) w off ofs = Ok code ->
  exists m', run sym code None m = Some (None, m') /\
    (forall r, r <> AX -> r <> CX -> r <> DX -> rg m' r = rg m r) /\ mm m' = mm m /\
    eqm (result_bits i) (rg m' AX) (field_value i w off (loadn (Z.to_nat (isize i)) a (mm m))).
Proof. exact bf_load. Qed.
Print Assumptions C21_load.

(** The compiler generates code for every field, except for stores to fields of 63 bits. *)
Theorem C21_total : forall i w off p void ofs, width_ok i w -> inside i w off ->
  (w <> 63 -> exists code, gen_bitfield_store (mty i) w off p void = Ok code) /\
  (exists code, gen_bitfield_load (mty i) w off ofs = Ok code).
Proof. intros. split; intros; [apply store_total; auto|apply load_total; auto]. Qed.
Print Assumptions C21_total.

(** *** Examples *)
Definition bmach (ax : Z) (bytes : list Z) : mach :=
  mkm (fun r => match r with AX => ax | DI => 4096 | SP => 8192 | _ => 77 end) None
      (fun x => nth (Z.to_nat (x - 4096)) bytes 0).
Definition unit_after (o : option (option label * mach)) (k : nat) : Z :=
  match o with Some (None, m) => loadn k 4096 (mm m) | _ => -1 end.
Definition ax_after (o : option (option label * mach)) : Z :=
  match o with Some (None, m) => rg m AX | _ => -1 end.
Definition sym0 : nat -> Z := fun _ => 0.

Definition store_run (i : ityp) (w off : Z) (void : bool) (m : mach) : option (option label * mach) :=
  match gen_bitfield_store (mty i) w off DI void with Ok c => run sym0 c None m | _ => None end.
Definition load_run (i : ityp) (w off : Z) (m : mach) : option (option label * mach) :=
  match gen_bitfield_load (mty i) w off 0 with Ok c => run sym0 c None m | _ => None end.

(** struct { int a:5, b:6; unsigned c:21; } s; s.b = 45: b becomes -19. *)
Example C21_store_ex :
  let m := store_run TInt 6 5 false (bmach 45 [255; 255; 255; 255]) in
  unit_after m 4 = 4294967295 - (63 - 45) * 32 /\ ax_after m = 2 ^ 32 - 19 /\
  field_conv TInt 6 45 = -19 /\ field_value TInt 6 5 (unit_after m 4) = -19 /\
  field_value TInt 5 0 (unit_after m 4) = -1 /\
  width_ok TInt 6 /\ inside TInt 6 5 /\ ~ bad_value TInt 6 5 /\ ~ bad_field TInt 6 5.
Proof.
  repeat split; try (vm_compute; congruence); intros [H _]; discriminate H.
Qed.

(** A field of three bytes in a long: 64-bit masks. *)
Example C21_store_ex2 :
  let m := store_run TLong 24 36 false (bmach (-2) [1; 2; 3; 4; 5; 6; 7; 8]) in
  field_value TLong 24 36 (unit_after m 8) = -2 /\ ax_after m = 2 ^ 64 - 2 /\
  field_value TULong 36 0 (unit_after m 8) = 1 + 2 * 2 ^ 8 + 3 * 2 ^ 16 + 4 * 2 ^ 24 + 5 * 2 ^ 32 /\
  field_value TULong 4 60 (unit_after m 8) = 0.
Proof. repeat split; vm_compute; reflexivity. Qed.

(** One whole byte of an unsigned int. *)
Example C21_store_ex3 :
  let m := store_run TUInt 8 16 false (bmach 511 [1; 2; 3; 4]) in
  unit_after m 4 = 1 + 2 * 256 + 255 * 65536 + 4 * 16777216 /\ ax_after m = 255.
Proof. split; vm_compute; reflexivity. Qed.

(** *** Where the code is wrong *)

(** struct { long x:8; }: a load leaves 0xffffffff for -1. *)
Theorem C21_load_refuted : exists i w off m,
  width_ok i w /\ inside i w off /\ rg m AX mod 2 ^ 64 = 4096 /\
  field_value i w off (loadn (Z.to_nat (isize i)) 4096 (mm m)) = -1 /\
  ax_after (load_run i w off m) = 2 ^ 32 - 1 /\ ~ eqm (result_bits i) (2 ^ 32 - 1) (-1).
Proof.
  exists TLong, 8, 0, (bmach 4096 [255; 0; 0; 0; 0; 0; 0; 0]).
  split; [vm_compute; split; discriminate|]. split; [vm_compute; split; discriminate|].
  split; [reflexivity|]. split; [vm_compute; reflexivity|].
  split; [vm_compute; reflexivity|]. vm_compute. discriminate.
Qed.
Print Assumptions C21_load_refuted.

(** struct { unsigned long x:32; } s; long r = (s.x = 0x100000005) gives 0x100000005, not 5. *)
Theorem C21_value_refuted : exists i w off m,
  width_ok i w /\ inside i w off /\ rg m DI mod 2 ^ 64 = 4096 /\ field_conv i w (rg m AX) = 5 /\
  ax_after (store_run i w off false m) = 2 ^ 32 + 5 /\ ~ eqm (result_bits i) (2 ^ 32 + 5) 5.
Proof.
  exists TULong, 32, 0, (bmach (2 ^ 32 + 5) [0; 0; 0; 0; 0; 0; 0; 0]).
  split; [vm_compute; split; discriminate|]. split; [vm_compute; split; discriminate|].
  split; [reflexivity|]. split; [vm_compute; reflexivity|].
  split; [vm_compute; reflexivity|]. vm_compute. discriminate.
Qed.
Print Assumptions C21_value_refuted.

(** A store to a 63-bit field makes the compiler evaluate 1LL << 63. *)
Theorem C21_width63_refuted : exists i w off p void,
  width_ok i w /\ inside i w off /\ gen_bitfield_store (mty i) w off p void = UB.
Proof.
  exists TLong, 63, 0, DI, true. split; [vm_compute; split; discriminate|].
  split; [vm_compute; split; discriminate|]. vm_compute. reflexivity.
Qed.
Print Assumptions C21_width63_refuted.

(** In struct __attribute__((packed)) { unsigned char a:6, b:4; } the layout (parse.c:3850)
    puts b at bits 6 to 9, across its one-byte unit: the store loses its upper bits. *)
Theorem C21_straddle_refuted : exists i w off m,
  width_ok i w /\ 0 <= off < 8 * isize i /\ off + w > 8 * isize i /\
  rg m AX = 2 ^ w - 1 /\ field_value i w off (unit_after (store_run i w off true m) 8) = 3.
Proof.
  exists TUChar, 4, 6, (bmach 15 [0; 0; 0; 0; 0; 0; 0; 0]).
  split; [vm_compute; split; discriminate|]. split; [vm_compute; split; congruence|].
  split; [vm_compute; reflexivity|]. split; [vm_compute; reflexivity|].
  vm_compute. reflexivity.
Qed.
Print Assumptions C21_straddle_refuted.
