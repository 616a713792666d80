(** C52: returning structures and unions. *)
From Coq Require Import ZArith List Bool Lia.
From Verif Require Import Base X86 Sse MemSpec CallSpec CallModel RetModel RetProofs PropertiesCall.
Import ListNotations.
Local Open Scope Z_scope.

(** A structure of at most 16 bytes: what the callee puts into registers ([src] is the address of the value) is
    what the caller stores into the object for the result, byte for byte, and nothing else is written. *)
Theorem C52_registers : forall sym n a ms b vo src dst, let t := ARec n a ms in
  argument t -> full t -> n <= 16 -> b <> BReg AX -> b <> BReg DX -> INT_MIN <= vo -> vo + n <= INT_MAX ->
  exists c1 c2, copy_struct_reg t = Ok c1 /\ copy_ret_buffer t b vo = Ok c2 /\
  forall m, addr_of sym (im m) (BReg AX) 0 src n ->
  exists m1, xrun sym c1 m = Some m1 /\ mm (im m1) = mm (im m) /\
    (forall r, r <> AX -> r <> CX -> r <> DX -> rg (im m1) r = rg (im m) r) /\
    forall m2, rg (im m2) AX = rg (im m1) AX -> rg (im m2) DX = rg (im m1) DX -> xr m2 0%nat = xr m1 0%nat -> xr m2 1%nat = xr m1 1%nat ->
      addr_of sym (im m2) b vo dst n ->
    exists m3, xrun sym c2 m2 = Some m3 /\ replaced (mm (im m2)) (mm (im m3)) dst n (fun k => mm (im m) (src + k)) /\
      (forall r, r <> AX -> r <> DX -> rg (im m3) r = rg (im m2) r).
Proof. exact return_ok. Qed.
Print Assumptions C52_registers.

(** A larger one is copied to where the caller asked for it, and the address is returned in %rax. *)
Theorem C52_memory : forall sym t lb pofs src dst, 0 <= asize t <= INT_MAX -> dst <= src \/ src + asize t <= dst ->
  exists c, copy_struct_mem t lb pofs = Ok c /\
  forall m p, addr_of sym (im m) lb pofs p 8 -> loadn 8 p (mm (im m)) = dst -> addr_of sym (im m) (BReg AX) 0 src (asize t) ->
    0 <= dst -> dst + asize t <= 2 ^ 64 -> dst < 2 ^ 64 ->
  exists m', xrun sym c m = Some m' /\ rg (im m') AX = dst /\
    replaced (mm (im m)) (mm (im m')) dst (asize t) (fun k => mm (im m) (src + k)) /\
    forall r, r <> AX -> r <> CX -> r <> DX -> rg (im m') r = rg (im m) r.
Proof. exact return_mem_ok. Qed.
Print Assumptions C52_memory.

(** The registers are those of the ABI (%rcx is used for the address). *)
Theorem C52_abi : forall n a ms, let t := ARec n a ms in abi_type t -> n <= 16 ->
  exists c, copy_struct_reg t = Ok c /\
    filter not_cx (flat_map dest c) = take_regs (sysv_classes t) [AX; DX] [0%nat; 1%nat].
Proof. exact ret_regs_ok. Qed.
Print Assumptions C52_abi.

(** struct { float a[2]; int i; }: the first part in xmm0, the second in eax. *)
Example C52_example : argument ex_mix /\ full ex_mix /\ take_regs (sysv_classes ex_mix) [AX; DX] [0%nat; 1%nat] = [inr 0%nat; inl AX] /\
  exists c1 c2 m1 m3, copy_struct_reg ex_mix = Ok c1 /\ copy_ret_buffer ex_mix (BReg BP) (-16) = Ok c2 /\
    xrun (fun _ => 0) c1 (mkx (setr (im (ex_m (fun x => x mod 256))) AX 500) (fun _ => 0)) = Some m1 /\ xrun (fun _ => 0) c2 m1 = Some m3 /\
    map (mm (im m3)) [783; 784; 791; 792; 795; 796] = [783 mod 256; 500 mod 256; 507 mod 256; 508 mod 256; 511 mod 256; 796 mod 256].
Proof.
  split. { split; [apply ex_mix_nat|cbn; lia]. }
  split. { intros _. left. cov1. }
  split; [reflexivity|]. do 4 eexists. split; [reflexivity|]. split; [reflexivity|]. split; [reflexivity|]. split; [reflexivity|]. vm_compute. reflexivity.
Qed.

(** A packed structure { char c; double d; }: the caller writes bytes after the object for the result. *)
Theorem C52_packed_refuted : let t := ARec 9 1 [(0, AGp false 1); (1, ADouble)] in
  exists c m m', copy_ret_buffer t (BReg BP) (-16) = Ok c /\ addr_of (fun _ => 0) (im m) (BReg BP) (-16) 784 (asize t) /\
    xrun (fun _ => 0) c m = Some m' /\ mm (im m') (784 + 9) <> mm (im m) (784 + 9).
Proof.
  cbv zeta. eexists. exists (mkx (im (ex_m (fun _ => 0))) (fun _ => 2 ^ 64 - 1)). eexists. split; [reflexivity|].
  split; [split; [reflexivity|split; [lia|unfold asize; lia]]|]. split; [reflexivity|]. vm_compute. discriminate.
Qed.
Print Assumptions C52_packed_refuted.

(** A structure with a long double is returned in %rax and %rdx; its classes are X87 and X87UP (st0). *)
Theorem C52_long_double_refuted : let t := ARec 16 16 [(0, ALdouble)] in
  (exists c, copy_struct_reg t = Ok c /\ filter not_cx (flat_map dest c) = [inl AX; inl DX]) /\ sysv_classes t = [X87; X87up].
Proof. cbv zeta. split; [eexists; split; reflexivity|reflexivity]. Qed.
Print Assumptions C52_long_double_refuted.
