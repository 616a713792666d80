(** Block copy and clear, stores of partial registers (C31). *)
From Coq Require Import ZArith List Bool Lia.
From Verif Require Import Base X86 Sse MemSpec MemModel MemProofs.
Import ListNotations.
Local Open Scope Z_scope.

(** C31: a copy of any size up to INT_MAX moves exactly the bytes, changes no other byte and no
    register but %rdx, also if source and destination are the same or the destination lies below. *)
Theorem C31_copy : forall sym sb sofs db dofs sz src dst,
  sb <> BReg DX -> db <> BReg DX -> 0 <= sz <= INT_MAX -> dst <= src \/ src + sz <= dst ->
  exists code, gen_mem_copy2 sb sofs db dofs sz = Ok code /\
  forall m, addr_of sym (im m) sb sofs src sz -> addr_of sym (im m) db dofs dst sz ->
  exists m', xrun sym code m = Some m' /\
    replaced (mm (im m)) (mm (im m')) dst sz (fun k => mm (im m) (src + k)) /\
    only_reg DX (im m) (im m').
Proof. exact copy_ok. Qed.
Print Assumptions C31_copy.

(** Clearing. Sizes within 16 of INT_MAX are excluded (see C31_zero_refuted). *)
Theorem C31_zero : forall sym dofs db sz dst,
  db <> BReg AX -> 0 <= sz -> sz + 16 <= INT_MAX -> INT_MIN <= dofs -> dofs + sz <= INT_MAX ->
  exists code, gen_mem_zero dofs db sz = Ok code /\
  forall m, addr_of sym (im m) db dofs dst sz ->
  exists m', xrun sym code m = Some m' /\
    replaced (mm (im m)) (mm (im m')) dst sz (fun _ => 0) /\ only_reg AX (im m) (im m').
Proof. exact zero_ok. Qed.
Print Assumptions C31_zero.

(** Storing the low 1 to 8 bytes of a register. *)
Theorem C31_store : forall sym r db dofs sz dst,
  db <> BReg r -> 1 <= sz <= 8 -> INT_MIN <= dofs -> dofs + sz <= INT_MAX ->
  exists code, store_gp2 r sz dofs db = Ok code /\
  forall m, addr_of sym (im m) db dofs dst sz ->
  exists m', xrun sym code m = Some m' /\
    replaced (mm (im m)) (mm (im m')) dst sz (fun k => (rg (im m) r mod 2 ^ 64) / 2 ^ (8 * k)) /\
    only_reg r (im m) (im m') /\ xr m' = xr m.
Proof. exact store_ok. Qed.
Print Assumptions C31_store.

Definition ex_mach : xmach :=
  mkx (mkm (fun r => match r with AX => 1000 | BP => 5000 | CX => 1122334455667788 | _ => 7 end) None (fun x => x mod 251))
      (fun _ => 3).
Example C31_example_copy :
  let sym := fun _ => 0 in
  addr_of sym (im ex_mach) (BReg AX) 4 1004 39 /\ addr_of sym (im ex_mach) (BReg BP) (-40) 4960 39 /\
  match gen_mem_copy2 (BReg AX) 4 (BReg BP) (-40) 39 with
  | Ok code =>
      length code = 10%nat /\
      match xrun sym code ex_mach with
      | Some m' => map (fun k => mm (im m') (4959 + Z.of_nat k)) (seq 0 41) =
                   4959 mod 251 :: map (fun k => (1004 + Z.of_nat k) mod 251) (seq 0 39) ++ [4999 mod 251]
      | None => False
      end
  | _ => False
  end.
Proof. cbv zeta. split; [split; [reflexivity | vm_compute; split; discriminate]|].
  split; [split; [reflexivity | vm_compute; split; discriminate]|]. vm_compute. auto. Qed.
Example C31_example_zero :
  let sym := fun _ => 0 in
  match gen_mem_zero (-40) (BReg BP) 39, gen_mem_zero (-40) (BReg BP) 7 with
  | Ok c1, Ok c2 =>
      length c1 = 4%nat /\ length c2 = 4%nat /\
      match xrun sym c1 ex_mach, xrun sym c2 ex_mach with
      | Some m1, Some m2 =>
          map (fun k => mm (im m1) (4959 + Z.of_nat k)) (seq 0 41) = 4959 mod 251 :: repeat 0 39 ++ [4999 mod 251] /\
          map (fun k => mm (im m2) (4959 + Z.of_nat k)) (seq 0 9) = 4959 mod 251 :: repeat 0 7 ++ [4967 mod 251]
      | _, _ => False
      end
  | _, _ => False
  end.
Proof. vm_compute. auto. Qed.
Example C31_example_store :
  match store_gp2 CX 7 (-40) (BReg BP) with
  | Ok c =>
      length c = 5%nat /\
      match xrun (fun _ => 0) c ex_mach with
      | Some m => map (fun k => mm (im m) (4960 + Z.of_nat k)) (seq 0 8) =
          map (fun k => (1122334455667788 / 2 ^ (8 * Z.of_nat k)) mod 256) (seq 0 7) ++ [4967 mod 251]
      | None => False
      end
  | _ => False
  end.
Proof. vm_compute. auto. Qed.

(** Refuted: the size of a structure is an int64_t that becomes an int on the way to the copy: assigning a
    structure of 4 GiB and one byte copies one byte. *)
Theorem C31_large_refuted :
  store_struct (BReg CX) 0 (2 ^ 32 + 1) = gen_mem_copy2 (BReg AX) 0 (BReg CX) 0 1 /\
  exists code m m', store_struct (BReg CX) 0 (2 ^ 32 + 1) = Ok code /\
    addr_of (fun _ => 0) (im m) (BReg AX) 0 0 (2 ^ 32 + 1) /\
    addr_of (fun _ => 0) (im m) (BReg CX) 0 (2 ^ 40) (2 ^ 32 + 1) /\
    xrun (fun _ => 0) code m = Some m' /\
    ~ replaced (mm (im m)) (mm (im m')) (2 ^ 40) (2 ^ 32 + 1) (fun k => mm (im m) k).
Proof.
  split; [reflexivity|]. eexists.
  exists (mkx (mkm (fun r => match r with CX => 2 ^ 40 | _ => 0 end) None (fun x => if x <? 2 ^ 40 then 1 else 0)) (fun _ => 0)).
  eexists. split; [vm_compute; reflexivity|].
  split; [split; [reflexivity | vm_compute; split; discriminate]|].
  split; [split; [reflexivity | vm_compute; split; discriminate]|].
  split; [reflexivity|]. intros [A _]. specialize (A 1 ltac:(vm_compute; split; [discriminate | reflexivity])).
  vm_compute in A. discriminate.
Qed.
Print Assumptions C31_large_refuted.

(** Refuted: clearing INT_MAX bytes overflows the int [i + 16] in the compiler. *)
Theorem C31_zero_refuted : forall db, gen_mem_zero 0 db INT_MAX = UB.
Proof. exact zero_max. Qed.
Print Assumptions C31_zero_refuted.
