(** Properties of #if expressions. *)
From Coq Require Import ZArith List Bool Lia.
From Verif Require Import Base IntSpec IntModel NumSpec PifSpec PifModel PifProofs PropertiesInt.
Import ListNotations.
Local Open Scope Z_scope.

(** C11. When the types the operands would have in the code lose nothing, #if has the value
    computed in intmax_t and uintmax_t, and the group is kept exactly when it is not zero. *)
Theorem C11_if_value :
  forall (c : cfg) (p : pexp) (v : Z),
  (forall a b, same c a b = true -> a = b) -> strict c = false ->
  lits_ok p -> modest p -> if_value p = Some v ->
  eval_const_expr c p = Ok (rep64 v) /\ if_active c p = Ok (negb (v =? 0)).
Proof. exact if_value_ok. Qed.
Print Assumptions C11_if_value.

(** C11. In particular when all constants are below 2^31 without u and all values that occur
    are values of int. *)
Theorem C11_if_small :
  forall (c : cfg) (p : pexp) (v : Z),
  (forall a b, same c a b = true -> a = b) -> strict c = false ->
  lits_ok p -> plain_lits p -> int_valued p -> if_value p = Some v ->
  eval_const_expr c p = Ok (rep64 v) /\ if_active c p = Ok (negb (v =? 0)).
Proof. intros c p v A B L P V E. exact (if_value_ok c p v A B L (small_modest p L P V) E). Qed.
Print Assumptions C11_if_small.

Ltac fact := 
  repeat match goal with
  | |- _ /\ _ => split
  | |- forall z, if_value _ = Some z -> _ => let H := fresh in intros ? H; vm_compute in H; (discriminate H || (injection H as <-))
  | |- same_in _ _ _ => let H := fresh in intros ? H; vm_compute in H; (discriminate H || (injection H as <-))
  | |- if_value _ = _ -> _ => let H := fresh in intros H; vm_compute in H; try discriminate H
  | |- if_value _ <> _ -> _ => let H := fresh in intros H; try (exfalso; apply H; vm_compute; reflexivity)
  | |- in_range _ _ => vm_compute; split; discriminate
  | |- _ = _ -> _ => let H := fresh in intros H; try discriminate H
  | |- True => exact Logic.I
  | |- conv _ _ = _ => vm_compute; reflexivity
  | |- if_value _ = _ => vm_compute; reflexivity
  | |- isigned _ = _ => vm_compute; reflexivity
  | |- (_ <= _)%nat => vm_compute; lia
  | |- const_type _ _ _ _ <> None => vm_compute; discriminate
  | |- _ <= _ => vm_compute; discriminate
  | |- _ < _ => vm_compute; reflexivity
  | |- eval_const_expr _ _ = _ => vm_compute; reflexivity
  | |- if_active _ _ = _ => vm_compute; reflexivity
  | |- _ <> _ => vm_compute; discriminate
  | |- false = false => reflexivity
  end.

(** 0x8000000000000005UL - 7 >= 0x80000000: modest;
    201710L >= 201112L && (0 || -7 / 2 == -3): small. *)
Example C11_ex :
  let p := PCmp CGe (PBin BSub (PLit false true 1 (2 ^ 63 + 5)) (PLit true false 0 7)) (PLit false false 0 (2 ^ 31)) in
  let q := PAnd (PCmp CGe (PLit true false 1 201710) (PLit true false 1 201112))
                (POr (PInt 0) (PCmp CEq (PBin BDiv (PUn UNeg (PLit true false 0 7)) (PLit true false 0 2)) (PUn UNeg (PLit true false 0 3)))) in
  (lits_ok p /\ modest p /\ if_value p = Some 1 /\ if_value (PBin BSub (PLit false true 1 (2 ^ 63 + 5)) (PLit true false 0 7)) = Some (2 ^ 63 - 2)) /\
  (lits_ok q /\ plain_lits q /\ int_valued q /\ if_value q = Some 1) /\
  if_active (cfg0 false true) p = Ok true /\ if_active (cfg0 false false) q = Ok true.
Proof. cbv zeta. cbn [lits_ok modest plain_lits int_valued]. cbv zeta. fact. Qed.

(** C11 without the restriction: 0xFFFFFFFF + 1 is 0, ~0u is 0xFFFFFFFF, the group of
    #if -1 < 0x80000000 is dropped and so is that of #if 2147483647 + 1 > 0. *)
Theorem C11_intmax_refuted :
  forall opt : bool, let c := cfg0 false opt in
  (let p := PBin BAdd (PLit false false 0 (2 ^ 32 - 1)) (PLit true false 0 1) in
   lits_ok p /\ if_value p = Some (2 ^ 32) /\ eval_const_expr c p = Ok 0) /\
  (let p := PCmp CLt (PUn UNeg (PLit true false 0 1)) (PLit false false 0 (2 ^ 31)) in
   lits_ok p /\ if_value p = Some 1 /\ if_active c p = Ok false) /\
  (let p := PCmp CGt (PBin BAdd (PLit true false 0 (2 ^ 31 - 1)) (PLit true false 0 1)) (PLit true false 0 0) in
   lits_ok p /\ if_value p = Some 1 /\ if_active c p = Ok false) /\
  (let p := PUn UBitNot (PLit false true 0 0) in
   lits_ok p /\ if_value p = Some (2 ^ 64 - 1) /\ eval_const_expr c p = Ok (2 ^ 32 - 1)).
Proof. intros opt. cbv zeta. cbn [lits_ok]. destruct opt; fact. Qed.
Print Assumptions C11_intmax_refuted.
