(** C15-C17: types, conversions and constant folding of integer expressions. *)
From Coq Require Import ZArith List Bool.
From Verif Require Import Base IntSpec IntModel IntTyped IntElab IntMain.
Local Open Scope Z_scope.

(** C15. Every expression gets the type ISO C gives it (promotions, usual arithmetic
    conversions, bit-field promotion), with or without optimisation. *)
Theorem C15_expression_types :
  forall (c : cfg) (env : nat -> Z) (e : exp) (n : node),
  (forall a b, same c a b = true -> a = b) ->
  wf env e -> known_ok (known c) env e -> plain_casts e ->
  elab c e = Ok n ->
  nty n = mty (ctype e).
Proof. exact types_ok. Qed.
Print Assumptions C15_expression_types.

(** C15, the conversion table on its own. *)
Theorem C15_common_type :
  forall a b : ityp, irank TInt <= irank a -> irank TInt <= irank b ->
  common_type (mty a) (mty b) = Ok (mty (usual a b)).
Proof. exact common_type_ok. Qed.
Print Assumptions C15_common_type.

(** Type pointers compared by contents. *)
Definition kind_eqb (a b : kind) : bool :=
  match a, b with
  | KBool, KBool | KPChar, KPChar | KChar, KChar | KShort, KShort | KInt, KInt
  | KLong, KLong | KLLong, KLLong => true
  | _, _ => false
  end.
Definition ty_eqb (a b : ty) : bool :=
  kind_eqb (kd a) (kd b) && (sz a =? sz b) && Bool.eqb (uns a) (uns b).
Lemma ty_eqb_eq a b : ty_eqb a b = true -> a = b.
Proof.
  destruct a as [k s u], b as [k' s' u']. unfold ty_eqb. cbn.
  rewrite !andb_true_iff, Z.eqb_eq, Bool.eqb_true_iff. intros [[H ->] ->].
  destruct k, k'; try discriminate; reflexivity.
Qed.
(** Closed side conditions by computation. *)
Ltac conc := vm_compute; repeat match goal with |- _ /\ _ => split end;
  first [exact I | intros; discriminate | reflexivity].
Ltac kn := cbn [known_ok]; repeat match goal with |- _ /\ _ => split end;
  first [exact I | intros ? Q; discriminate Q].
Definition cfg0 (strict0 opt0 : bool) : cfg := mkcfg strict0 opt0 ty_eqb (fun _ => None).

(** (unsigned char)200 + x with a 5-bit unsigned bit-field x: the type is int. *)
Example C15_ex :
  let e := EBin BAdd (ECast TUChar (ENum TInt 200)) (EField TUInt 5 0 7%nat) in
  let env := fun _ : nat => 31 in
  wf env e /\ plain_casts e /\ known_ok (fun _ => None) env e /\ ctype e = TInt /\
  exists n, elab (cfg0 false true) e = Ok n /\ nty n = ty_int.
Proof.
  cbv zeta. split; [conc|]. split; [conc|]. split; [kn|]. split; [reflexivity|].
  eexists. split; [vm_compute; reflexivity|vm_compute; reflexivity].
Qed.

(** C15 without the side condition on casts is false: with optimisation a cast of a comma
    expression designating a bit-field to the bit-field's own declared type is dropped, and the
    operand is then promoted to int. [(unsigned)(0, s.f) - 6 > 0], s.f == 5. *)
Theorem C15_cast_of_field_value_refuted :
  exists (c : cfg) (env : nat -> Z) (e : exp) (n : node),
    (forall a b, same c a b = true -> a = b) /\ wf env e /\ known_ok (known c) env e /\
    elab c e = Ok n /\ ceval env e = Some 1 /\ teval env n = Some 0.
Proof.
  exists (cfg0 false true), (fun _ => 5),
    (ECmp CGt (EBin BSub (ECast TUInt (EComma (ENum TInt 0) (EField TUInt 3 0 0%nat))) (ENum TInt 6))
              (ENum TInt 0)).
  eexists. split; [exact ty_eqb_eq|].
  split; [conc|]. split; [kn|].
  split; [vm_compute; reflexivity|]. split; [vm_compute; reflexivity|vm_compute; reflexivity].
Qed.
Print Assumptions C15_cast_of_field_value_refuted.

(** C16. Whenever C defines the value of an expression and the compiler folds it, the folded
    value is the C value (in 64-bit two's complement), also when the compiler's own arithmetic
    is taken with all undefined behaviour. *)
Theorem C16_folding_sound :
  forall (c : cfg) (env : nat -> Z) (e : exp) (n : node) (v r : Z),
  (forall a b, same c a b = true -> a = b) ->
  wf env e -> known_ok (known c) env e -> plain_casts e ->
  elab c e = Ok n -> ceval env e = Some v -> eval2 c n = Ok r ->
  r = rep64 v.
Proof. exact fold_sound. Qed.
Print Assumptions C16_folding_sound.

(** C16. Constant expressions with a defined value are always accepted and folded (host
    arithmetic wrapping, as the compiler behaves when built without overflow traps). *)
Theorem C16_folding_complete :
  forall (c : cfg) (env : nat -> Z) (e : exp) (v : Z),
  (forall a b, same c a b = true -> a = b) -> strict c = false ->
  wf env e -> known_ok (known c) env e -> plain_casts e -> constant (known c) e ->
  ceval env e = Some v ->
  exists n, elab c e = Ok n /\ eval2 c n = Ok (rep64 v).
Proof. exact fold_complete. Qed.
Print Assumptions C16_folding_complete.

(** C16. Folding inside a non-constant expression does not change its value at run time. *)
Theorem C16_tree_value :
  forall (c : cfg) (env : nat -> Z) (e : exp) (n : node) (v : Z),
  (forall a b, same c a b = true -> a = b) ->
  wf env e -> known_ok (known c) env e -> plain_casts e ->
  elab c e = Ok n -> ceval env e = Some v -> teval env n = Some v.
Proof. exact tree_value_ok. Qed.
Print Assumptions C16_tree_value.

(** The front end accepts every well-formed expression (even one with undefined behaviour). *)
Theorem C16_front_end_total :
  forall (c : cfg) (env : nat -> Z) (e : exp),
  (forall a b, same c a b = true -> a = b) -> strict c = false ->
  wf env e -> known_ok (known c) env e -> plain_casts e -> exists n, elab c e = Ok n.
Proof. exact elab_total. Qed.
Print Assumptions C16_front_end_total.

(** -1 < 0u ? x : (-7 / 2) with an unknown x; and 0x8000000000000000UL >> 63. *)
Example C16_ex :
  let e := ECond (ECmp CLt (EUn UNeg (ENum TInt 1)) (ENum TUInt 0)) (ENum TInt 9)
             (EBin BDiv (EUn UNeg (ENum TInt 7)) (ENum TInt 2)) in
  let env := fun _ : nat => 0 in
  wf env e /\ plain_casts e /\ constant (fun _ => None) e /\ ceval env e = Some (-3) /\
  (exists n, elab (cfg0 false true) e = Ok n /\ eval2 (cfg0 false true) n = Ok (-3)) /\
  let e2 := EShr (ENum TULong (2 ^ 63)) (ENum TInt 63) in
  wf env e2 /\ ceval env e2 = Some 1 /\
  (exists n, elab (cfg0 true false) e2 = Ok n /\ eval2 (cfg0 true false) n = Ok 1).
Proof.
  cbv zeta. split; [conc|]. split; [conc|]. split; [conc|]. split; [vm_compute; reflexivity|].
  split; [eexists; split; [vm_compute; reflexivity|vm_compute; reflexivity]|].
  split; [conc|]. split; [vm_compute; reflexivity|].
  eexists; split; [vm_compute; reflexivity|vm_compute; reflexivity].
Qed.

(** C16, reading the compiler's int64_t arithmetic as ISO C: a defined unsigned addition makes the
    compiler overflow a signed integer. [0x7fffffffffffffffUL + 1UL]. *)
Theorem C16_no_host_overflow_refuted :
  exists (e : exp) (v : Z) (n : node),
    wf (fun _ => 0) e /\ constant (fun _ => None) e /\ ceval (fun _ => 0) e = Some v /\
    elab (cfg0 true true) e = Ok n /\ eval2 (cfg0 true true) n = UB.
Proof.
  exists (EBin BAdd (ENum TULong (2 ^ 63 - 1)) (ENum TULong 1)), (2 ^ 63). eexists.
  split; [conc|].
  split; [conc|]. split; [vm_compute; reflexivity|]. split; [vm_compute; reflexivity|vm_compute; reflexivity].
Qed.
Print Assumptions C16_no_host_overflow_refuted.

(** C17. When the compiler merges (t)(t2)x into (t)x, x of type t3, no value of t3 tells the
    difference. *)
Theorem C17_redundant_cast :
  forall (t t2 t3 : ityp) (v : Z), in_range t3 v ->
  redundant (mty t) (mty t2) (mty t3) = true ->
  conv t (conv t2 v) = conv t v.
Proof. exact redundant_sound. Qed.
Print Assumptions C17_redundant_cast.

Example C17_ex : in_range TUShort 65535 /\ redundant (mty TLong) (mty TInt) (mty TUShort) = true
  /\ redundant (mty TLong) (mty TUInt) (mty TShort) = false
  /\ conv TLong (conv TUInt (-1)) <> conv TLong (-1).
Proof. vm_compute. repeat split; discriminate. Qed.
