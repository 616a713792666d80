(** C29, C30: images of static objects and the directives that emit them. *)
From Coq Require Import ZArith List Bool Lia.
From Verif Require Import Base IntSpec CgSpec BfSpec InitSpec InitModel InitBytes InitProofs InitEmit.
Import ListNotations.
Local Open Scope Z_scope.

(** C30: the image of every static object has, bit for bit, each constant converted to the
    type of its scalar or bit-field at its place and zero elsewhere; the relocations are those
    of its address constants. *)
Theorem C30_image t x : laid_out t -> fits t x 0 -> good_fields t x 0 -> csize t < 2 ^ 31 ->
  exists img, gvar_initializer t x = Ok (img, want_rels t x 0) /\
    Z.of_nat (length img) = csize t /\ bytes_ok img /\
    forall k, bit_at img k = want k t x 0.
Proof. exact (init_image t x). Qed.
Print Assumptions C30_image.

(** A bit-field of a static struct reads as the constant stored there at run time (C21). *)
Theorem C30_field ms s l sel j i mo w bo v :
  laid_out (CStr ms s) -> fits (CStr ms s) (IList l sel) 0 ->
  good_fields (CStr ms s) (IList l sel) 0 -> s < 2 ^ 31 ->
  nth_error ms j = Some (CInt i, mo, Some (w, bo)) -> nth_error l j = Some (IVal v) ->
  exists img rels unit, gvar_initializer (CStr ms s) (IList l sel) = Ok (img, rels) /\
    rd_buf img mo (isize i) = Ok unit /\ field_value i w bo unit = field_conv i w (conv i v).
Proof. exact (init_field ms s l sel j i mo w bo v). Qed.
Print Assumptions C30_field.

(** C29: the assembled directives have the size of the object and are the image with the
    relocated addresses over it. *)
Theorem C29_emit img rels : bytes_ok img -> Z.of_nat (length img) < 2 ^ 31 ->
  rels_ok 0 (Z.of_nat (length img)) rels ->
  exists ds, emit_data (Z.of_nat (length img)) (Some (img, rels)) = Ok ds /\
    length (assemble ds) = length img /\
    forall k, (k < length img)%nat -> nth_error (assemble ds) k = Some (cell_of img rels (Z.of_nat k)).
Proof. exact (emit_object img rels). Qed.
Print Assumptions C29_emit.

(** From initialiser to assembled object. *)
Theorem C29_object t x : laid_out t -> fits t x 0 -> good_fields t x 0 -> csize t < 2 ^ 31 ->
  exists img ds, gvar_initializer t x = Ok (img, want_rels t x 0) /\
    emit_data (csize t) (Some (img, want_rels t x 0)) = Ok ds /\
    Z.of_nat (length (assemble ds)) = csize t /\
    (forall k, bit_at img k = want k t x 0) /\
    forall k, 0 <= k < csize t ->
      nth_error (assemble ds) (Z.to_nat k) = Some (cell_of img (want_rels t x 0) k).
Proof. exact (init_object t x). Qed.
Print Assumptions C29_object.

(** *** Examples. struct { char c; unsigned b:3; int d:5; char *p; short a[3];
    union { int i; char *q; } u; } = { -1, 5, -2, &lab+4, {1, -2}, {.q = &lab2} }. *)
Definition ex_t : ctype :=
  CStr [(CInt TChar, 0, None); (CInt TUInt, 0, Some (3, 8)); (CInt TInt, 0, Some (5, 11));
        (CPtr, 8, None); (CArr (CInt TShort) 3, 16, None);
        (CUni [(CInt TInt, 0, None); (CPtr, 0, None)] 8, 24, None)] 32.
Definition ex_x : ini :=
  IList [IVal (-1); IVal 5; IVal (-2); ILab 7 4; IList [IVal 1; IVal (-2); INone] 0;
         IList [INone; ILab 8 0] 1] 0.
Ltac parts := repeat match goal with
  | |- _ /\ _ => split
  | |- Forall _ [] => apply Forall_nil
  | |- Forall _ (_ :: _) => apply Forall_cons
  | |- ForallOrdPairs _ [] => apply FOP_nil
  | |- ForallOrdPairs _ (_ :: _) => apply FOP_cons
  end; cbn; try exact Logic.I; try reflexivity; try lia.
Example ex_laid_out : laid_out ex_t.
Proof. cbn. parts. Qed.
Example ex_fits : fits ex_t ex_x 0.
Proof. cbn. parts. Qed.
Example ex_good : good_fields ex_t ex_x 0.
Proof. cbn. repeat split; try lia; discriminate. Qed.
Example ex_image : gvar_initializer ex_t ex_x =
  Ok ([255; 245; 0; 0; 0; 0; 0; 0;  0; 0; 0; 0; 0; 0; 0; 0;  1; 0; 254; 255; 0; 0; 0; 0;
       0; 0; 0; 0; 0; 0; 0; 0], [(8, 7%nat, 4); (24, 8%nat, 0)]).
Proof. vm_compute. reflexivity. Qed.
Example ex_emit : emit_data 32 (Some ([255; 245; 0; 0; 0; 0; 0; 0;  0; 0; 0; 0; 0; 0; 0; 0;
    1; 0; 254; 255; 0; 0; 0; 0;  0; 0; 0; 0; 0; 0; 0; 0], [(8, 7%nat, 4); (24, 8%nat, 0)]))
  = Ok [DQuad 62975; DRel 7 4; DQuad 4294836225; DRel 8 0].
Proof. vm_compute. reflexivity. Qed.
Example ex_emit7 : emit_data 7 (Some ([1; 2; 3; 4; 5; 255; 255], []))
  = Ok [DInt 67305985; DWord (-251); DByte (-1)].
Proof. vm_compute. reflexivity. Qed.

(** *** Refuted without the hypotheses. [static struct { _Bool b:1; } s = {2};] stores 0. *)
Theorem C30_bool_refuted : exists t x img rels, laid_out t /\ fits t x 0 /\ csize t < 2 ^ 31 /\
  gvar_initializer t x = Ok (img, rels) /\ bit_at img 0 = false /\ want 0 t x 0 = true.
Proof.
  exists (CStr [(CInt TBool, 0, Some (1, 0))] 1), (IList [IVal 2] 0), [0], [].
  cbn [laid_out fits csize on_members on_member map fst length]. parts; vm_compute; reflexivity.
Qed.
Print Assumptions C30_bool_refuted.

(** The mask of a field of 63 or 64 bits is a shift that overflows [long]. *)
Theorem C30_width_refuted : exists t x, laid_out t /\ fits t x 0 /\ csize t < 2 ^ 31 /\
  gvar_initializer t x = UB.
Proof.
  exists (CStr [(CInt TULong, 0, Some (64, 0))] 8), (IList [IVal 5] 0).
  cbn [laid_out fits csize on_members on_member map fst length]. parts; vm_compute; reflexivity.
Qed.
Print Assumptions C30_width_refuted.

(** [struct __attribute__((packed)) { int b:8; }] has one byte; the compiler reads and writes
    the four bytes of the unit. *)
Theorem C30_packed_refuted : gvar_initializer (CStr [(CInt TInt, 0, Some (8, 0))] 1) (IList [IVal 5] 0) = UB.
Proof. vm_compute. reflexivity. Qed.
Print Assumptions C30_packed_refuted.
