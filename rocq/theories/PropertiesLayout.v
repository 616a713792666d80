(** C22: layout of structs and unions. *)
From Coq Require Import ZArith List Bool Lia.
From Verif Require Import Base FrameSpec LayoutSpec LayoutModel LayoutProofs.
Import ListNotations.
Local Open Scope Z_scope.

(** *** C22: each member is put at the first place where it may be, its offsets stand for that
    place; the alignment is the greatest one demanded, the size the next multiple of it. *)
Theorem C22_struct_layout :
  forall packed alt ms, Forall (wf_mem packed) ms -> 0 <= alt -> 2 * needs ms + 8 * alt + 16 <= INT_MAX ->
  exists l size al lay e, struct_decl packed alt ms = Ok (l, size, al) /\ layout packed 0 ms lay e /\
    Forall2 (fun x y => fst (fst x) = fst y /\ spot packed (fst y) (snd y) (snd (fst x)) (snd x)) l (filter (fun y => kept (fst y)) lay) /\
    greatest (demands packed alt ms) al /\ least (fun s => (8 * al | s)) e (8 * size).
Proof. exact struct_ok. Qed.
Print Assumptions C22_struct_layout.
(** *** C22: so members are in order and do not overlap, are aligned and inside the struct; a
    bit-field's whole unit is, if the alignment of its type is its size. *)
Theorem C22_members_apart :
  forall packed alt ms, Forall (wf_mem packed) ms -> 0 <= alt -> 2 * needs ms + 8 * alt + 16 <= INT_MAX -> forall l size al, struct_decl packed alt ms = Ok (l, size, al) ->
  map mem l = filter kept ms /\ ForallOrdPairs (fun x y => pos x + m_bits (mem x) <= pos y) l /\ (al | size) /\
  forall x, In x l -> 0 <= pos x /\ pos x + m_bits (mem x) <= 8 * size /\ may_start packed (mem x) (pos x) /\
    (m_bf (mem x) = true -> packed = false -> m_align (mem x) = m_size (mem x) -> pow2 alt \/ alt = 0 -> 0 <= snd (fst x) /\ snd (fst x) + m_size (mem x) <= size).
Proof. exact struct_members_ok. Qed.
Print Assumptions C22_members_apart.
(** *** C22: members of a union are at its start; its size is the smallest multiple of its
    alignment that holds each of them. *)
Theorem C22_union_layout :
  forall packed alt ms, Forall (wf_mem packed) ms -> 0 <= alt -> 2 * needs ms + 8 * alt + 16 <= INT_MAX ->
  exists size al, union_decl packed alt ms = Ok (map (fun m => (m, 0, 0)) (filter kept ms), size, al) /\ greatest (demands packed alt ms) al /\
    least (fun s => (al | s) /\ forall m, In m ms -> m_bits m <= 8 * s) 0 size.
Proof. exact union_ok. Qed.
Print Assumptions C22_union_layout.

(** *** C22 is false for large members: positions are counted in bits in an int, and wrap around
    silently. struct { char a[1 << 29]; int b; } has b at offset 0, and size 4. *)
Definition chars (n : Z) : member := mkmem false true 0 n 1 0 false.
Definition plain (n : Z) : member := mkmem false true 0 n n 0 false.
Definition bits (n w : Z) : member := mkmem true true w n n 0 false.
Ltac p2 := first [exists 0; split; [lia|reflexivity] | exists 1; split; [lia|reflexivity] | exists 2; split; [lia|reflexivity] | exists 3; split; [lia|reflexivity] | exists 4; split; [lia|reflexivity] | exists 5; split; [lia|reflexivity]].
Ltac wfm := repeat match goal with |- Forall _ _ => constructor | |- wf_mem _ _ => unfold wf_mem; cbn | |- _ /\ _ => split | |- _ -> _ => intro end; cbn; try lia; try discriminate; try p2; try (left; reflexivity); try (right; p2); auto.
Theorem C22_huge_refuted :
  ~ (forall ms l size al, Forall (wf_mem false) ms -> struct_decl false 0 ms = Ok (l, size, al) ->
     ForallOrdPairs (fun x y => pos x + m_bits (mem x) <= pos y) l /\ forall x, In x l -> pos x + m_bits (mem x) <= 8 * size).
Proof.
  intros H. destruct (H [chars (2 ^ 29); plain 4] [(chars (2 ^ 29), 0, 0); (plain 4, 0, 0)] 4 4) as [_ C]; [wfm|vm_compute; reflexivity|].
  specialize (C _ (or_introl eq_refl)). vm_compute in C. auto.
Qed.
Print Assumptions C22_huge_refuted.
Theorem C22_huge_union_refuted :
  ~ (forall ms l size al, Forall (wf_mem false) ms -> union_decl false 0 ms = Ok (l, size, al) -> forall m, In m ms -> m_bits m <= 8 * size).
Proof.
  intros H. specialize (H [chars (2 ^ 32); plain 4] [(chars (2 ^ 32), 0, 0); (plain 4, 0, 0)] 4 4 ltac:(wfm) eq_refl _ (or_introl eq_refl)). vm_compute in H. auto.
Qed.
Print Assumptions C22_huge_union_refuted.
(** *** C22: in a packed struct a bit-field need not be inside the unit its offsets name, nor that
    unit inside the struct: struct { int a:31; int b:31; } __attribute__((packed)), and
    struct { int a:3; } __attribute__((packed)), of size 1. Loads and stores use that unit. *)
Theorem C22_packed_unit_refuted :
  ~ (forall ms l size al, Forall (wf_mem true) ms -> struct_decl true 0 ms = Ok (l, size, al) -> forall x, In x l -> m_bf (mem x) = true -> snd x + m_width (mem x) <= 8 * m_size (mem x)).
Proof.
  intros H. specialize (H [bits 4 31; bits 4 31] [(bits 4 31, 0, 0); (bits 4 31, 0, 31)] 8 1 ltac:(wfm) ltac:(vm_compute; reflexivity) _ (or_intror (or_introl eq_refl)) eq_refl). vm_compute in H. auto.
Qed.
Print Assumptions C22_packed_unit_refuted.
Theorem C22_packed_outside_refuted :
  ~ (forall ms l size al, Forall (wf_mem true) ms -> struct_decl true 0 ms = Ok (l, size, al) -> forall x, In x l -> m_bf (mem x) = true -> snd (fst x) + m_size (mem x) <= size).
Proof.
  intros H. specialize (H [bits 4 3] [(bits 4 3, 0, 0)] 1 1 ltac:(wfm) ltac:(vm_compute; reflexivity) _ (or_introl eq_refl) eq_refl). vm_compute in H. auto.
Qed.
Print Assumptions C22_packed_outside_refuted.
(** *** C22: in a packed struct, the alignment asked for of a member that is a struct is ignored
    if its type has it anyway:
    struct { char c; struct { int i; } s __attribute__((aligned(4))); } __attribute__((packed)). *)
Theorem C22_asked_refuted :
  ~ (forall ms l size al, Forall (fun m => 0 <= m_size m /\ pow2 (m_align m) /\ pow2 (m_alt m) /\ m_bf m = false) (tl ms) -> struct_decl true 0 ms = Ok (l, size, al) -> forall x, In x l -> m_alt (mem x) <> 0 -> (8 * m_alt (mem x) | pos x)).
Proof.
  intros H. specialize (H [chars 1; mkmem false true 0 4 4 4 true] [(chars 1, 0, 0); (mkmem false true 0 4 4 4 true, 1, 0)] 8 4 ltac:(wfm) ltac:(vm_compute; reflexivity) _ (or_intror (or_introl eq_refl)) ltac:(discriminate)).
  apply Z.mod_divide in H; [vm_compute in H; discriminate|discriminate].
Qed.
Print Assumptions C22_asked_refuted.

(** *** Examples *)
(** struct { char c; int b:5; int :0; short s; long d:40; unsigned e:30; char f[3]; int g __attribute__((aligned(16))); } *)
Definition ex_members : list member :=
  [chars 1; bits 4 5; mkmem true false 0 4 4 0 false; plain 2; bits 8 40; bits 4 30; chars 3; mkmem false true 0 4 4 16 false].
Example ex_struct :
  Forall (wf_mem false) ex_members /\ 2 * needs ex_members + 16 <= INT_MAX /\
  (do r <- struct_decl false 0 ex_members; Ok (map (fun x => (snd (fst x), snd x)) (fst (fst r)), snd (fst r), snd r)) = Ok ([(0, 0); (0, 8); (4, 0); (8, 0); (16, 0); (20, 0); (32, 0)], 48, 16).
Proof. split; [wfm|]. split; [vm_compute; discriminate|vm_compute; reflexivity]. Qed.
Example ex_packed :
  Forall (wf_mem true) ex_members /\
  (do r <- struct_decl true 0 ex_members; Ok (map (fun x => (snd (fst x), snd x)) (fst (fst r)), snd (fst r), snd r)) = Ok ([(0, 0); (0, 8); (4, 0); (0, 48); (8, 24); (15, 0); (32, 0)], 48, 16) /\
  (do r <- struct_decl true 0 (removelast ex_members); Ok (snd (fst r), snd r)) = Ok (18, 1).
Proof. split; [wfm|]. vm_compute. auto. Qed.
Example ex_union :
  (do r <- union_decl false 0 ex_members; Ok (snd (fst r), snd r)) = Ok (16, 16) /\
  (do r <- union_decl false 0 [chars 9; bits 8 33]; Ok (snd (fst r), snd r)) = Ok (16, 8) /\
  (do r <- union_decl true 0 [chars 9; bits 8 33]; Ok (snd (fst r), snd r)) = Ok (9, 1).
Proof. vm_compute. auto. Qed.
