(** * Property C59: the types of expressions and pointer arithmetic *)
From Coq Require Import String ZArith List Bool.
From Verif Require Import CompatSpec CompatModel TypSpec TypModel TypProofs TypCases TypMore.
Import ListNotations.
Local Open Scope string_scope.
Local Open Scope Z_scope.
Local Open Scope list_scope.

(** Every expression the strict typing relation of TypSpec.v gives a type is accepted, and the parser
    and add_type give it this type, the qualifiers if it is an lvalue, the width if it is a bit-field,
    and take it for a null pointer constant exactly if it is one. *)
Theorem C59_types : forall members defined rsize zero opt,
  (forall i, NoDup (flat_map names (members i))) -> (forall i, defined i = true -> 0 <= rsize i) ->
  forall e s, typed members defined zero false e s ->
  exists n, elab members rsize zero opt e = Ok n /\ nt n = st s /\ (lv s = true -> nq n = sq s) /\ nbf n = sbf s /\ is_nullptr n = snull s.
Proof. exact types_ok. Qed.
Print Assumptions C59_types.
Example C59_types_ex : typed ms known z0 false e_good (rvalue int None false) /\ typed ms known z0 false e_gen (rvalue int None false) /\
  (forall i, NoDup (flat_map names (ms i))) /\ (forall i, known i = true -> 0 <= sizes i) /\
  elab ms sizes z0 false e_good = Ok (mk noq int).
Proof. split; [apply good_typed|]. split; [apply gen_typed|]. split; [apply names_ms|]. split; [apply sizes_known|]. vm_compute. reflexivity. Qed.

(** The strict relation gives one type, and only types C gives. *)
Theorem C59_unique : forall members defined zero, (forall i, NoDup (flat_map names (members i))) ->
  forall e s s', typed members defined zero false e s -> typed members defined zero false e s' ->
  st s = st s' /\ sbf s = sbf s' /\ snull s = snull s' /\ (lv s = true -> lv s' = true -> sq s = sq s').
Proof. exact types_unique. Qed.
Print Assumptions C59_unique.
Theorem C59_strict : forall members defined zero e s, typed members defined zero false e s -> typed members defined zero true e s.
Proof. exact typed_more. Qed.
Print Assumptions C59_strict.
Example C59_strict_ex : typed ms known z0 false (XMember v_s "f") (St true noq (CInt KInt true) (Some 3) false) /\
  typed ms known z0 true (XMember v_s "f") (St true noq (CInt KInt true) (Some 3) false).
Proof. split; apply t_sf. Qed.

(** Pointer plus and minus integer: for an index of any integer type or bit-field and an element of any
    size, the multiplication does not lose bits of the address. *)
Theorem C59_offset : forall opt n t p i sz, integer (nt n) = true -> fits (nt n) (nbf n) = true ->
  add_value opt p n t i sz = Ok ((p + i * sz) mod 2 ^ 64) /\ sub_value opt p n t i sz = Ok ((p - i * sz) mod 2 ^ 64).
Proof. exact add_value_ok. Qed.
Print Assumptions C59_offset.
Example C59_offset_ex : add_value false 0x7f0000000000 (mk noq (CInt KPchar false)) int (-3) 4 = Ok 0x7efffffffff4 /\
  add_value true 4096 (mk noq (CInt KInt true)) (CRec 1) 0xffffffff 0x10000 = Ok (4096 + 0xffffffff * 0x10000).
Proof. split; vm_compute; reflexivity. Qed.

(** The difference of pointers to elements of the same array. *)
Theorem C59_difference : forall p sz k, 0 < sz < 2 ^ 31 -> - 2 ^ 63 <= k * sz < 2 ^ 63 -> diff_value (p + k * sz) p sz = Ok k.
Proof. exact diff_ok. Qed.
Print Assumptions C59_difference.
Example C59_difference_ex : 0 < 12 < 2 ^ 31 /\ - 2 ^ 63 <= -5 * 12 < 2 ^ 63 /\ diff_value (0x7fff00000000 + -5 * 12) 0x7fff00000000 12 = Ok (-5).
Proof. split; [split; reflexivity|]. split; [split; [discriminate | reflexivity]|]. vm_compute. reflexivity. Qed.

(** Cases where C has one type and the compiler another: c ? p : cp loses the const of the second pointer,
    c ? f : f and (0, f) have a function type, a member of an unnamed structure in a const object is not
    const, a member _Atomic in a volatile object is not _Atomic, (const void * )0 is taken for a null
    pointer constant, an assignment to an _Atomic object has the type of the right side, and an array
    member of a const object chooses int * in _Generic. *)
Theorem C59_types_refuted : forall rsize opt,
  (typed ms known z0 true e_cond (rvalue (CPtr qconst int) None false) /\ (forall s, typed ms known z0 true e_cond s -> st s = CPtr qconst int) /\
   exists n, elab ms rsize z0 opt e_cond = Ok n /\ nt n = CPtr noq int) /\
  (typed ms known z0 true e_fcond (rvalue (CPtr noq (CFun int false [(noq, long)])) None false) /\
   (forall s, typed ms known z0 true e_fcond s -> st s = CPtr noq (CFun int false [(noq, long)])) /\
   exists n, elab ms rsize z0 opt e_fcond = Ok n /\ nt n = CFun int false [(noq, long)]) /\
  (typed ms known z0 true e_fcomma (rvalue (CPtr noq (CFun int false [(noq, long)])) None false) /\
   (forall s, typed ms known z0 true e_fcomma s -> st s = CPtr noq (CFun int false [(noq, long)])) /\
   exists n, elab ms rsize z0 opt e_fcomma = Ok n /\ nt n = CFun int false [(noq, long)]) /\
  (typed ms known z0 true e_decay (rvalue dbl None false) /\ (forall s, typed ms known z0 true e_decay s -> st s = dbl) /\
   exists n, elab ms rsize z0 opt e_decay = Ok n /\ nt n = int) /\
  (typed ms known z0 true e_anon (rvalue (CPtr qconst int) None false) /\ (forall s, typed ms known z0 true e_anon s -> st s = CPtr qconst int) /\
   exists n, elab ms rsize z0 opt e_anon = Ok n /\ nt n = CPtr noq int) /\
  (typed ms known z0 true e_atomic (St true (Quals true false true false) int None false) /\
   (forall s, typed ms known z0 true e_atomic s -> sq s = Quals true false true false) /\
   exists n, elab ms rsize z0 opt e_atomic = Ok n /\ nq n = Quals false false true false) /\
  (typed ms known z0 true e_null (rvalue (CPtr qconst CVoid) None false) /\ (forall s, typed ms known z0 true e_null s -> st s = CPtr qconst CVoid) /\
   exists n, elab ms rsize z0 opt e_null = Ok n /\ nt n = CPtr noq int) /\
  (typed ms known z0 true e_exch (rvalue long None false) /\ (forall s, typed ms known z0 true e_exch s -> st s = long) /\
   exists n, elab ms rsize z0 opt e_exch = Ok n /\ nt n = int).
Proof.
  intros rsize opt. destruct (elab_refs rsize opt) as (A & B & C & D & E & F & G & H & _).
  split; [exact (conj cond_typed (conj cond_only A))|]. split; [exact (conj fcond_typed (conj fcond_only B))|].
  split; [exact (conj fcomma_typed (conj fcomma_only C))|]. split; [exact (conj decay_typed (conj decay_only D))|].
  split; [exact (conj anon_typed (conj anon_only E))|]. split; [exact (conj atomic_typed (conj atomic_only F))|].
  split; [exact (conj null_typed (conj null_only G))|]. exact (conj exch_typed (conj exch_only H)).
Qed.
Print Assumptions C59_types_refuted.

(** Expressions without a type are accepted: 1.5 & 2, and arithmetic on a pointer to an incomplete type. *)
Theorem C59_rejected_refuted : forall rsize opt,
  ((forall s, ~ typed ms known z0 true e_fand s) /\ exists n, elab ms rsize z0 opt e_fand = Ok n /\ nt n = dbl) /\
  ((forall s, ~ typed ms known z0 true e_inc s) /\ exists n, elab ms rsize z0 opt e_inc = Ok n /\ nt n = CPtr noq (CRec 2)).
Proof.
  intros rsize opt. destruct (elab_refs rsize opt) as (_ & _ & _ & _ & _ & _ & _ & _ & A & B).
  exact (conj (conj fand_untyped A) (conj inc_untyped B)).
Qed.
Print Assumptions C59_rejected_refuted.

(** The size an int cannot hold: a division by zero for elements of 2^32 bytes. And the element of a pointer
    to a variable length array counts as 8 bytes: pointers 24 bytes apart, to int [3], give 3. *)
Theorem C59_difference_refuted : forall p k rsize,
  diff_value (p + k * 2 ^ 32) p (2 ^ 32) = Err /\
  diff_value (p + 2 * 12) p (size rsize (CVla noq int)) = Ok 3.
Proof. exact diff_bad. Qed.
Print Assumptions C59_difference_refuted.
