(** Type compatibility (C35). *)
From Coq Require Import ZArith List Bool Lia.
From Verif Require Import Base CompatSpec CompatModel CompatRep CompatProofs.
Import ListNotations.
Local Open Scope Z_scope.

(** C35: for descriptors of types without enumerations and atomic parameters the comparison ends and
    says whether the types are compatible in the sense of the standard. *)
Theorem C35_compatible : forall vd bl h p1 t1 p2 t2,
  rep vd bl h p1 t1 -> rep vd bl h p2 t2 -> plain t1 -> plain t2 ->
  exists b, compares h p1 p2 b /\ (b = true <-> compat t1 t2).
Proof.
  exact (fun vd bl h p1 t1 p2 t2 R1 R2 P1 P2 =>
    ex_intro _ _ (conj (compares_ceq vd bl h t1 p1 R1 t2 p2 R2)
      (conj (ceq_compat t1 t2 P1 P2) (compat_ceq t1 t2)))).
Qed.
Print Assumptions C35_compatible.

(** The variant that looks at the qualifiers (pointers, arrays, _Generic) wants them equal too. *)
Theorem C35_compatible2 : forall vd bl h p1 q1 t1 p2 q2 t2,
  repq vd bl h p1 q1 t1 -> repq vd bl h p2 q2 t2 -> plain t1 -> plain t2 ->
  exists b, (exists n, forall f, (n <= f)%nat -> is_compatible2 h (is_compatible f h) p1 p2 = Ok b) /\
    (b = true <-> q1 = q2 /\ compat t1 t2).
Proof. exact compatible2_ok. Qed.
Print Assumptions C35_compatible2.

(** Symmetry, for all types. *)
Theorem C35_symmetric : forall vd bl h p1 t1 p2 t2,
  rep vd bl h p1 t1 -> rep vd bl h p2 t2 ->
  exists b, compares h p1 p2 b /\ compares h p2 p1 b.
Proof. exact symmetric_ok. Qed.
Print Assumptions C35_symmetric.

(** Any two descriptors of the same type are compatible, for all types. *)
Theorem C35_reflexive : forall vd bl h p1 p2 t,
  rep vd bl h p1 t -> rep vd bl h p2 t -> compares h p1 p2 true.
Proof. exact reflexive_ok. Qed.
Print Assumptions C35_reflexive.

(** Top-level qualifiers do not matter: a qualified variant compares with every type
    as the type itself does. *)
Theorem C35_qualified : forall vd bl h p t new q,
  rep vd bl h p t -> h new = None -> new <> 0 ->
  exists h', new_qualified_type h p new q = Ok h' /\ extends h h' /\ repq vd bl h' new q t /\
    compares h' p new true /\
    forall p2 t2, rep vd bl h' p2 t2 -> exists b, compares h' p p2 b /\ compares h' new p2 b.
Proof. exact qualified_cmp. Qed.
Print Assumptions C35_qualified.

(** The descriptors built by the compiler stand for the types they are meant to, and the older ones keep
    their meaning. *)
Theorem C35_pointer : forall vd bl h b q t new,
  repq vd bl h b q t -> h new = None -> new <> 0 ->
  extends h (pointer_to h b new) /\ repq vd bl (pointer_to h b new) new noq (CPtr q t).
Proof. exact pointer_rep. Qed.
Print Assumptions C35_pointer.
Theorem C35_array : forall vd bl h b q t len new,
  repq vd bl h b q t -> h new = None -> new <> 0 ->
  extends h (array_of h b len new) /\
  repq vd bl (array_of h b len new) new noq (CArr (if len <? 0 then None else Some len) q t).
Proof. exact array_rep. Qed.
Print Assumptions C35_array.
Theorem C35_vla : forall vd bl h b q t new,
  repq vd bl h b q t -> h new = None -> new <> 0 ->
  extends h (vla_of h b new) /\ repq vd bl (vla_of h b new) new noq (CVla q t).
Proof. exact vla_rep. Qed.
Print Assumptions C35_vla.
Theorem C35_unqual : forall vd bl h p t new,
  clean h -> rep vd bl h p t -> h new = None -> new <> 0 ->
  exists h' p', unqual h p new = Ok (h', p') /\ extends h h' /\ repq vd bl h' p' noq t.
Proof. exact unqual_ok. Qed.
Print Assumptions C35_unqual.
Theorem C35_function : forall vd bl h ret t new1 new ps l v r,
  clean h -> rep vd bl h ret t -> reps vd bl h ps l ->
  h ret = Some r -> base r = 0 \/ kind r = TY_PTR ->
  h new = None -> new <> 0 -> h new1 = None -> new1 <> 0 -> new <> new1 ->
  exists h', func_type h ret new1 new ps v = Ok h' /\ extends h h' /\ repq vd bl h' new noq (CFun t v l).
Proof. exact func_rep. Qed.
Print Assumptions C35_function.

(** Descriptors for the examples: 1 void, 2 bool, 3 int, 4 unsigned, 5 a structure. *)
Definition ex_mem : memory := fun p =>
  match p with
  | 1 => Some (new_type TY_VOID)
  | 2 => Some (new_type TY_BOOL)
  | 3 => Some (new_type TY_INT)
  | 4 => Some (Trec TY_INT true noq 0 0 0 0 [] false)
  | 5 => Some (new_type TY_STRUCT)
  | 6 => Some (Trec TY_INT false (Quals false true false false) 3 0 0 0 [] false)
  | 7 => Some (Trec TY_ARRAY false noq 0 6 3 0 [] false)
  | 8 => Some (Trec TY_ARRAY false noq 0 6 (-1) 0 [] false)
  | 9 => Some (Trec TY_PTR true noq 0 7 0 0 [] false)
  | 10 => Some (Trec TY_PTR true noq 0 8 0 0 [] false)
  | 11 => Some (Trec TY_FUNC false noq 0 0 0 1 [9; 3] true)
  | 12 => Some (Trec TY_FUNC false noq 0 0 0 1 [10; 6] true)
  | _ => None
  end.
(** Two variadic functions whose first parameters point to const int[3] and const int[] are compatible, other
    pairs are not. *)
Example C35_example :
  is_compatible 20 ex_mem 11 12 = Ok true /\ is_compatible 20 ex_mem 12 11 = Ok true /\
  is_compatible 20 ex_mem 3 4 = Ok false /\ is_compatible 20 ex_mem 5 1 = Ok false /\
  is_compatible 20 ex_mem 3 6 = Ok true /\
  is_compatible2 ex_mem (is_compatible 20 ex_mem) 3 6 = Ok false.
Proof. repeat split; vm_compute; reflexivity. Qed.
Definition ex_cint : quals := Quals false true false false.
Definition ex_t11 : ctype := CFun CVoid true [(noq, CPtr noq (CArr (Some 3) ex_cint (CInt KInt false))); (noq, CInt KInt false)].
Definition ex_t12 : ctype := CFun CVoid true [(noq, CPtr noq (CArr None ex_cint (CInt KInt false))); (ex_cint, CInt KInt false)].
Example C35_example_compat : compat ex_t11 ex_t12 /\ plain ex_t11 /\ plain ex_t12.
Proof. split; [repeat constructor | split; cbn; tauto]. Qed.
Lemma ex_int6 : repq 1 2 ex_mem 6 ex_cint (CInt KInt false).
Proof.
  apply (rq 1 2 ex_mem 6 _ _ eq_refl). apply (rp_origin 1 2 ex_mem 6 _ _ ltac:(discriminate) eq_refl ltac:(discriminate)).
  apply (rp_int 1 2 ex_mem 3 (new_type TY_INT) KInt ltac:(discriminate) eq_refl eq_refl eq_refl).
Qed.
Lemma ex_void : rep 1 2 ex_mem 1 CVoid.
Proof. apply (rp_void 1 2 ex_mem (new_type TY_VOID)); [discriminate | reflexivity..]. Qed.
Example C35_example_rep : rep 1 2 ex_mem 11 ex_t11 /\ rep 1 2 ex_mem 12 ex_t12.
Proof.
  split.
  - apply (rp_fun 1 2 ex_mem 11 _ CVoid _ ltac:(discriminate) eq_refl eq_refl eq_refl ex_void).
    constructor; [|constructor; [|constructor]].
    + apply (rq 1 2 ex_mem 9 _ _ eq_refl). apply (rp_ptr 1 2 ex_mem 9 _ noq _ ltac:(discriminate) eq_refl eq_refl eq_refl).
      apply (rq 1 2 ex_mem 7 _ _ eq_refl). exact (rp_arr 1 2 ex_mem 7 _ ex_cint _ ltac:(discriminate) eq_refl eq_refl eq_refl ex_int6).
    + apply (rq 1 2 ex_mem 3 (new_type TY_INT) _ eq_refl).
      apply (rp_int 1 2 ex_mem 3 (new_type TY_INT) KInt ltac:(discriminate) eq_refl eq_refl eq_refl).
  - apply (rp_fun 1 2 ex_mem 12 _ CVoid _ ltac:(discriminate) eq_refl eq_refl eq_refl ex_void).
    constructor; [|constructor; [|constructor]].
    + apply (rq 1 2 ex_mem 10 _ _ eq_refl). apply (rp_ptr 1 2 ex_mem 10 _ noq _ ltac:(discriminate) eq_refl eq_refl eq_refl).
      apply (rq 1 2 ex_mem 8 _ _ eq_refl). exact (rp_arr 1 2 ex_mem 8 _ ex_cint _ ltac:(discriminate) eq_refl eq_refl eq_refl ex_int6).
    + exact ex_int6.
Qed.

(** Refuted: two different enumerations with the same integer type are said to be compatible
    (descriptors 3 and 6 may stand for enumerations 1 and 2). *)
Theorem C35_enum_refuted : exists h p1 p2,
  rep 1 2 h p1 (CEnum 1 KInt false) /\ rep 1 2 h p2 (CEnum 2 KInt false) /\
  ~ compat (CEnum 1 KInt false) (CEnum 2 KInt false) /\ is_compatible 9 h p1 p2 = Ok true.
Proof.
  exists ex_mem, 3, 6. split; [|split; [|split; [intro C; inversion C | reflexivity]]].
  - apply rp_enum. apply (rp_int 1 2 ex_mem 3 (new_type TY_INT) KInt ltac:(discriminate) eq_refl eq_refl eq_refl).
  - apply rp_enum. destruct (repq_inv _ _ _ _ _ _ ex_int6) as (r & _ & _ & K). exact K.
Qed.
Print Assumptions C35_enum_refuted.

(** Refuted: void(_Atomic int) and void(int) are said to be compatible. *)
Theorem C35_atomic_parameter_refuted : exists h p1 p2 t1 t2,
  rep 1 2 h p1 t1 /\ rep 1 2 h p2 t2 /\ ~ compat t1 t2 /\ is_compatible 9 h p1 p2 = Ok true.
Proof.
  exists (fun p => match p with
           | 1 => Some (new_type TY_VOID)
           | 3 => Some (new_type TY_INT)
           | 4 => Some (Trec TY_INT false (Quals true false false false) 3 0 0 0 [] false)
           | 5 => Some (Trec TY_FUNC false noq 0 0 0 1 [3] false)
           | 6 => Some (Trec TY_FUNC false noq 0 0 0 1 [4] false)
           | _ => None end), 5, 6,
    (CFun CVoid false [(noq, CInt KInt false)]), (CFun CVoid false [(Quals true false false false, CInt KInt false)]).
  match goal with |- rep _ _ ?m _ _ /\ _ => set (h := m) end.
  assert (RV : rep 1 2 h 1 CVoid) by (apply (rp_void 1 2 h (new_type TY_VOID)); [discriminate | reflexivity..]).
  assert (RI : rep 1 2 h 3 (CInt KInt false))
    by (apply (rp_int 1 2 h 3 (new_type TY_INT) KInt ltac:(discriminate) eq_refl eq_refl eq_refl)).
  split; [|split; [|split; [|reflexivity]]].
  - apply (rp_fun 1 2 h 5 _ CVoid _ ltac:(discriminate) eq_refl eq_refl eq_refl RV).
    constructor; [exact (rq 1 2 h 3 (new_type TY_INT) _ eq_refl RI) | constructor].
  - apply (rp_fun 1 2 h 6 _ CVoid _ ltac:(discriminate) eq_refl eq_refl eq_refl RV).
    constructor; [|constructor]. apply (rq 1 2 h 4 _ _ eq_refl).
    exact (rp_origin 1 2 h 4 _ _ ltac:(discriminate) eq_refl ltac:(discriminate) RI).
  - intro C. inversion C; subst.
    match goal with K : compat_params _ _ |- _ => inversion K; subst end. discriminate.
Qed.
Print Assumptions C35_atomic_parameter_refuted.

(** Refuted: an initialised object of a structure type with a flexible array member gets a copy of the
    descriptor (parse.c:1914-1915); the copy is not compatible with the structure type any more. *)
Theorem C35_flexible_refuted : exists h h' p new,
  rep 1 2 h p (CRec p) /\ copy_type h p new = Ok h' /\ is_compatible 9 h' new p = Ok false.
Proof.
  exists ex_mem. eexists. exists 5, 20.
  split; [|split; [reflexivity | reflexivity]].
  apply (rp_rec 1 2 ex_mem 5 (new_type TY_STRUCT)); [discriminate | reflexivity | reflexivity | left; reflexivity].
Qed.
Print Assumptions C35_flexible_refuted.

(** Refuted: [typedef int A[3]; const A] is the type of an array of const int (6.7.3), but a pointer to it
    is not compatible with a pointer to [const int[3]] (9): the qualifier stays at the array. *)
Theorem C35_const_array_refuted : exists h h1 h2,
  (** 7: const int[3] *)
  rep 1 2 h 7 (CArr (Some 3) ex_cint (CInt KInt false)) /\
  (** 20: A, 21: const A, 22: const A * *)
  h1 = array_of h 3 3 20 /\ new_qualified_type h1 20 21 ex_cint = Ok h2 /\
  is_compatible 9 (pointer_to h2 21 22) 22 9 = Ok false.
Proof.
  exists ex_mem. eexists. eexists. split; [|split; [reflexivity | split; [reflexivity | reflexivity]]].
  exact (rp_arr 1 2 ex_mem 7 _ ex_cint _ ltac:(discriminate) eq_refl eq_refl eq_refl ex_int6).
Qed.
Print Assumptions C35_const_array_refuted.

(** Refuted: after [enum E : long { A };] the descriptor of long is its own origin (parse.c:1302, 1387) and
    comparing it with another type never ends. *)
Theorem C35_fixed_enum_refuted : exists h h' p q,
  rep 1 2 h p (CInt KLong false) /\ rep 1 2 h q (CInt KInt false) /\
  update_enum_ty h p p = Ok h' /\ forall fuel, is_compatible fuel h' p q = Abort.
Proof. exact fixed_enum_loops. Qed.
Print Assumptions C35_fixed_enum_refuted.
