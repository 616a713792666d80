(** * Property C60: linkage and external definitions *)
From Coq Require Import Ascii String ZArith List Bool.
From Verif Require Import LinkSpec LinkModel LinkMore LinkOnce LinkUses LinkCases LinkCheck.
Import ListNotations.
Local Open Scope string_scope.
Local Open Scope Z_scope.
Local Open Scope list_scope.

(** Every valid translation unit of the handled kind is accepted; the symbols written are exactly those C
    defines, each once, with the linkage, size, alignment, storage duration and initial value of C; and
    every name in a function body stands for what C says. *)
Theorem C60_definitions : forall p, valid p -> handled p -> exists s r, parse_unit p = Ok (s, r) /\
  (forall y, In y (emit s) <-> defines p y) /\ NoDup (map s_name (emit s)) /\ Forall2 agree r (uses p).
Proof. exact definitions. Qed.
Print Assumptions C60_definitions.
Example C60_definitions_ex : valid good /\ handled good /\
  exists s r, parse_unit good = Ok (s, r) /\
    emit s = [Sym "a" true (CObj 20 16 false None); Sym "x" false (CObj 4 4 false (Some 3)); Sym "f" true CFun;
              Sym "s" true (CObj 24 8 false None); Sym "b" true (CObj 4 4 false None); Sym "g" false CFun;
              Sym "t" true (CObj 8 8 true (Some 9)); Sym "u" true (CObj 12 4 false (Some 8))] /\
    r = [(1, RLocal 1); (2, ROther); (3, RSym "g" None); (4, RSym "a" (Some (Arr (Some 5) int))); (5, RSym "x" (Some int));
         (6, RSym "s" (Some (Rec 7))); (7, RSym "f" None); (8, RSym "x" (Some int))].
Proof. split; [apply good_valid|]. split; [apply good_handled|]. eexists _, _. split; [vm_compute; reflexivity|]. split; vm_compute; reflexivity. Qed.

(** Whatever the other declarations, a second definition of a name is an error. *)
Theorem C60_one_definition : forall p s r x, parse_unit p = Ok (s, r) ->
  ((forall st ex il b, ~ In (IFun x st ex il b) p) ->
   (length (filter (fun i => match i with IVar y _ _ _ (Some _) => String.eqb y x | _ => false end) p) <= 1)%nat) /\
  ((forall c tls t i, ~ In (IVar x c tls t i) p) ->
   (length (filter (fun i => match i with IFun y _ _ _ (Some _) => String.eqb y x | _ => false end) p) <= 1)%nat).
Proof. exact one_definition. Qed.
Print Assumptions C60_one_definition.
Example C60_one_definition_ex : parse_unit [IVar "x" SNone false int (Some (1, int)); IVar "y" SNone false int None; IVar "x" SStatic false int (Some (2, int))] = Err /\
  parse_unit [fn "f" []; IFun "f" false true false None; fn "g" [BUse 1 "f"]; fn "f" []] = Err /\
  exists s r, parse_unit good = Ok (s, r) /\ (forall st ex il b, ~ In (IFun "x" st ex il b) good) /\
    length (filter (fun i => match i with IVar y _ _ _ (Some _) => String.eqb y "x" | _ => false end) good) = 1%nat.
Proof.
  split; [reflexivity|]. split; [reflexivity|]. eexists _, _. split; [vm_compute; reflexivity|]. split; [|reflexivity].
  intros st ex il b H. cbn in H. repeat (destruct H as [H | H]; [discriminate|]). exact H.
Qed.

(** Whatever the declarations, a name that is used is declared before, in an enclosing scope. *)
Theorem C60_declared : forall p s r k x o, parse_unit p = Ok (s, r) -> In (k, x, o) (uses p) -> o <> None.
Proof. exact declared. Qed.
Print Assumptions C60_declared.
Example C60_declared_ex : parse_unit [fn "f" [BBlock [BLocal 1 "y"; BUse 2 "y"]; BUse 3 "y"]] = Err /\
  parse_unit [fn "f" [BUse 1 "g"]; IFun "g" false false false None] = Err /\
  exists s r, parse_unit good = Ok (s, r) /\ In (5, "x", Some (ELink Internal (Some int))) (uses good).
Proof. split; [reflexivity|]. split; [reflexivity|]. eexists _, _. split; [vm_compute; reflexivity|]. vm_compute. tauto. Qed.

(** Valid translation units the symbols of which are wrong. The length of an array declared without one after
    its definition is lost: int a[3]; int a[]; reserves 4 bytes. *)
Theorem C60_length_refuted : valid shorter /\ defines shorter (Sym "a" true (CObj 12 4 false None)) /\
  exists s r, parse_unit shorter = Ok (s, r) /\ emit s = [Sym "a" true (CObj 4 4 false None)].
Proof.
  split; [apply shorter_valid|]. split; [|eexists _, _; split; vm_compute; reflexivity].
  apply (d_obj shorter (Fact "a" External true None (FObj Tent false (Arr (Some 3) int) false true)) Tent false (Arr (Some 3) int) false true
           (Arr (Some 3) int) [Arr None int] 12 4); [vm_compute; auto | reflexivity | discriminate | reflexivity | reflexivity].
Qed.
Print Assumptions C60_length_refuted.
(** ... and so is the length an extern declaration tells later: int a[]; extern int a[5]; reserves 4 bytes. *)
Theorem C60_later_length_refuted : valid later /\ defines later (Sym "a" true (CObj 20 16 false None)) /\
  exists s r, parse_unit later = Ok (s, r) /\ emit s = [Sym "a" true (CObj 4 4 false None)].
Proof.
  split; [apply later_valid|]. split; [|eexists _, _; split; vm_compute; reflexivity].
  apply (d_obj later (Fact "a" External true None (FObj Tent false (Arr None int) false true)) Tent false (Arr None int) false true
           (Arr None int) [Arr (Some 5) int] 20 4); [vm_compute; auto | reflexivity | discriminate | reflexivity | reflexivity].
Qed.
Print Assumptions C60_later_length_refuted.
(** static int x; extern int x = 3; defines a global symbol. *)
Theorem C60_static_refuted : valid made_global /\ defines made_global (Sym "x" false (CObj 4 4 false (Some 3))) /\
  exists s r, parse_unit made_global = Ok (s, r) /\ emit s = [Sym "x" true (CObj 4 4 false (Some 3))].
Proof.
  split; [apply made_global_valid|]. split; [|eexists _, _; split; vm_compute; reflexivity].
  apply (d_obj made_global (Fact "x" Internal true None (FObj Tent true int false true)) Tent true int false true
           int [int] 4 4); [vm_compute; auto | reflexivity | discriminate | reflexivity | reflexivity].
Qed.
Print Assumptions C60_static_refuted.
(** inline int f(void) { } extern int f(void); defines no external function. *)
Theorem C60_inline_refuted : valid only_static /\ defines only_static (Sym "f" true CFun) /\
  exists s r, parse_unit only_static = Ok (s, r) /\ emit s = [Sym "f" false CFun].
Proof.
  split; [apply only_static_valid|]. split; [|eexists _, _; split; vm_compute; reflexivity].
  apply (d_fun only_static (Fact "f" External true None (FFun true true)) true); [vm_compute; auto | reflexivity].
Qed.
Print Assumptions C60_inline_refuted.
(** extern struct S s; struct S { long m; }; struct S s; is aligned to 1. *)
Theorem C60_align_refuted : valid unaligned /\ defines unaligned (Sym "s" true (CObj 8 8 false None)) /\
  exists s r, parse_unit unaligned = Ok (s, r) /\ emit s = [Sym "s" true (CObj 8 1 false None)].
Proof.
  split; [apply unaligned_valid|]. split; [|eexists _, _; split; vm_compute; reflexivity].
  apply (d_obj unaligned (Fact "s" External true (Some (ELink External (Some (Rec 1)))) (FObj Tent false (Rec 1) false true)) Tent false (Rec 1) false true
           (Rec 1) [Rec 1] 8 8); [vm_compute; auto | reflexivity | discriminate | reflexivity | reflexivity].
Qed.
Print Assumptions C60_align_refuted.
(** In a block, extern int x; and int g(void); do not hide a local or a typedef name of an outer block. *)
Theorem C60_block_refuted : valid hidden_object /\ uses hidden_object = [(2, "x", Some (ELink External (Some int)))] /\
  (exists s, parse_unit hidden_object = Ok (s, [(2, RLocal 1)])) /\
  valid hidden_function /\ uses hidden_function = [(2, "g", Some (ELink External None))] /\
  (exists s, parse_unit hidden_function = Ok (s, [(2, ROther)])).
Proof.
  split; [apply hidden_object_valid|]. split; [reflexivity|]. split; [eexists; vm_compute; reflexivity|].
  split; [apply hidden_function_valid|]. split; [reflexivity|]. eexists. vm_compute. reflexivity.
Qed.
Print Assumptions C60_block_refuted.
(** A second extern declaration does not complete the type: sizeof a after extern int a[]; extern int a[5]; *)
Theorem C60_type_refuted : valid open_type /\ uses open_type = [(1, "a", Some (ELink External (Some (Arr (Some 5) int))))] /\
  exists s, parse_unit open_type = Ok (s, [(1, RSym "a" (Some (Arr None int)))]).
Proof. split; [apply open_type_valid|]. split; [reflexivity|]. eexists. vm_compute. reflexivity. Qed.
Print Assumptions C60_type_refuted.
(** int x; long x; and int x; int x(void); and static int x; int x; are accepted. *)
Theorem C60_accepts_refuted : Forall (fun p => ~ valid p /\ parse_unit p <> Err) [two_types; two_kinds; two_links].
Proof.
  repeat constructor; try (vm_compute; discriminate); intro V.
  - destruct (v_types _ V (Fact "x" External true None (FObj Tent false int false true)) (Fact "x" External true (Some (ELink External (Some int))) (FObj Tent false long false true))
      Tent false int false true Tent false long false true) as [C _]; try reflexivity; [vm_compute; auto | vm_compute; auto | inversion C].
  - destruct (v_link _ V (Fact "x" External true None (FObj Tent false int false true)) (Fact "x" External true (Some (ELink External (Some int))) (FFun false false))) as [_ C];
      try reflexivity; [vm_compute; auto | vm_compute; auto | discriminate].
  - destruct (v_link _ V (Fact "x" Internal true None (FObj Tent true int false true)) (Fact "x" External true (Some (ELink Internal (Some int))) (FObj Tent false int false true))) as [C _];
      try reflexivity; [vm_compute; auto | vm_compute; auto | discriminate].
Qed.
Print Assumptions C60_accepts_refuted.
