(** Generic selections (C68). *)
From Coq Require Import ZArith List Bool Lia.
From Verif Require Import Base CompatSpec CompatModel CompatRep GenericSpec GenericModel GenericProofs.
Import ListNotations.
Local Open Scope Z_scope.

(** C68: a generic selection that meets the constraints of the standard gives the expression that the standard
    chooses, and is rejected if there is none; the types have no enumeration and no atomic
    parameter inside, and an array (or function) has no qualifiers of its own. *)
Theorem C68_generic : forall vd bl h p q t new, clean h -> variants h -> repq vd bl h p q t -> plain t ->
  (converted t <> t -> q = noq) -> h new = None -> new <> 0 ->
  forall l b, Forall2 (stands vd bl h) l b -> admissible (converted t) b ->
  exists n, forall f, (n <= f)%nat ->
    (forall e, selects (converted t) b e -> generic_selection f h p new l = Ok e) /\
    ((forall e, ~ selects (converted t) b e) -> generic_selection f h p new l = Abort).
Proof. exact selection_ok. Qed.
Print Assumptions C68_generic.

(** An association with a function type is never accepted (6.5.1.1). *)
Theorem C68_function_type : forall vd bl h p new l p1 e1 a v m, variants h -> h new = None ->
  In (For p1 e1) l -> rep vd bl h p1 (CFun a v m) -> forall f e, generic_selection f h p new l <> Ok e.
Proof. exact function_association. Qed.
Print Assumptions C68_function_type.

(** Qualified types are made so that [variants] holds. *)
Theorem C68_variants : forall h p new q h', variants h -> h new = None ->
  new_qualified_type h p new q = Ok h' -> variants h'.
Proof. exact qualified_variants. Qed.
Print Assumptions C68_variants.

(** *** Instances: 3 int, 4 unsigned, 6 const int, 7 const int[3], 8 int *, 9 const int *,
    10 void(void). *)
Definition cst68 : quals := Quals false true false false.
Definition mem68 : memory := fun p =>
  match p with
  | 1 => Some (new_type TY_VOID)
  | 3 => Some (new_type TY_INT)
  | 4 => Some (Trec TY_INT true noq 0 0 0 0 [] false)
  | 6 => Some (Trec TY_INT false cst68 3 0 0 0 [] false)
  | 7 => Some (Trec TY_ARRAY false noq 0 6 3 0 [] false)
  | 8 => Some (Trec TY_PTR true noq 0 3 0 0 [] false)
  | 9 => Some (Trec TY_PTR true noq 0 6 0 0 [] false)
  | 10 => Some (Trec TY_FUNC false noq 0 0 0 1 [] false)
  | _ => None
  end.
(** [_Generic(a, default: 1, int: 2, int * : 3, const int * : 4, const int: 5)] *)
Definition l68 : list assoc := [Default 1; For 3 2; For 8 3; For 9 4; For 6 5]%nat.
Definition int68 : ctype := CInt KInt false.
Definition b68 : list (association * nat) :=
  [(ForDefault, 1); (ForType noq int68, 2); (ForType noq (CPtr noq int68), 3); (ForType noq (CPtr cst68 int68), 4);
   (ForType cst68 int68, 5)]%nat.
Definition arr68 : ctype := CArr (Some 3) cst68 int68.

Example mem68_cases : forall (P : Z -> trec -> Prop),
  (forall p r, In (p, Some r) (map (fun p => (p, mem68 p)) [1; 3; 4; 6; 7; 8; 9; 10]) -> P p r) ->
  forall p r, mem68 p = Some r -> P p r.
Proof.
  intros P H p r E. apply H.
  destruct p as [|p|p]; try discriminate E.
  repeat (destruct p as [p|p|]; try discriminate E); injection E as <-; cbn; tauto.
Qed.
Ltac cases68 := match goal with H : In _ _ |- _ => cbn in H;
  repeat match type of H with _ \/ _ => destruct H as [H|H]; [injection H as <- <-|] | False => destruct H end end.
Example clean68 : clean mem68.
Proof.
  unfold clean. apply (mem68_cases (fun p r => origin r = 0 -> kind r = TY_VOID \/ kind r = TY_BOOL \/ kind r = TY_STRUCT \/ kind r = TY_UNION -> quals_of r = noq)).
  intros p r H. cases68; intros O K; cbn in *; try reflexivity; discriminate O.
Qed.
Example variants68 : variants mem68.
Proof.
  unfold variants. apply (mem68_cases (fun p r => origin r <> 0 -> exists o, mem68 (origin r) = Some o /\ kind r = kind o /\ base r = base o)).
  intros p r H. cases68; cbn; intros O; try (exfalso; apply O; reflexivity). eexists. repeat split.
Qed.
Example rep68 : repq 1 2 mem68 3 noq int68 /\ repq 1 2 mem68 4 noq (CInt KInt true) /\ repq 1 2 mem68 6 cst68 int68 /\
  repq 1 2 mem68 7 noq arr68 /\ repq 1 2 mem68 8 noq (CPtr noq int68) /\ repq 1 2 mem68 9 noq (CPtr cst68 int68) /\
  repq 1 2 mem68 10 noq (CFun CVoid false []).
Proof.
  assert (R3 : rep 1 2 mem68 3 int68) by exact (rp_int 1 2 mem68 3 _ KInt ltac:(discriminate) eq_refl eq_refl eq_refl).
  assert (Q3 : repq 1 2 mem68 3 noq int68) by exact (rq 1 2 mem68 3 (new_type TY_INT) _ eq_refl R3).
  assert (Q6 : repq 1 2 mem68 6 cst68 int68).
  { refine (rq 1 2 mem68 6 _ _ eq_refl _). exact (rp_origin 1 2 mem68 6 _ _ ltac:(discriminate) eq_refl ltac:(discriminate) R3). }
  split; [exact Q3|]. split; [|split; [exact Q6|split; [|split; [|split]]]].
  - refine (rq 1 2 mem68 4 _ _ eq_refl _). exact (rp_int 1 2 mem68 4 _ KInt ltac:(discriminate) eq_refl eq_refl eq_refl).
  - refine (rq 1 2 mem68 7 _ _ eq_refl _). exact (rp_arr 1 2 mem68 7 _ _ _ ltac:(discriminate) eq_refl eq_refl eq_refl Q6).
  - refine (rq 1 2 mem68 8 _ _ eq_refl _). exact (rp_ptr 1 2 mem68 8 _ _ _ ltac:(discriminate) eq_refl eq_refl eq_refl Q3).
  - refine (rq 1 2 mem68 9 _ _ eq_refl _). exact (rp_ptr 1 2 mem68 9 _ _ _ ltac:(discriminate) eq_refl eq_refl eq_refl Q6).
  - refine (rq 1 2 mem68 10 _ _ eq_refl _). refine (rp_fun 1 2 mem68 10 _ _ _ ltac:(discriminate) eq_refl eq_refl eq_refl _ (rs_nil _ _ _)).
    exact (rp_void 1 2 mem68 _ ltac:(discriminate) eq_refl eq_refl eq_refl).
Qed.
(** The hypotheses for the control types const int[3], unsigned and const int, and what is chosen. *)
Example C68_ex : Forall2 (stands 1 2 mem68) l68 b68 /\ mem68 20 = None /\
  Forall (fun x => plain (fst x) /\ admissible (converted (fst x)) b68 /\ selects (converted (fst x)) b68 (snd x))
    [(arr68, 4); (CInt KInt true, 1); (int68, 2)]%nat /\
  map (fun p => generic_selection 9 mem68 p 20 l68) [7; 4; 6] = [Ok 4; Ok 1; Ok 2]%nat /\
  generic_selection 9 mem68 10 20 [For 3 1; For 8 2]%nat = Abort.
Proof.
  destruct rep68 as (R3 & R4 & R6 & R7 & R8 & R9 & R10).
  split; [|split; [reflexivity|split; [|split; [vm_compute; reflexivity|vm_compute; reflexivity]]]].
  - repeat constructor; cbn [stands]; try assumption; try exact Logic.I; intros (a & v & l & H); discriminate H.
  - assert (AD : forall c, ~ (exists x y, In x b68 /\ In y b68 /\ snd x <> snd y /\ fits c (fst x) /\ fits c (fst y)) -> admissible c b68).
    { intros c NO. unfold admissible, b68. repeat constructor;
      try (intros [A B]; first [discriminate A | discriminate B]);
      intros [A B]; apply NO; do 2 eexists; (split; [|split; [|split; [|split; [exact A|exact B]]]]); cbn; try tauto; discriminate. }
    repeat apply Forall_cons; [| | |apply Forall_nil]; cbn [fst snd]; (split; [exact Logic.I|split]).
    + apply AD. intros (x & y & H1 & H2 & NE & F1 & F2). unfold b68 in H1, H2. cbn [In] in H1, H2.
      repeat match goal with H : _ \/ _ |- _ => destruct H as [H|H] end; subst; try contradiction; cbn [fst snd fits] in *;
      try contradiction; repeat match goal with H : _ /\ _ |- _ => destruct H end; try discriminate;
      repeat match goal with H : compat _ _ |- _ => inversion H; clear H; subst end.
    + left. eexists. split; [cbn [b68 In]; do 3 right; left; reflexivity|]. split; [reflexivity|repeat constructor].
    + apply AD. intros (x & y & H1 & H2 & NE & F1 & F2). unfold b68 in H1, H2. cbn [In] in H1, H2.
      repeat match goal with H : _ \/ _ |- _ => destruct H as [H|H] end; subst; try contradiction; cbn [fst snd fits] in *;
      try contradiction; repeat match goal with H : _ /\ _ |- _ => destruct H end; try discriminate;
      repeat match goal with H : compat _ _ |- _ => inversion H; clear H; subst end.
    + right. split; [|left; reflexivity]. intros a e H F. unfold b68 in H. cbn [In] in H.
      repeat match type of H with _ \/ _ => destruct H as [H|H]; [injection H as <- <-|] | False => destruct H end; cbn [fits] in F;
      try contradiction; destruct F as [_ F]; inversion F.
    + apply AD. intros (x & y & H1 & H2 & NE & F1 & F2). unfold b68 in H1, H2. cbn [In] in H1, H2.
      repeat match goal with H : _ \/ _ |- _ => destruct H as [H|H] end; subst; try contradiction; cbn [fst snd fits] in *;
      try contradiction; repeat match goal with H : _ /\ _ |- _ => destruct H end; try discriminate;
      repeat match goal with H : compat _ _ |- _ => inversion H; clear H; subst end; contradiction.
    + left. eexists. split; [cbn [b68 In]; right; left; reflexivity|]. split; [reflexivity|constructor].
Qed.

(** Refuted: after [typedef int A[3]; const A x;] the expression x has, after conversion, the type const int *
    (6.7.3 makes the elements const), but [_Generic(x, int * : 1, const int * : 2)] gives 1. *)
Theorem C68_const_array_refuted : exists h h', array_of mem68 3 3 15 = h /\ new_qualified_type h 15 16 cst68 = Ok h' /\
  selects (converted (CArr (Some 3) cst68 int68)) [(ForType noq (CPtr noq int68), 1); (ForType noq (CPtr cst68 int68), 2)]%nat 2 /\
  repq 1 2 mem68 8 noq (CPtr noq int68) /\ repq 1 2 mem68 9 noq (CPtr cst68 int68) /\
  generic_selection 9 h' 16 20 [For 8 1; For 9 2]%nat = Ok 1%nat.
Proof.
  eexists. eexists. split; [reflexivity|]. split; [reflexivity|]. split; [|split; [|split; [|vm_compute; reflexivity]]].
  - left. eexists. split; [right; left; reflexivity|]. split; [reflexivity|repeat constructor].
  - exact (proj1 (proj2 (proj2 (proj2 (proj2 rep68))))).
  - exact (proj1 (proj2 (proj2 (proj2 (proj2 (proj2 rep68)))))).
Qed.
Print Assumptions C68_const_array_refuted.

(** Refuted: the constraints are not checked. With two associations for int, or two defaults, a selection
    is accepted; in the first case it takes the last one, in the second the first. *)
Theorem C68_constraints_refuted : exists l b l' b',
  Forall2 (stands 1 2 mem68) l b /\ ~ admissible int68 b /\ generic_selection 9 mem68 3 20 l = Ok 2%nat /\
  Forall2 (stands 1 2 mem68) l' b' /\ ~ admissible int68 b' /\ generic_selection 9 mem68 3 20 l' = Ok 1%nat.
Proof.
  exists [For 3 1; For 3 2]%nat, [(ForType noq int68, 1); (ForType noq int68, 2)]%nat, [Default 1; Default 2]%nat,
    [(ForDefault, 1); (ForDefault, 2)]%nat.
  assert (S : forall e, stands 1 2 mem68 (For 3 e) (ForType noq int68, e)).
  { intros e. split; [reflexivity|]. split; [exact (proj1 rep68)|]. split; [exact Logic.I|]. intros (a & v & l & H). discriminate H. }
  split; [exact (Forall2_cons _ _ (S 1%nat) (Forall2_cons _ _ (S 2%nat) (Forall2_nil _)))|].
  split; [|split; [vm_compute; reflexivity|split; [repeat apply Forall2_cons; [reflexivity|reflexivity|apply Forall2_nil]|split; [|vm_compute; reflexivity]]]].
  - intros A. inversion A as [|x y H1 H2]; subst. inversion H1 as [|x y H3 H4]; subst. apply (proj1 H3). repeat constructor.
  - intros A. inversion A as [|x y H1 H2]; subst. inversion H1 as [|x y H3 H4]; subst. apply (proj2 H3). split; reflexivity.
Qed.
Print Assumptions C68_constraints_refuted.
