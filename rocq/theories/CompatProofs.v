(** Proofs about type compatibility. *)
From Coq Require Import ZArith List Bool Lia.
From Verif Require Import Base CompatSpec CompatModel CompatRep.
Import ListNotations.
Local Open Scope Z_scope.

Section CtypeInd.
  Variable P : ctype -> Prop.
  Hypothesis Hv : P CVoid.
  Hypothesis Hb : P CBool.
  Hypothesis Hi : forall k u, P (CInt k u).
  Hypothesis Hf : forall k, P (CFlo k).
  Hypothesis Hr : forall i, P (CRec i).
  Hypothesis He : forall i k u, P (CEnum i k u).
  Hypothesis Hp : forall q t, P t -> P (CPtr q t).
  Hypothesis Ha : forall n q t, P t -> P (CArr n q t).
  Hypothesis Hl : forall q t, P t -> P (CVla q t).
  Hypothesis Hu : forall r v l, P r -> Forall (fun x => P (snd x)) l -> P (CFun r v l).
  Fixpoint ctype_ind' (t : ctype) : P t :=
    match t with
    | CVoid => Hv | CBool => Hb
    | CInt k u => Hi k u | CFlo k => Hf k | CRec i => Hr i | CEnum i k u => He i k u
    | CPtr q a => Hp q a (ctype_ind' a)
    | CArr n q a => Ha n q a (ctype_ind' a)
    | CVla q a => Hl q a (ctype_ind' a)
    | CFun r v l => Hu r v l (ctype_ind' r)
        ((fix all (l : list (quals * ctype)) : Forall (fun x => P (snd x)) l :=
            match l with
            | [] => Forall_nil _
            | x :: m => Forall_cons x (ctype_ind' (snd x)) (all m)
            end) l)
    end.
End CtypeInd.

Definition ikind_eqb (a b : ikind) : bool :=
  match a, b with
  | KPchar, KPchar | KChar, KChar | KShort, KShort | KInt, KInt | KLong, KLong | KLongLong, KLongLong => true
  | _, _ => false
  end.
Definition fkind_eqb (a b : fkind) : bool :=
  match a, b with KFloat, KFloat | KDouble, KDouble | KLdouble, KLdouble => true | _, _ => false end.
Definition len_eqb (a b : option Z) : bool :=
  match a, b with Some x, Some y => x =? y | _, _ => true end.

(** What the code decides, on C types. *)
Fixpoint ceq (a b : ctype) {struct a} : bool :=
  match a, b with
  | CVoid, CVoid | CBool, CBool => true
  | (CInt k u | CEnum _ k u), (CInt k' u' | CEnum _ k' u') => ikind_eqb k k' && Bool.eqb u u'
  | CFlo k, CFlo k' => fkind_eqb k k'
  | CRec i, CRec j => i =? j
  | CPtr q x, CPtr q' y => same_quals q q' && ceq x y
  | CArr m q x, CArr n q' y => same_quals q q' && ceq x y && len_eqb m n
  | CVla q x, CArr _ q' y | CArr _ q x, CVla q' y | CVla q x, CVla q' y => same_quals q q' && ceq x y
  | CFun r v l, CFun r' v' l' =>
      ceq r r' && Bool.eqb v v' &&
      (fix ps (l l' : list (quals * ctype)) {struct l} : bool :=
         match l, l' with
         | [], [] => true
         | (_, x) :: m, (_, y) :: m' => ceq x y && ps m m'
         | _, _ => false
         end) l l'
  | _, _ => false
  end.
Fixpoint ceqs (l l' : list (quals * ctype)) {struct l} : bool :=
  match l, l' with
  | [], [] => true
  | (_, x) :: m, (_, y) :: m' => ceq x y && ceqs m m'
  | _, _ => false
  end.
Lemma ceq_fun : forall r v l r' v' l',
  ceq (CFun r v l) (CFun r' v' l') = ceq r r' && Bool.eqb v v' && ceqs l l'.
Proof. reflexivity. Qed.

Lemma same_quals_eq : forall a b, same_quals a b = true <-> a = b.
Proof.
  intros [a1 a2 a3 a4] [b1 b2 b3 b4]. unfold same_quals. cbn [q_atomic q_const q_volatile q_restrict].
  rewrite !andb_true_iff, !eqb_true_iff. split.
  - intros [[[-> ->] ->] ->]. reflexivity.
  - intros E. injection E as -> -> -> ->. auto.
Qed.
Lemma same_quals_refl : forall a, same_quals a a = true.
Proof. intro a. apply same_quals_eq. reflexivity. Qed.
Lemma same_quals_sym : forall a b, same_quals a b = same_quals b a.
Proof.
  intros a b. apply eq_true_iff_eq. rewrite !same_quals_eq. split; congruence.
Qed.
Lemma ikind_eqb_refl : forall k, ikind_eqb k k = true. Proof. destruct k; reflexivity. Qed.
Lemma fkind_eqb_refl : forall k, fkind_eqb k k = true. Proof. destruct k; reflexivity. Qed.
Lemma ikind_eqb_eq : forall a b, ikind_eqb a b = true <-> a = b.
Proof. destruct a, b; split; intro E; try reflexivity; discriminate. Qed.
Lemma fkind_eqb_eq : forall a b, fkind_eqb a b = true <-> a = b.
Proof. destruct a, b; split; intro E; try reflexivity; discriminate. Qed.
Lemma ikind_eqb_sym : forall a b, ikind_eqb a b = ikind_eqb b a.
Proof. destruct a, b; reflexivity. Qed.
Lemma fkind_eqb_sym : forall a b, fkind_eqb a b = fkind_eqb b a.
Proof. destruct a, b; reflexivity. Qed.
Lemma eqb_sym' : forall a b : bool, Bool.eqb a b = Bool.eqb b a.
Proof. destruct a, b; reflexivity. Qed.

Lemma ceq_refl : forall t, ceq t t = true.
Proof.
  induction t using ctype_ind'; try reflexivity.
  - cbn [ceq]. rewrite ikind_eqb_refl, eqb_reflx. reflexivity.
  - cbn [ceq]. apply fkind_eqb_refl.
  - cbn [ceq]. apply Z.eqb_refl.
  - cbn [ceq]. rewrite ikind_eqb_refl, eqb_reflx. reflexivity.
  - cbn [ceq]. rewrite same_quals_refl, IHt. reflexivity.
  - cbn [ceq]. rewrite same_quals_refl, IHt. destruct n; cbn [len_eqb andb]; [apply Z.eqb_refl | reflexivity].
  - cbn [ceq]. rewrite same_quals_refl, IHt. reflexivity.
  - rewrite ceq_fun, IHt, eqb_reflx. cbn [andb]. induction H as [|[q x] l Hx F IH]; [reflexivity|].
    cbn [ceqs snd] in *. rewrite Hx, IH. reflexivity.
Qed.

Lemma ceq_sym : forall a b, ceq a b = ceq b a.
Proof.
  induction a using ctype_ind'; intros b; destruct b; try reflexivity; cbn [ceq].
  - rewrite ikind_eqb_sym, eqb_sym'. reflexivity.
  - rewrite ikind_eqb_sym, eqb_sym'. reflexivity.
  - apply fkind_eqb_sym.
  - apply Z.eqb_sym.
  - rewrite ikind_eqb_sym, eqb_sym'. reflexivity.
  - rewrite ikind_eqb_sym, eqb_sym'. reflexivity.
  - rewrite same_quals_sym, IHa. reflexivity.
  - rewrite same_quals_sym, IHa. f_equal. destruct n, len; try reflexivity. cbn [len_eqb]. apply Z.eqb_sym.
  - rewrite same_quals_sym, IHa. reflexivity.
  - rewrite same_quals_sym, IHa. reflexivity.
  - rewrite same_quals_sym, IHa. reflexivity.
  - fold ceqs. rewrite IHa, eqb_sym'. f_equal. clear - H. revert params.
    induction H as [|[q x] l Hx F IH]; intros [|[q' y] m]; try reflexivity.
    cbn [ceqs snd] in *. rewrite Hx, IH. reflexivity.
Qed.

Section Rep.
Variables ty_void ty_bool : Z.
Variable h : memory.
Notation rep := (rep ty_void ty_bool h).
Notation repq := (repq ty_void ty_bool h).
Notation reps := (reps ty_void ty_bool h).

Inductive chain : Z -> nat -> Z -> Prop :=
| ch_end : forall p r, p <> 0 -> h p = Some r -> origin r = 0 -> chain p 0 p
| ch_step : forall p r n q, p <> 0 -> h p = Some r -> origin r <> 0 -> chain (origin r) n q -> chain p (S n) q.

Lemma chain_det : forall p n q, chain p n q -> forall n' q', chain p n' q' -> q = q'.
Proof.
  induction 1; intros n' q' C; inversion C; subst; try congruence.
  rewrite H0 in H4. injection H4 as <-. eauto.
Qed.
Lemma chain_end : forall p n q, chain p n q -> exists r, q <> 0 /\ h q = Some r /\ origin r = 0.
Proof. induction 1; eauto. Qed.

Definition erase1 (t : ctype) : ctype := match t with CEnum _ k u => CInt k u | _ => t end.
Lemma to_base : forall p t, rep p t -> exists n q, chain p n q /\ rep q (erase1 t).
Proof.
  induction 1; try (exists 0%nat; eexists; split; [eapply ch_end; eassumption | econstructor; eassumption]).
  - destruct IHrep as (n & q & C & Q). exists (S n), q. split; [econstructor; eassumption | exact Q].
  - exact IHrep.
Qed.
Lemma ceq_erase : forall a b, ceq (erase1 a) (erase1 b) = ceq a b.
Proof. destruct a, b; reflexivity. Qed.

Lemma is_compatible_mono : forall f p q b, is_compatible f h p q = Ok b ->
  forall g, (f <= g)%nat -> is_compatible g h p q = Ok b.
Proof.
  induction f as [|f IH]; intros p q b E g L; [discriminate|].
  destruct g as [|g]; [lia|]. cbn [is_compatible] in *.
  destruct (p =? q); [exact E|].
  destruct (deref h p) as [r1| |]; cbn [bind] in *; try discriminate.
  destruct (negb (origin r1 =? 0)); [apply (IH _ _ _ E); lia|].
  destruct (deref h q) as [r2| |]; cbn [bind] in *; try discriminate.
  destruct (negb (origin r2 =? 0)); [apply (IH _ _ _ E); lia|].
  assert (M2 : forall a c b, is_compatible2 h (is_compatible f h) a c = Ok b ->
                is_compatible2 h (is_compatible g h) a c = Ok b).
  { unfold is_compatible2. intros a c b' E2.
    destruct (deref h a) as [s1| |]; cbn [bind] in *; try discriminate.
    destruct (deref h c) as [s2| |]; cbn [bind] in *; try discriminate.
    destruct (same_quals _ _); [|exact E2]. apply (IH _ _ _ E2). lia. }
  assert (MP : forall l m b, cmp_params (is_compatible f h) l m = Ok b ->
                cmp_params (is_compatible g h) l m = Ok b).
  { induction l as [|a l IL]; intros [|c m] b' E2; try exact E2. cbn [cmp_params] in *.
    destruct (is_compatible f h a c) as [x| |] eqn:EX; cbn [bind] in *; try discriminate.
    rewrite (IH _ _ _ EX g ltac:(lia)). cbn [bind]. destruct x; [apply IL; exact E2 | exact E2]. }
  unfold is_compatible_base in *.
  destruct (_ || _); [apply M2; exact E|].
  destruct (negb (kind_eqb _ _)); [exact E|].
  destruct (kind r1); try exact E.
  - apply M2, E.
  - destruct (is_compatible f h (return_ty r1) (return_ty r2)) as [x| |] eqn:EX; cbn [bind] in *; try discriminate.
    rewrite (IH _ _ _ EX g ltac:(lia)). cbn [bind].
    destruct (negb x); [exact E|]. destruct (negb _); [exact E|]. apply MP, E.
  - destruct (is_compatible2 h (is_compatible f h) _ _) as [x| |] eqn:EX; cbn [bind] in *; try discriminate.
    rewrite (M2 _ _ _ EX). exact E.
Qed.

Lemma compares_once : forall f p q b, is_compatible f h p q = Ok b -> compares h p q b.
Proof. intros f p q b E. exists f. apply is_compatible_mono, E. Qed.
Lemma compares_det : forall p q b b', compares h p q b -> compares h p q b' -> b = b'.
Proof.
  intros p q b b' [n N] [m M]. specialize (N (n + m)%nat ltac:(lia)). specialize (M (n + m)%nat ltac:(lia)).
  congruence.
Qed.
Lemma compares_same : forall p, compares h p p true.
Proof. intro p. apply (compares_once 1). cbn [is_compatible]. rewrite Z.eqb_refl. reflexivity. Qed.

(** The comparison of two types is the comparison of the ends of their chains. *)
Lemma cmp_chain_r : forall p2 n2 q2, chain p2 n2 q2 -> forall q1, chain q1 0 q1 ->
  forall b, compares h q1 q2 b -> compares h q1 p2 b.
Proof.
  induction 1; intros q1 C1 b K.
  - exact K.
  - destruct (Z.eq_dec q1 p) as [->|N].
    + inversion C1; subst. congruence.
    + destruct (IHchain q1 C1 b K) as [m M]. apply (compares_once (S m)). cbn [is_compatible].
      destruct (Z.eqb_spec q1 p); [contradiction|]. inversion C1; subst.
      unfold deref. rewrite H4. cbn [bind]. rewrite H5. cbn [Z.eqb negb]. rewrite H0. cbn [bind].
      destruct (Z.eqb_spec (origin r) 0); [contradiction|]. cbn [negb]. apply M. lia.
Qed.
Lemma chain_refl : forall p n q, chain p n q -> chain q 0 q.
Proof. intros p n q C. destruct (chain_end _ _ _ C) as (r & A & B & D). econstructor; eassumption. Qed.
Lemma cmp_chain : forall p1 n1 q1, chain p1 n1 q1 -> forall p2 n2 q2, chain p2 n2 q2 ->
  forall b, compares h q1 q2 b -> compares h p1 p2 b.
Proof.
  induction 1; intros p2 n2 q2 C2 b K.
  - eapply cmp_chain_r; [exact C2 | econstructor; eassumption | exact K].
  - destruct (Z.eq_dec p p2) as [->|N].
    + assert (CP : chain p2 (S n) q) by (econstructor; eassumption).
      pose proof (chain_det _ _ _ CP _ _ C2) as ->.
      assert (b = true) by (eapply compares_det; [exact K | apply compares_same]). subst. apply compares_same.
    + destruct (IHchain _ _ _ C2 _ K) as [m M]. apply (compares_once (S m)). cbn [is_compatible].
      destruct (Z.eqb_spec p p2); [contradiction|]. unfold deref. rewrite H0. cbn [bind].
      destruct (Z.eqb_spec (origin r) 0); [contradiction|]. cbn [negb]. apply M. lia.
Qed.


(** What a descriptor without origin says about the type. *)
Definition shape (p : Z) (r : trec) (t : ctype) : Prop :=
  match t with
  | CVoid => p = ty_void /\ kind r = TY_VOID
  | CBool => p = ty_bool /\ kind r = TY_BOOL
  | CInt k u => kind r = ikind_of k /\ u = is_unsigned r
  | CFlo k => kind r = fkind_of k
  | CRec i => i = p /\ (kind r = TY_STRUCT \/ kind r = TY_UNION)
  | CEnum _ _ _ => False
  | CPtr q a => kind r = TY_PTR /\ repq (base r) q a
  | CArr n q a => kind r = TY_ARRAY /\ n = len_of (array_len r) /\ repq (base r) q a
  | CVla q a => kind r = TY_VLA /\ repq (base r) q a
  | CFun ret v l => kind r = TY_FUNC /\ v = is_variadic r /\ rep (return_ty r) ret /\ reps (params r) l
  end.
Lemma shape_of : forall p t r, rep p (erase1 t) -> h p = Some r -> origin r = 0 -> shape p r (erase1 t).
Proof.
  intros p t r R E O. destruct t; cbn [erase1] in *; inversion R; subst; try congruence;
    repeat match goal with
    | A : h ?x = Some _, A2 : h ?x = Some _ |- _ => rewrite A in A2; injection A2 as A2; subst
    end; cbn [shape]; auto.
Qed.
Lemma base_shape : forall p t, rep p t -> exists n q r,
  chain p n q /\ rep q (erase1 t) /\ h q = Some r /\ origin r = 0 /\ shape q r (erase1 t).
Proof.
  intros p t R. destruct (to_base _ _ R) as (n & q & C & B).
  destruct (chain_end _ _ _ C) as (r & N & E & O).
  exists n, q, r. split; [exact C|]. split; [exact B|]. split; [exact E|]. split; [exact O|].
  apply shape_of; assumption.
Qed.
Lemma repq_inv : forall p q t, repq p q t -> exists r, h p = Some r /\ q = quals_of r /\ rep p t.
Proof. intros p q t R. inversion R; subst. eauto. Qed.

Ltac kinds :=
  repeat match goal with
  | A : _ /\ _ |- _ => destruct A
  | A : False |- _ => destruct A
  | A : kind _ = ikind_of ?k |- _ => destruct k; cbn [ikind_of] in A
  | A : kind _ = fkind_of ?k |- _ => destruct k; cbn [fkind_of] in A
  | A : _ \/ _ |- _ => destruct A
  end; try congruence.

(** A descriptor stands for one type only, as far as comparison goes. *)
Lemma rep_unique : forall t p, rep p t -> forall t', rep p t' -> ceq t t' = true.
Proof.
  induction t using ctype_ind'; intros p R t' R';
    destruct (base_shape _ _ R) as (n0 & q0 & r0 & C & N0 & HR & OR & B);
    destruct (base_shape _ _ R') as (n0' & q0' & r0' & C' & N0' & HR' & OR' & B');
    rewrite <- ceq_erase; pose proof (chain_det _ _ _ C _ _ C') as EQ; subst q0'; clear R R' C' N0' OR';
    rewrite HR in HR'; injection HR' as <-;
    destruct t'; cbn [erase1 shape] in *; kinds; subst; cbn [ceq ikind_eqb fkind_eqb andb];
    rewrite ?eqb_reflx, ?Z.eqb_refl; try reflexivity;
    repeat match goal with A : CompatRep.repq _ _ _ _ _ _ |- _ =>
      apply repq_inv in A; let r := fresh "s" in destruct A as (r & ? & ? & ?) end;
    repeat match goal with
    | A : h ?x = Some _, A2 : h ?x = Some _ |- _ => rewrite A in A2; injection A2 as A2; subst
    end; rewrite ?same_quals_refl; cbn [andb]; eauto.
  - erewrite IHt by eassumption. destruct (len_of _); cbn [len_eqb andb]; [apply Z.eqb_refl | reflexivity].
  - fold ceqs. erewrite IHt by eassumption. cbn [andb].
    match goal with A : reps _ l, A2 : reps _ params |- _ => revert A A2 end.
    clear - H. generalize (CompatModel.params r0). intros ps A. revert H params.
    induction A as [|p q t ps l Q A IH]; intros F m A2; inversion A2; subst; [reflexivity|].
    pose proof (Forall_inv F) as HX. pose proof (Forall_inv_tail F) as HF.
    apply repq_inv in Q. destruct Q as (s1 & S1 & _ & S2).
    match goal with K : repq p _ _ |- _ => apply repq_inv in K; destruct K as (s2 & _ & _ & K) end.
    cbn [ceqs snd] in *. erewrite HX by eassumption. cbn [andb]. auto.
Qed.

Lemma c2 : forall p1 q1 t1 p2 q2 t2 b, repq p1 q1 t1 -> repq p2 q2 t2 ->
  (rep p1 t1 -> rep p2 t2 -> compares h p1 p2 b) ->
  exists n, forall f, (n <= f)%nat -> is_compatible2 h (is_compatible f h) p1 p2 = Ok (same_quals q1 q2 && b).
Proof.
  intros p1 q1 t1 p2 q2 t2 b R1 R2 K. apply repq_inv in R1, R2.
  destruct R1 as (r1 & E1 & -> & R1), R2 as (r2 & E2 & -> & R2). destruct (K R1 R2) as [n N].
  exists n. intros f L. unfold is_compatible2, deref. rewrite E1, E2. cbn [bind].
  destruct (same_quals _ _); cbn [andb]; [apply N, L | reflexivity].
Qed.

Ltac fin IH STEP r1 r2 :=
  let n := fresh "n" in let N := fresh "N" in
  match goal with A : CompatRep.repq _ _ _ (base r1) _ _, A2 : CompatRep.repq _ _ _ (base r2) _ _ |- _ =>
    destruct (c2 _ _ _ _ _ _ _ A A2 (fun X Y => IH _ X _ _ Y)) as [n N] end;
  apply (STEP _ n); unfold is_compatible_base;
  repeat match goal with A : kind _ = _ |- _ => rewrite A; clear A end;
  cbn [kind_eqb kind_dec is_array andb orb negb]; rewrite N by lia; cbn [bind ceq]; try reflexivity.
(** The comparison of two types. *)
Lemma compares_ceq : forall t1 p1, rep p1 t1 -> forall t2 p2, rep p2 t2 -> compares h p1 p2 (ceq t1 t2).
Proof.
  induction t1 using ctype_ind'; intros p1 R1 t2 p2 R2;
    destruct (base_shape _ _ R1) as (n1 & q1 & r1 & C1 & N1 & E1 & O1 & B1);
    destruct (base_shape _ _ R2) as (n2 & q2 & r2 & C2 & N2 & E2 & O2 & B2);
    apply (cmp_chain _ _ _ C1 _ _ _ C2); rewrite <- ceq_erase;
    (destruct (Z.eq_dec q1 q2) as [EQ|NE];
     [ subst q2; rewrite (rep_unique _ _ N1 _ N2); apply compares_same |]); clear C1 C2 R1 R2 N1 N2.
  all: set (v2 := erase1 t2) in *.
  all: assert (STEP : forall b f, is_compatible_base h (is_compatible f h) r1 r2 = Ok b -> compares h q1 q2 b) by
    (intros b f E; apply (compares_once (S f)); cbn [is_compatible]; unfold deref;
     destruct (Z.eqb_spec q1 q2); [contradiction|]; rewrite E1, E2; cbn [bind]; rewrite O1, O2;
     cbn [Z.eqb negb bind]; exact E).
  all: clearbody v2; destruct v2; cbn [erase1 shape] in *; kinds; subst; try (exfalso; congruence);
    try (apply (STEP _ 0%nat); unfold is_compatible_base;
         repeat match goal with A : kind _ = _ |- _ => rewrite A; clear A end; reflexivity).
  1-4: cbn [ceq]; destruct (Z.eqb_spec q1 q2); [contradiction|]; apply (STEP _ 0%nat);
    unfold is_compatible_base; rewrite H2, H0; reflexivity.
  - fin IHt1 STEP r1 r2.
  - fin IHt1 STEP r1 r2. destruct (same_quals q q0 && ceq t1 v2); [|reflexivity]. cbn [andb negb]. unfold len_of, len_eqb.
    destruct (array_len r1 <? 0), (array_len r2 <? 0); reflexivity.
  - fin IHt1 STEP r1 r2.
  - fin IHt1 STEP r1 r2.
  - fin IHt1 STEP r1 r2.
  - rewrite ceq_fun.
    match goal with A : rep (return_ty r1) t1, B : rep (return_ty r2) v2 |- _ => destruct (IHt1 _ A _ _ B) as [n N] end.
    assert (PS : exists n, forall f, (n <= f)%nat ->
      cmp_params (is_compatible f h) (CompatModel.params r1) (CompatModel.params r2) = Ok (ceqs l params)).
    { match goal with A : reps _ l, A2 : reps _ params |- _ => revert A A2 end. clear - H.
      generalize (CompatModel.params r1), (CompatModel.params r2). intros ps1 ps2 A. revert ps2 params H.
      induction A as [|p q t ps l Q A IH]; intros ps2 m F A2; inversion A2; subst;
        try (exists 0%nat; intros f _; reflexivity).
      pose proof (Forall_inv F) as HX. pose proof (Forall_inv_tail F) as HF. cbn [snd] in HX.
      apply repq_inv in Q. destruct Q as (s1 & S1 & _ & S2).
      match goal with K : repq p0 _ _ |- _ => apply repq_inv in K; destruct K as (s2 & _ & _ & K);
        destruct (HX _ S2 _ _ K) as [n N] end.
      match goal with K : reps _ _ |- _ => destruct (IH _ _ HF K) as [n' N'] end.
      exists (n + n')%nat. intros f L. cbn [cmp_params ceqs]. rewrite N by lia. cbn [bind].
      destruct (ceq t t0); [apply N'; lia | reflexivity]. }
    destruct PS as [n' N']. apply (STEP _ (n + n')%nat). unfold is_compatible_base.
    repeat match goal with A : kind _ = _ |- _ => rewrite A; clear A end.
    cbn [kind_eqb kind_dec is_array andb orb negb]. rewrite N by lia. cbn [bind].
    destruct (ceq t1 v2); [|reflexivity]. cbn [negb andb].
    destruct (Bool.eqb _ _); [|reflexivity]. cbn [negb andb]. apply N'. lia.
Qed.

Lemma compares_quals : forall p1 q1 t1 p2 q2 t2, repq p1 q1 t1 -> repq p2 q2 t2 ->
  exists n, forall f, (n <= f)%nat ->
    is_compatible2 h (is_compatible f h) p1 p2 = Ok (same_quals q1 q2 && ceq t1 t2).
Proof.
  intros p1 q1 t1 p2 q2 t2 R1 R2. apply (c2 _ _ _ _ _ _ _ R1 R2). intros A B. apply compares_ceq; assumption.
Qed.
End Rep.

(** What is decided is the relation of the standard. *)
Lemma plain_fun : forall r v l, plain (CFun r v l) <->
  plain r /\ Forall (fun x => q_atomic (fst x) = false /\ plain (snd x)) l.
Proof.
  intros r v l. cbn [plain]. apply and_iff_compat_l.
  induction l as [|[q a] l IH]; [split; auto|]. rewrite IH. split.
  - intros (A & B & C). constructor; auto.
  - intro F. inversion F; subst. cbn [fst snd] in *. tauto.
Qed.

Scheme compat_mind := Minimality for compat Sort Prop
  with compats_mind := Minimality for compat_params Sort Prop.

Lemma compat_ceq : forall a b, compat a b -> ceq a b = true.
Proof.
  apply (compat_mind (fun a b => ceq a b = true) (fun l m => ceqs l m = true)); intros; try apply ceq_refl;
    cbn [ceq]; rewrite ?ikind_eqb_refl, ?eqb_reflx, ?same_quals_refl; cbn [andb]; auto.
  - rewrite H1. unfold len_agree in H. destruct m, n; cbn [len_eqb andb]; auto. subst. apply Z.eqb_refl.
  - fold ceqs. rewrite H0, H2. reflexivity.
  - cbn [ceqs]. rewrite H1, H3. reflexivity.
Qed.

Lemma ceq_compat : forall a b, plain a -> plain b -> ceq a b = true -> compat a b.
Proof.
  induction a using ctype_ind'; intros b PA PB E; destruct b; cbn [ceq] in E; try discriminate;
    try (exfalso; exact PA); try (exfalso; exact PB);
    repeat match goal with A : _ && _ = true |- _ => apply andb_prop in A; destruct A end;
    repeat match goal with
    | A : ikind_eqb _ _ = true |- _ => apply ikind_eqb_eq in A
    | A : fkind_eqb _ _ = true |- _ => apply fkind_eqb_eq in A
    | A : Bool.eqb _ _ = true |- _ => apply eqb_prop in A
    | A : same_quals _ _ = true |- _ => apply same_quals_eq in A
    | A : (_ =? _) = true |- _ => apply Z.eqb_eq in A
    end; subst; try (constructor; auto).
  - unfold len_agree. destruct n, len; auto. apply Z.eqb_eq. assumption.
  - apply IHa; [apply plain_fun in PA; tauto | apply plain_fun in PB; tauto | assumption].
  - apply plain_fun in PA, PB. destruct PA as [_ PA], PB as [_ PB]. fold ceqs in H1. clear - H PA PB H1.
    revert params PB H1. induction H as [|[q x] l HX HF IH]; intros [|[q' y] m] PB E; cbn [ceqs] in E; try discriminate;
      [constructor|]. inversion PA; subst. inversion PB; subst. cbn [fst snd] in *.
    apply andb_prop in E. destruct E as [E1 E2]. constructor; [| |apply IH; assumption].
    + destruct H1, H3. congruence.
    + apply HX; tauto.
Qed.

(** Building types keeps the meaning of the descriptors there were. *)

Section Ext.
Variables ty_void ty_bool : Z.
Scheme rep_mind := Minimality for rep Sort Prop
  with repq_mind := Minimality for repq Sort Prop
  with reps_mind := Minimality for reps Sort Prop.
Lemma rep_ext : forall h h', extends h h' -> forall p t, rep ty_void ty_bool h p t -> rep ty_void ty_bool h' p t.
Proof.
  intros h h' X.
  apply (rep_mind ty_void ty_bool h (rep ty_void ty_bool h') (repq ty_void ty_bool h') (reps ty_void ty_bool h'));
    intros; try (econstructor; eauto; fail).
Qed.
Lemma repq_ext : forall h h' p q t, extends h h' -> repq ty_void ty_bool h p q t -> repq ty_void ty_bool h' p q t.
Proof. intros h h' p q t X R. inversion R; subst. constructor; [apply X; assumption | eapply rep_ext; eassumption]. Qed.
Lemma reps_ext : forall h h', extends h h' -> forall l m, reps ty_void ty_bool h l m -> reps ty_void ty_bool h' l m.
Proof. intros h h' X l m R. induction R; constructor; [eapply repq_ext; eassumption | assumption]. Qed.

Lemma alloc_ext : forall h p r, h p = None -> extends h (alloc h p r).
Proof. intros h p r N x s E. unfold alloc. destruct (Z.eqb_spec x p); [congruence | exact E]. Qed.
Lemma alloc_at : forall h p r, alloc h p r p = Some r.
Proof. intros. unfold alloc. rewrite Z.eqb_refl. reflexivity. Qed.

Lemma rep_some : forall h p t, rep ty_void ty_bool h p t -> p <> 0 /\ exists r, h p = Some r.
Proof. induction 1; eauto. Qed.
Lemma rep_origin : forall h p t r, rep ty_void ty_bool h p t -> h p = Some r -> origin r <> 0 ->
  rep ty_void ty_bool h (origin r) t.
Proof.
  induction 1; intros E N; try congruence.
  apply rp_enum. auto.
Qed.

Lemma qualified_rep : forall h p t new q h', rep ty_void ty_bool h p t -> h new = None -> new <> 0 ->
  new_qualified_type h p new q = Ok h' -> extends h h' /\ repq ty_void ty_bool h' new q t.
Proof.
  unfold new_qualified_type, deref. intros h p t new q h' R N NZ E.
  destruct (h p) as [r0|] eqn:E0; cbn [bind] in E; [|discriminate].
  set (o := if negb (origin r0 =? 0) then origin r0 else p) in *.
  assert (RO : rep ty_void ty_bool h o t).
  { unfold o. destruct (Z.eqb_spec (origin r0) 0); cbn [negb]; [exact R|]. eapply rep_origin; eassumption. }
  destruct (h o) as [r|] eqn:E1; cbn [bind] in E; [|discriminate]. injection E as <-.
  destruct (rep_some _ _ _ RO) as [OZ _].
  split; [apply alloc_ext, N|]. set (r' := Trec _ _ _ _ _ _ _ _ _). change q with (quals_of r').
  constructor; [apply alloc_at|]. eapply rp_origin; [exact NZ | apply alloc_at | exact OZ |].
  eapply rep_ext; [apply alloc_ext, N | exact RO].
Qed.
Lemma qualified_ok : forall h p t new q, rep ty_void ty_bool h p t -> exists h', new_qualified_type h p new q = Ok h'.
Proof.
  unfold new_qualified_type, deref. intros h p t new q R. destruct (rep_some _ _ _ R) as (_ & r0 & E0).
  rewrite E0. cbn [bind].
  assert (RO : rep ty_void ty_bool h (if negb (origin r0 =? 0) then origin r0 else p) t).
  { destruct (Z.eqb_spec (origin r0) 0); cbn [negb]; [exact R|]. eapply rep_origin; eassumption. }
  destruct (rep_some _ _ _ RO) as (_ & r & ->). cbn [bind]. eauto.
Qed.

Lemma pointer_rep : forall h b q t new, repq ty_void ty_bool h b q t -> h new = None -> new <> 0 ->
  extends h (pointer_to h b new) /\ repq ty_void ty_bool (pointer_to h b new) new noq (CPtr q t).
Proof.
  intros h b q t new R N NZ. unfold pointer_to. split; [apply alloc_ext, N|].
  set (r := Trec _ _ _ _ _ _ _ _ _). change noq with (quals_of r).
  constructor; [apply alloc_at|]. eapply rp_ptr; [exact NZ | apply alloc_at | reflexivity | reflexivity |].
  eapply repq_ext; [apply alloc_ext, N | exact R].
Qed.
Lemma array_rep : forall h b q t len new, repq ty_void ty_bool h b q t -> h new = None -> new <> 0 ->
  extends h (array_of h b len new) /\ repq ty_void ty_bool (array_of h b len new) new noq (CArr (len_of len) q t).
Proof.
  intros h b q t len new R N NZ. unfold array_of. split; [apply alloc_ext, N|].
  set (r := Trec _ _ _ _ _ _ _ _ _). change noq with (quals_of r).
  constructor; [apply alloc_at|]. change (len_of len) with (len_of (array_len r)).
  eapply rp_arr; [exact NZ | apply alloc_at | reflexivity | reflexivity |].
  eapply repq_ext; [apply alloc_ext, N | exact R].
Qed.
Lemma vla_rep : forall h b q t new, repq ty_void ty_bool h b q t -> h new = None -> new <> 0 ->
  extends h (vla_of h b new) /\ repq ty_void ty_bool (vla_of h b new) new noq (CVla q t).
Proof.
  intros h b q t new R N NZ. unfold vla_of. split; [apply alloc_ext, N|].
  set (r := Trec _ _ _ _ _ _ _ _ _). change noq with (quals_of r).
  constructor; [apply alloc_at|]. eapply rp_vla; [exact NZ | apply alloc_at | reflexivity | reflexivity |].
  eapply repq_ext; [apply alloc_ext, N | exact R].
Qed.

Lemma any_quals : forall q, q_atomic q || q_const q || q_volatile q || q_restrict q = false -> q = noq.
Proof. intros [[] [] [] []]; cbn; intro E; try discriminate. reflexivity. Qed.

Lemma unqual_rep : forall h p t new, clean h -> rep ty_void ty_bool h p t -> h new = None -> new <> 0 ->
  exists h' p', unqual h p new = Ok (h', p') /\ extends h h' /\ repq ty_void ty_bool h' p' noq t /\
    (forall x, x <> new -> h' x = h x).
Proof.
  intros h p t new CL R N NZ. unfold unqual, deref. destruct (rep_some _ _ _ R) as (_ & r0 & E0).
  rewrite E0. cbn [bind].
  set (o := if negb (origin r0 =? 0) then origin r0 else p).
  assert (RO : rep ty_void ty_bool h o t).
  { unfold o. destruct (Z.eqb_spec (origin r0) 0); cbn [negb]; [exact R|]. eapply rep_origin; eassumption. }
  clearbody o. destruct (rep_some _ _ _ RO) as (OZ & r & E1). rewrite E1. cbn [bind].
  destruct (_ || _) eqn:Q.
  - eexists. eexists. split; [reflexivity|]. split; [apply alloc_ext, N|].
    split; [|intros x NX; unfold alloc; destruct (Z.eqb_spec x new); [contradiction | reflexivity]].
    set (r' := Trec _ _ _ _ _ _ _ _ _). change noq with (quals_of r').
    pose proof (alloc_ext h new r' N) as X. pose proof (alloc_at h new r') as AT.
    constructor; [exact AT|].
    assert (FR : forall t, rep ty_void ty_bool h o t -> rep ty_void ty_bool (alloc h new r') new t).
    { clear RO t R. intros t RO. induction RO.
      - rewrite E1 in H0. injection H0 as <-. eapply rp_origin; [exact NZ | exact AT | exact H1 |].
        eapply rep_ext; [exact X | exact RO].
      - apply rp_enum. auto.
      - exfalso. rewrite E1 in H0. injection H0 as <-. rewrite (CL _ _ E1) in Q; auto. discriminate.
      - exfalso. rewrite E1 in H0. injection H0 as <-. rewrite (CL _ _ E1) in Q; auto. discriminate.
      - rewrite E1 in H0. injection H0 as <-. change (is_unsigned r) with (is_unsigned r'). eapply rp_int; eauto.
      - rewrite E1 in H0. injection H0 as <-. eapply rp_flo; eauto.
      - exfalso. rewrite E1 in H0. injection H0 as <-. rewrite (CL _ _ E1) in Q; [discriminate | auto | tauto].
      - rewrite E1 in H0. injection H0 as <-. eapply rp_ptr; eauto. eapply repq_ext; eassumption.
      - rewrite E1 in H0. injection H0 as <-. change (array_len r) with (array_len r'). eapply rp_arr; eauto.
        eapply repq_ext; eassumption.
      - rewrite E1 in H0. injection H0 as <-. eapply rp_vla; eauto. eapply repq_ext; eassumption.
      - rewrite E1 in H0. injection H0 as <-. change (is_variadic r) with (is_variadic r'). eapply rp_fun; eauto.
        + eapply rep_ext; eassumption.
        + eapply reps_ext; eassumption. }
    apply FR, RO.
  - exists h, o. split; [reflexivity|]. split; [intros x s E; exact E|]. split; [|reflexivity].
    rewrite <- (any_quals _ Q). constructor; assumption.
Qed.

Lemma func_rep : forall h ret t new1 new ps l v r, clean h ->
  rep ty_void ty_bool h ret t -> reps ty_void ty_bool h ps l ->
  h ret = Some r -> base r = 0 \/ kind r = TY_PTR ->
  h new = None -> new <> 0 -> h new1 = None -> new1 <> 0 -> new <> new1 ->
  exists h', func_type h ret new1 new ps v = Ok h' /\ extends h h' /\
    repq ty_void ty_bool h' new noq (CFun t v l).
Proof.
  intros h ret t new1 new ps l v r CL R RP ER K N NZ N1 NZ1 NE. unfold func_type, deref. rewrite ER. cbn [bind].
  assert (G : negb (base r =? 0) && negb (kind_eqb (kind r) TY_PTR) = false).
  { destruct K as [->| ->]; [reflexivity | apply andb_false_r]. }
  rewrite G. destruct (unqual_rep h ret t new1 CL R N1 NZ1) as (h1 & u & E & X & RU & OTH).
  rewrite E. cbn [bind fst snd]. eexists. split; [reflexivity|].
  set (r' := Trec _ _ _ _ _ _ _ _ _).
  assert (X2 : extends h1 (alloc h1 new r')) by (apply alloc_ext; rewrite OTH; assumption).
  split; [intros x s EX; apply X2, X, EX|].
  change noq with (quals_of r'). constructor; [apply alloc_at|]. change v with (is_variadic r').
  eapply rp_fun; [exact NZ | apply alloc_at | reflexivity | reflexivity | |].
  - apply repq_inv in RU. destruct RU as (s & _ & _ & RU). eapply rep_ext; eassumption.
  - eapply reps_ext; [|exact RP]. intros x s EX. apply X2, X, EX.
Qed.
End Ext.

Lemma compatible2_ok : forall vd bl h p1 q1 t1 p2 q2 t2,
  repq vd bl h p1 q1 t1 -> repq vd bl h p2 q2 t2 -> plain t1 -> plain t2 ->
  exists b, (exists n, forall f, (n <= f)%nat -> is_compatible2 h (is_compatible f h) p1 p2 = Ok b) /\
    (b = true <-> q1 = q2 /\ compat t1 t2).
Proof.
  intros vd bl h p1 q1 t1 p2 q2 t2 R1 R2 P1 P2. eexists. split; [eapply compares_quals; eassumption|].
  rewrite andb_true_iff, same_quals_eq. split; intros [A B]; split; auto.
  - apply ceq_compat; assumption.
  - apply compat_ceq; assumption.
Qed.
Lemma symmetric_ok : forall vd bl h p1 t1 p2 t2,
  rep vd bl h p1 t1 -> rep vd bl h p2 t2 ->
  exists b, compares h p1 p2 b /\ compares h p2 p1 b.
Proof.
  intros vd bl h p1 t1 p2 t2 R1 R2. exists (ceq t1 t2). split.
  - eapply compares_ceq; eassumption.
  - rewrite ceq_sym. eapply compares_ceq; eassumption.
Qed.
Lemma reflexive_ok : forall vd bl h p1 p2 t,
  rep vd bl h p1 t -> rep vd bl h p2 t -> compares h p1 p2 true.
Proof. intros vd bl h p1 p2 t R1 R2. rewrite <- (ceq_refl t). eapply compares_ceq; eassumption. Qed.
Lemma qualified_cmp : forall vd bl h p t new q,
  rep vd bl h p t -> h new = None -> new <> 0 ->
  exists h', new_qualified_type h p new q = Ok h' /\ extends h h' /\ repq vd bl h' new q t /\
    compares h' p new true /\
    forall p2 t2, rep vd bl h' p2 t2 -> exists b, compares h' p p2 b /\ compares h' new p2 b.
Proof.
  intros vd bl h p t new q R N NZ. destruct (qualified_ok vd bl h p t new q R) as [h' E].
  destruct (qualified_rep vd bl h p t new q h' R N NZ E) as [X RQ].
  exists h'. split; [exact E|]. split; [exact X|]. split; [exact RQ|].
  apply repq_inv in RQ. destruct RQ as (r & _ & _ & RN). pose proof (rep_ext _ _ _ _ X _ _ R) as RP.
  split; [eapply reflexive_ok; eassumption|].
  intros p2 t2 R2. exists (ceq t t2). split; eapply compares_ceq; eassumption.
Qed.
Lemma unqual_ok : forall vd bl h p t new,
  clean h -> rep vd bl h p t -> h new = None -> new <> 0 ->
  exists h' p', unqual h p new = Ok (h', p') /\ extends h h' /\ repq vd bl h' p' noq t.
Proof.
  intros vd bl h p t new CL R N NZ. destruct (unqual_rep vd bl h p t new CL R N NZ) as (h' & p' & A & B & C & _).
  eauto.
Qed.
Lemma fixed_enum_loops : exists h h' p q,
  rep 1 2 h p (CInt KLong false) /\ rep 1 2 h q (CInt KInt false) /\
  update_enum_ty h p p = Ok h' /\ forall fuel, is_compatible fuel h' p q = Abort.
Proof.
  exists (fun p => match p with 3 => Some (new_type TY_INT) | 4 => Some (new_type TY_LONG) | _ => None end).
  eexists. exists 4, 3. split; [|split; [|split; [reflexivity|]]].
  - apply (rp_int 1 2 _ 4 (new_type TY_LONG) KLong ltac:(discriminate) eq_refl eq_refl eq_refl).
  - apply (rp_int 1 2 _ 3 (new_type TY_INT) KInt ltac:(discriminate) eq_refl eq_refl eq_refl).
  - induction fuel as [|f IH]; [reflexivity|]. exact IH.
Qed.
