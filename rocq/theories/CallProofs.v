From Coq Require Import ZArith List Bool Lia.
From Verif Require Import Base BitLemmas X86 Sse MemSpec MemModel MemProofs FrameModel CallSpec CallModel.
Import ListNotations.
Local Open Scope Z_scope.

(** Induction over argument types. *)
Section Ind.
Variable P : aty -> Prop.
Hypothesis HGp : forall u n, P (AGp u n).
Hypothesis HF : P AFloat. Hypothesis HD : P ADouble. Hypothesis HL : P ALdouble.
Hypothesis HP : forall n, P (APad n).
Hypothesis HRec : forall n a ms, Forall (fun p => P (snd p)) ms -> P (ARec n a ms).
Hypothesis HArr : forall n b, P b -> P (AArr n b).
Fixpoint aty_ind' (t : aty) : P t :=
  match t with
  | AGp u n => HGp u n | AFloat => HF | ADouble => HD | ALdouble => HL | APad n => HP n
  | ARec n a ms => HRec n a ms
      ((fix go (l : list (Z * aty)) : Forall (fun p => P (snd p)) l :=
          match l with [] => Forall_nil _ | p :: r => Forall_cons p (aty_ind' (snd p)) (go r) end) ms)
  | AArr n b => HArr n b (aty_ind' b)
  end.
End Ind.

Definition mem_ok (n a : Z) (p : Z * aty) : Prop :=
  0 <= fst p /\ fst p + asize (snd p) <= n /\ fst p mod aalign (snd p) = 0 /\ a mod aalign (snd p) = 0 /\ natural (snd p).
Lemma natural_rec : forall n a ms, natural (ARec n a ms) <->
  pow2 a /\ 0 <= n <= 2147483647 /\ n mod a = 0 /\ ForallOrdPairs member_order ms /\ Forall (mem_ok n a) ms.
Proof.
  intros n a ms. cbn [natural].
  assert (E : forall l, ((fix all (l : list (Z * aty)) : Prop :=
         match l with
         | [] => True
         | (o, m) :: r =>
             (0 <= o /\ o + asize m <= n /\ o mod aalign m = 0 /\ a mod aalign m = 0 /\ natural m) /\ all r
         end) l) <-> Forall (mem_ok n a) l).
  { induction l as [|[o m] r IH]; split; intros H; auto.
    - destruct H as [H1 H2]. constructor; [exact H1|]. apply IH. exact H2.
    - inversion H; subst. split; [assumption|]. apply IH. assumption. }
  rewrite E. tauto.
Qed.
Lemma natural_arr : forall n b, natural (AArr n b) <-> 0 <= n <= 2147483647 /\ natural b.
Proof. intros. reflexivity. Qed.
Local Opaque natural.
Lemma nat_gp : forall u n, natural (AGp u n) -> n = 1 \/ n = 2 \/ n = 4 \/ n = 8.
Proof. intros u n H. exact H. Qed.

Lemma pow2_pos : forall a, pow2 a -> 1 <= a.
Proof. intros a (k & Hk & ->). pose proof (Z.pow_pos_nonneg 2 k ltac:(lia) ltac:(lia)). lia. Qed.
Lemma align_pow2 : forall t, natural t -> pow2 (aalign t).
Proof.
  induction t using aty_ind'; intros N; cbn [aalign].
  - apply nat_gp in N. destruct N as [->|[->|[->| ->]]]; [exists 0|exists 1|exists 2|exists 3]; lia.
  - exists 2; lia. - exists 3; lia. - exists 4; lia.
  - destruct N.
  - apply natural_rec in N. apply N.
  - apply natural_arr in N. apply IHt, N.
Qed.
Lemma size_nonneg : forall t, natural t -> 0 <= asize t.
Proof.
  induction t using aty_ind'; intros N; cbn [asize]; try lia.
  - apply nat_gp in N. lia.
  - destruct N.
  - apply natural_rec in N. lia.
  - apply natural_arr in N. destruct N as [N1 N2]. specialize (IHt N2). nia.
Qed.
Lemma size_align : forall t, natural t -> asize t mod aalign t = 0.
Proof.
  induction t using aty_ind'; intros N; cbn [asize aalign]; try reflexivity.
  - apply nat_gp in N. destruct N as [->|[->|[->| ->]]]; reflexivity.
  - destruct N.
  - apply natural_rec in N. apply N.
  - apply natural_arr in N. destruct N as [N1 N2]. specialize (IHt N2).
    pose proof (pow2_pos _ (align_pow2 _ N2)).
    rewrite Z.mul_mod, IHt, Z.mul_0_r by lia. apply Z.mod_0_l. lia.
Qed.

Lemma mod_add_mul : forall x s i a, 1 <= a -> x mod a = 0 -> s mod a = 0 -> (x + s * i) mod a = 0.
Proof.
  intros x s i a Ha Hx Hs. apply Z.mod_divide in Hx; [|lia]. apply Z.mod_divide in Hs; [|lia].
  apply Z.mod_divide; [lia|]. apply Z.divide_add_r; [exact Hx|]. apply Z.divide_mul_l. exact Hs.
Qed.
(** Fields of a type at offset [off]. *)
Definition lf (t : aty) (off : Z) (p : Z * aty) : Prop :=
  off <= fst p /\ fst p + asize (snd p) <= off + asize t /\ is_scalar (snd p) = true /\ natural (snd p) /\
  (off mod aalign t = 0 -> fst p mod aalign (snd p) = 0).
Lemma leaves_ok : forall t off, natural t -> Forall (lf t off) (leaves t off).
Proof.
  induction t using aty_ind'; intros off N; cbn [leaves].
  1-4: constructor; [|constructor]; unfold lf; cbn [fst snd is_scalar]; repeat split; try lia; try exact N; auto.
  - constructor.
  - apply natural_rec in N. destruct N as (Pa & Pn & Pm & Po & Pf).
    apply Forall_forall. intros p Ip. apply in_flat_map in Ip. destruct Ip as (q & Iq & Ip).
    rewrite Forall_forall in H, Pf. specialize (Pf q Iq). destruct Pf as (F1 & F2 & F3 & F4 & F5).
    specialize (H q Iq (off + fst q) F5). rewrite Forall_forall in H. specialize (H p Ip).
    destruct H as (L1 & L2 & L3 & L4 & L5).
    repeat split; try assumption; cbn [asize aalign]; try lia.
    intros A. apply L5.
    pose proof (pow2_pos _ (align_pow2 _ F5)).
    rewrite Z.add_mod, F3, Z.add_0_r by lia. rewrite Z.mod_mod by lia.
    apply Z.mod_divide in A; [|apply pow2_pos in Pa; lia]. apply Z.mod_divide in F4; [|lia].
    apply Z.mod_divide; [lia|]. etransitivity; eassumption.
  - apply natural_arr in N. destruct N as [N1 N2].
    apply Forall_forall. intros p Ip. apply in_flat_map in Ip. destruct Ip as (i & Ii & Ip).
    apply in_seq in Ii. specialize (IHt (off + asize t * Z.of_nat i) N2). rewrite Forall_forall in IHt.
    specialize (IHt p Ip). destruct IHt as (L1 & L2 & L3 & L4 & L5).
    pose proof (size_nonneg _ N2). pose proof (pow2_pos _ (align_pow2 _ N2)).
    repeat split; try assumption; cbn [asize aalign]; try nia.
    intros A. apply L5. apply mod_add_mul; [lia|exact A|apply size_align; assumption].
Qed.

Definition is_fp (t : aty) : bool := match t with AFloat | ADouble => true | _ => false end.
Definition only_fp (lo hi : Z) (l : list (Z * aty)) : bool :=
  forallb (fun p => negb (overlaps p lo hi) || is_fp (snd p)) l.
Lemma only_fp_app : forall lo hi a b, only_fp lo hi (a ++ b) = only_fp lo hi a && only_fp lo hi b.
Proof. intros. unfold only_fp. apply forallb_app. Qed.
(** No field in the range. *)
Lemma only_fp_out : forall lo hi l, Forall (fun p => fst p + asize (snd p) <= lo \/ hi <= fst p) l -> only_fp lo hi l = true.
Proof.
  intros lo hi l H. unfold only_fp. apply forallb_forall. intros p Ip. rewrite Forall_forall in H. specialize (H p Ip).
  unfold overlaps. destruct (Z.ltb_spec lo (fst p + asize (snd p))), (Z.ltb_spec (fst p) hi); try reflexivity. lia.
Qed.
Lemma fp_below : forall t off lo hi, natural t -> off + asize t <= lo -> only_fp lo hi (leaves t off) = true.
Proof.
  intros t off lo hi N H. apply only_fp_out. eapply Forall_impl; [|apply leaves_ok; exact N].
  intros p (L1 & L2 & _). cbv beta. lia.
Qed.
Lemma fp_above : forall t off lo hi, natural t -> hi <= off -> only_fp lo hi (leaves t off) = true.
Proof.
  intros t off lo hi N H. apply only_fp_out. eapply Forall_impl; [|apply leaves_ok; exact N].
  intros p (L1 & L2 & _). cbv beta. lia.
Qed.

Section Flonum.
Variable e : Z.
Hypothesis He : 0 <= e.
Let lo := 8 * e.
Let hi := 8 * e + 8.

Lemma unit_above : forall x y s, s = 1 \/ s = 2 \/ s = 4 \/ s = 8 -> y mod s = 0 -> hi <= x -> x < y + s -> hi <= y.
Proof.
  intros x y s Hs Hy H1 H2. unfold hi in *.
  pose proof (Z.div_mod y s ltac:(lia)) as D. rewrite Hy in D. set (q := y / s) in *. clearbody q. clear Hy.
  destruct Hs as [->|[->|[->| ->]]]; lia.
Qed.

Lemma hf_ok : forall t off, natural t -> 0 <= off -> off + asize t <= 2147483647 -> off mod aalign t = 0 ->
  (is_scalar t = true -> lo < off + asize t /\ off < hi) ->
  has_flonum lo hi t off = Ok (only_fp lo hi (leaves t off)).
Proof.
  induction t using aty_ind'; intros off N H0 Hm Ha Hs; cbn [has_flonum leaves].
  1-4: specialize (Hs eq_refl); cbn [only_fp forallb is_fp snd]; unfold overlaps; cbn [fst snd asize] in *;
       rewrite (proj2 (Z.ltb_lt _ _) (proj1 Hs)), (proj2 (Z.ltb_lt _ _) (proj2 Hs)); reflexivity.
  - destruct N.
  - apply natural_rec in N. destruct N as (Pa & Pn & Pm & Po & Pf). cbn [asize aalign] in *. clear Pm Hs.
    induction Po as [|q r Fo Po IH]; [reflexivity|].
    inversion H as [|? ? Hq Hr]; subst. inversion Pf as [|? ? Fq Fr]; subst.
    destruct Fq as (F1 & F2 & F3 & F4 & F5). specialize (IH Hr Fr).
    destruct q as [mo mt]. cbn [fst snd] in *. cbn [members_loop flat_map fst snd].
    pose proof (size_nonneg _ F5). pose proof (pow2_pos _ (align_pow2 _ F5)) as Pal.
    rewrite int_ok by (unfold INT_MIN, INT_MAX; lia). cbn [bind].
    rewrite only_fp_app.
    assert (A : (off + mo) mod aalign mt = 0).
    { rewrite Z.add_mod, F3, Z.add_0_r by lia. rewrite Z.mod_mod by lia.
      apply Z.mod_divide in Ha; [|apply pow2_pos in Pa; lia]. apply Z.mod_divide in F4; [|lia].
      apply Z.mod_divide; [lia|]. etransitivity; eassumption. }
    destruct (Z.leb_spec (off + mo + asize mt) lo).
    { rewrite fp_below by assumption. rewrite IH. reflexivity. }
    destruct (Z.leb_spec hi (off + mo)).
    { rewrite fp_above by assumption. cbn [andb]. f_equal. symmetry. apply only_fp_out.
      apply Forall_forall. intros p Ip. right. apply in_flat_map in Ip. destruct Ip as ((qo & qt) & Iq & Ip).
      rewrite Forall_forall in Fo, Fr. specialize (Fo _ Iq). specialize (Fr _ Iq). destruct Fr as (G1 & G2 & G3 & G4 & G5).
      cbn [fst snd] in *.
      pose proof (leaves_ok qt (off + qo) G5) as L. rewrite Forall_forall in L. specialize (L p Ip). destruct L as (L1 & _).
      destruct Fo as [Fo|[Fo1 Fo2]]; cbn [fst snd] in *; [lia|].
      destruct qt; try destruct Fo1. cbn [asize aalign] in *.
      enough (hi <= off + qo) by lia.
      eapply unit_above; [apply (nat_gp _ _ G5)| |eassumption|cbn [fst] in *; lia].
      pose proof (nat_gp _ _ G5).
      rewrite Z.add_mod, G3, Z.add_0_r by lia. rewrite Z.mod_mod by lia.
      apply Z.mod_divide in Ha; [|apply pow2_pos in Pa; lia]. apply Z.mod_divide in G4; [|lia].
      apply Z.mod_divide; [lia|]. etransitivity; eassumption. }
    rewrite Hq by (assumption || lia). cbn [bind].
    destruct (only_fp lo hi (leaves mt (off + mo))); [rewrite IH; reflexivity|reflexivity].
  - apply natural_arr in N. destruct N as [N1 N2]. cbn [asize aalign] in *.
    pose proof (size_nonneg _ N2) as Sn. pose proof (pow2_pos _ (align_pow2 _ N2)) as Pal.
    clear Hs.
    assert (G : forall k i, Z.of_nat i + Z.of_nat k <= n ->
      array_loop (has_flonum lo hi t) lo hi (asize t) off k (Z.of_nat i) =
      Ok (only_fp lo hi (flat_map (fun i => leaves t (off + asize t * Z.of_nat i)) (seq i k)))).
    { induction k as [|k IH]; intros i Hi; [reflexivity|].
      cbn [array_loop seq flat_map].
      assert (Ei : int_conv (off + asize t * Z.of_nat i) = off + asize t * Z.of_nat i).
      { unfold int_conv, sext. change (2 ^ (32 - 1)) with 2147483648. change (2 ^ 32) with 4294967296.
        rewrite Z.mod_small by nia. destruct (Z.ltb_spec (off + asize t * Z.of_nat i) 2147483648); [reflexivity|nia]. }
      rewrite Ei. rewrite int_ok by (unfold INT_MIN, INT_MAX; lia). cbn [bind].
      replace (Z.of_nat i + 1) with (Z.of_nat (S i)) by lia.
      rewrite only_fp_app.
      destruct (Z.leb_spec (off + asize t * Z.of_nat i + asize t) lo).
      { rewrite fp_below by assumption. rewrite IH by lia. reflexivity. }
      destruct (Z.leb_spec hi (off + asize t * Z.of_nat i)).
      { rewrite fp_above by assumption. cbn [andb]. f_equal. symmetry. apply only_fp_out.
        apply Forall_forall. intros p Ip. right. apply in_flat_map in Ip. destruct Ip as (j & Ij & Ip). apply in_seq in Ij.
        pose proof (leaves_ok t (off + asize t * Z.of_nat j) N2) as L. rewrite Forall_forall in L.
        specialize (L p Ip). destruct L as (L1 & _). nia. }
      rewrite IHt; [|assumption|nia|nia| |lia].
      2:{ apply mod_add_mul; [lia|exact Ha|apply size_align; assumption]. }
      cbn [bind]. destruct (only_fp lo hi (leaves t (off + asize t * Z.of_nat i))); [rewrite IH by lia; reflexivity|reflexivity]. }
    exact (G (Z.to_nat n) 0%nat ltac:(lia)).
Qed.
End Flonum.
