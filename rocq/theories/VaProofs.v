From Coq Require Import ZArith List Bool Lia.
From Verif Require Import Base BitLemmas X86 Sse MemSpec MemModel MemProofs CgLemmas FrameModel CallSpec CallModel CallProofs CallClass CallPlan CallRun CallEnd VaModel VaSpec.
Import ListNotations.
Local Open Scope Z_scope.
Local Opaque natural.

Lemma loadn_beq : forall k a f g, (forall x, a <= x < a + Z.of_nat k -> byte_eq (g x) (f x)) -> loadn k a g = loadn k a f.
Proof.
  induction k as [|k IH]; intros a f g H; cbn [loadn]; [reflexivity|].
  rewrite (IH (a + 1) f g) by (intros x Hx; apply H; lia).
  pose proof (H a ltac:(lia)) as E. unfold byte_eq in E. rewrite E. reflexivity.
Qed.

Lemma bump_ok : forall a f c, 0 <= c -> loadn 4 a f + c < 2 ^ 32 ->
  let g := storen 8 a (loadn 8 a f + c) f in
  loadn 4 a g = loadn 4 a f + c /\ (forall x, x < a \/ a + 4 <= x -> byte_eq (g x) (f x)) /\ (forall x, x < a \/ a + 8 <= x -> g x = f x).
Proof.
  intros a f c Hc HL g. pose proof (loadn_range 4 a f) as R4. pose proof (loadn_range 4 (a + 4) f) as R4'.
  change (8 * Z.of_nat 4) with 32 in *.
  assert (E8 : loadn 8 a f = loadn 4 a f + 2 ^ 32 * loadn 4 (a + 4) f).
  { pose proof (loadn_low 8 4 a f ltac:(lia)) as A. pose proof (loadn_high 8 4 a f ltac:(lia)) as B.
    change (8 - 4)%nat with 4%nat in B. change (Z.of_nat 4) with 4 in B. change (8 * Z.of_nat 4) with 32 in *. change (8 * 4) with 32 in B.
    rewrite A, B. pose proof (Z.div_mod (loadn 8 a f) (2 ^ 32) ltac:(lia)). lia. }
  set (L := loadn 4 a f) in *. set (H := loadn 4 (a + 4) f) in *.
  set (v := loadn 8 a f + c) in *.
  assert (V : v = (L + c) + H * 2 ^ 32) by (unfold v; lia).
  assert (LG : loadn 8 a g = v).
  { unfold g. rewrite loadn_storen. change (8 * Z.of_nat 8) with 64. apply Z.mod_small. change (2 ^ 64) with (2 ^ 32 * 2 ^ 32). nia. }
  assert (OUT : forall x, x < a \/ a + 8 <= x -> g x = f x).
  { intros x Hx. unfold g, storen. change (Z.of_nat 8) with 8.
    destruct (Z.leb_spec a x), (Z.ltb_spec x (a + 8)); cbn [andb]; try reflexivity; lia. }
  split; [|split; [|exact OUT]].
  - rewrite (loadn_low 8 4 a g) by lia. rewrite LG, V. change (8 * Z.of_nat 4) with 32. rewrite Z.mod_add by lia. apply Z.mod_small. lia.
  - intros x Hx. destruct (Z.lt_ge_cases x (a + 8)) as [Lx|Gx]; [|rewrite OUT by lia; reflexivity].
    destruct Hx as [Hx|Hx]; [rewrite OUT by lia; reflexivity|].
    assert (EX : exists k, 0 <= k < 4 /\ x = a + (4 + k)) by (exists (x - a - 4); lia). destruct EX as (k & Hk & ->).
    unfold byte_eq. rewrite <- (loadn_byte 8 a g (4 + k)) by lia. rewrite LG, V.
    replace (a + (4 + k)) with (a + 4 + k) by lia. rewrite <- (loadn_byte 4 (a + 4) f k) by lia. fold H.
    replace (8 * (4 + k)) with (32 + 8 * k) by lia. rewrite Z.pow_add_r by lia. rewrite <- Z.div_div by lia.
    rewrite Z.div_add by lia. rewrite (Z.div_small (L + c)) by lia. reflexivity.
Qed.

Definition nolab (c : list xinstr) : bool := forallb (fun i => match i with G (Lab _) => false | _ => true end) c.
Lemma nolab_app : forall a b, nolab (a ++ b) = nolab a && nolab b.
Proof. intros. apply forallb_app. Qed.
Lemma mem_copy_nolab : forall fuel sb sofs db dofs sz i c, mem_copy_loop fuel sb sofs db dofs sz i = Ok c -> nolab c = true.
Proof.
  induction fuel as [|f IH]; intros sb sofs db dofs sz i c H; cbn [mem_copy_loop] in H; [discriminate|].
  destruct (i <? sz); [|injection H as <-; reflexivity].
  destruct (int_of (sz - i)) as [rem| |]; cbn [bind] in H; try discriminate.
  destruct (16 <=? rem).
  - destruct (int_of (i + 16)) as [i'| |]; cbn [bind] in H; try discriminate.
    destruct (mem_copy_loop f sb sofs db dofs sz i') as [r| |] eqn:E; cbn [bind] in H; try discriminate.
    injection H as <-. cbn [nolab forallb andb]. apply (IH _ _ _ _ _ _ _ E).
  - destruct (int_of (i + p2_len (p2_of rem))) as [i'| |]; cbn [bind] in H; try discriminate.
    destruct (mem_copy_loop f sb sofs db dofs sz i') as [r| |] eqn:E; cbn [bind] in H; try discriminate.
    injection H as <-. cbn [nolab forallb andb]. apply (IH _ _ _ _ _ _ _ E).
Qed.

Section Run.
Variable sym : nat -> Z.
Notation xj := (xjrun sym).

Lemma xj_skip : forall c l k m, nolab c = true -> xj (c ++ k) (Some l) m = xj k (Some l) m.
Proof.
  induction c as [|i c IH]; intros l k m H; [reflexivity|]. cbn [nolab forallb] in H. apply andb_prop in H. destruct H as [H1 H2].
  cbn [app xjrun]. destruct i as [i| | | | | | | |]; try (apply IH; exact H2). destruct i; try discriminate H1; apply IH; exact H2.
Qed.
Lemma xj_of_x : forall c k m m', xrun sym c m = Some m' -> xj (c ++ k) None m = xj k None m'.
Proof.
  induction c as [|i c IH]; intros k m m' H; cbn [xrun] in H; [injection H as <-; reflexivity|].
  destruct (xexec sym i m) as [m1|] eqn:E; [|discriminate].
  cbn [app]. destruct i as [i| | | | | | | |]; try (cbn [xjrun]; rewrite E; apply IH; exact H).
  destruct i; try (cbn [xjrun]; rewrite E; apply IH; exact H); cbn [xexec exec1] in E; discriminate E.
Qed.

(** States that differ in flags only, or in one register only. *)
Definition same (m m' : xmach) : Prop := rg (im m') = rg (im m) /\ mm (im m') = mm (im m) /\ xr m' = xr m.
Definition sets (q : reg) (v : Z) (m m' : xmach) : Prop :=
  rg (im m') q = v /\ only_reg q (im m) (im m') /\ mm (im m') = mm (im m) /\ xr m' = xr m.

Lemma ea_ax : forall m o a, rg (im m) AX = a -> 0 <= a + o < 2 ^ 64 -> ea sym (BReg AX) o (im m) = a + o.
Proof. intros m o a H R. unfold ea. rewrite H. apply Z.mod_small. exact R. Qed.

Lemma cmp_ja : forall c o l m a v, rg (im m) AX = a -> 0 <= a + o < 2 ^ 64 -> loadn 4 (a + o) (mm (im m)) = v -> 0 <= c < 2 ^ 31 ->
  exists m', same m m' /\ forall k, xj (G (Alu ACmp (Some S4) (I c) (at_ax o)) :: G (Jcc CcA l) :: k) None m = xj k (if c <? v then Some l else None) m'.
Proof.
  intros c o l m a v HA HR HV HC.
  assert (IM : imm_ok S4 c = true). { unfold imm_ok. cbn [nbits]. change (2 ^ (32 - 1)) with (2 ^ 31). apply andb_true_intro. split; [apply Z.leb_le|apply Z.ltb_lt]; lia. }
  pose proof (loadn_range 4 (a + o) (mm (im m))) as RV. rewrite HV in RV. change (8 * Z.of_nat 4) with 32 in RV.
  exists (mkx (setf (im m) (Some (sub_flags 32 v c))) (xr m)). split; [repeat split; reflexivity|]. intros k.
  unfold at_ax. cbn [xjrun xexec exec1 is_mem andb]. unfold osize. cbn [osizes flat_map app forallb]. cbn [rd]. rewrite IM.
  rewrite (ea_ax m o a HA HR). cbn [nbytes]. rewrite HV. cbn [nbits]. rewrite (Z.mod_small c) by lia.
  cbn [im setf fl cond_holds sub_flags cf zf].
  replace (negb ((v <? c) || ((v - c) mod 2 ^ 32 =? 0))) with (c <? v); [reflexivity|].
  destruct (Z.ltb_spec c v), (Z.ltb_spec v c); try lia; cbn [orb negb].
  - rewrite Z.mod_small by lia. destruct (Z.eqb_spec (v - c) 0); [lia|reflexivity].
  - replace (v - c) with 0 by lia. reflexivity.
Qed.
Lemma ld4 : forall o q m a, rg (im m) AX = a -> 0 <= a + o < 2 ^ 64 ->
  exists m', sets q (loadn 4 (a + o) (mm (im m))) m m' /\ forall k, xj (G (Mov (Some S4) (at_ax o) (R S4 q)) :: k) None m = xj k None m'.
Proof.
  intros o q m a HA HR. exists (mkx (putr S4 q (loadn 4 (a + o) (mm (im m))) (im m)) (xr m)). split.
  - split; [|split; [apply putr_only|split; [apply putr_mem|reflexivity]]].
    cbn [im]. rewrite rg_put4. apply Z.mod_small. apply (loadn_range 4).
  - intros k. unfold at_ax. cbn [xjrun xexec exec1 is_mem andb]. unfold osize. cbn [osizes flat_map app forallb size_eqb andb].
    cbn [rd]. rewrite (ea_ax m o a HA HR). reflexivity.
Qed.
Lemma ld8 : forall o q m a, rg (im m) AX = a -> 0 <= a + o < 2 ^ 64 ->
  exists m', sets q (loadn 8 (a + o) (mm (im m))) m m' /\ forall k, xj (G (Mov (Some S8) (at_ax o) (R S8 q)) :: k) None m = xj k None m'.
Proof.
  intros o q m a HA HR. exists (mkx (putr S8 q (loadn 8 (a + o) (mm (im m))) (im m)) (xr m)). split.
  - split; [|split; [apply putr_only|split; [apply putr_mem|reflexivity]]].
    cbn [im]. rewrite rg_put8. apply Z.mod_small. apply (loadn_range 8).
  - intros k. unfold at_ax. cbn [xjrun xexec exec1 is_mem andb]. unfold osize. cbn [osizes flat_map app forallb size_eqb andb].
    cbn [rd]. rewrite (ea_ax m o a HA HR). reflexivity.
Qed.
Lemma add8 : forall o q m a v w, q <> AX -> rg (im m) AX = a -> 0 <= a + o < 2 ^ 64 -> rg (im m) q = v -> loadn 8 (a + o) (mm (im m)) = w ->
  0 <= v -> 0 <= w -> v + w < 2 ^ 64 ->
  exists m', sets q (v + w) m m' /\ forall k, xj (G (Alu AAdd (Some S8) (at_ax o) (R S8 q)) :: k) None m = xj k None m'.
Proof.
  intros o q m a v w HQ HA HR HV HW V0 W0 VW. exists (mkx (setf (putr S8 q (v + w) (im m)) None) (xr m)). split.
  - split; [|split; [apply putr_only|split; [apply putr_mem|reflexivity]]].
    cbn [im setf rg]. rewrite rg_put8. apply Z.mod_small. lia.
  - intros k. unfold at_ax. cbn [xjrun xexec exec1 is_mem andb]. unfold osize. cbn [osizes flat_map app forallb size_eqb andb].
    cbn [rd]. rewrite (ea_ax m o a HA HR). cbn [nbytes]. rewrite HW. unfold getr. rewrite HV. cbn [nbits].
    rewrite (Z.mod_small v) by lia. reflexivity.
Qed.
Lemma addi : forall c q m v, rg (im m) q = v -> 0 <= v -> 0 <= c < 2 ^ 31 -> v + c < 2 ^ 64 ->
  exists m', sets q (v + c) m m' /\ forall k, xj (G (Alu AAdd (Some S8) (I c) (R S8 q)) :: k) None m = xj k None m'.
Proof.
  intros c q m v HV V0 C0 VC.
  assert (IM : imm_ok S8 c = true). { unfold imm_ok. apply andb_true_intro. split; [apply Z.leb_le|apply Z.ltb_lt]; lia. }
  exists (mkx (setf (putr S8 q (v + c) (im m)) None) (xr m)). split.
  - split; [|split; [apply putr_only|split; [apply putr_mem|reflexivity]]].
    cbn [im setf rg]. rewrite rg_put8. apply Z.mod_small. lia.
  - intros k. cbn [xjrun xexec exec1 is_mem andb]. unfold osize. cbn [osizes flat_map app forallb size_eqb andb].
    cbn [rd]. rewrite IM. unfold getr. rewrite HV. cbn [nbits].
    rewrite (Z.mod_small v) by lia. rewrite (Z.mod_small c) by lia. reflexivity.
Qed.
(** Rounding down with and. *)
Lemma land_align : forall x j, 0 <= x < 2 ^ 64 -> 0 <= j < 64 -> Z.land x (2 ^ 64 - 2 ^ j) = x / 2 ^ j * 2 ^ j.
Proof.
  intros x j Hx Hj. apply Z.bits_inj'. intros n Hn. rewrite Z.land_spec.
  rewrite Z.mul_pow2_bits by lia.
  replace (2 ^ 64 - 2 ^ j) with (Z.shiftl (Z.ones (64 - j)) j).
  2:{ rewrite Z.shiftl_mul_pow2, Z.ones_equiv by lia. replace 64 with (64 - j + j) at 2 by lia. rewrite (Z.pow_add_r 2 (64 - j) j) by lia. lia. }
  rewrite Z.shiftl_spec by lia.
  destruct (Z.lt_ge_cases n j).
  - rewrite (Z.testbit_neg_r _ (n - j)) by lia. rewrite (Z.testbit_neg_r _ (n - j)) by lia. apply andb_false_r.
  - rewrite Z.div_pow2_bits by lia. replace (n - j + j) with n by lia.
    destruct (Z.lt_ge_cases n 64).
    + rewrite Z.ones_spec_low by lia. apply andb_true_r.
    + rewrite Z.ones_spec_high by lia. rewrite andb_false_r. symmetry.
      rewrite <- (Z.mod_small x (2 ^ 64)) by lia. apply Z.mod_pow2_bits_high. lia.
Qed.
Lemma andi : forall a q m v, rg (im m) q = v -> 0 <= v < 2 ^ 64 -> pow2 a ->
  exists m', sets q (v / a * a) m m' /\ forall k, xj (G (Alu AAnd (Some S8) (I (- a)) (R S8 q)) :: k) None m = xj k None m'.
Proof.
  intros a q m v HV V0 (j & Hj & ->).
  assert (P : 1 <= 2 ^ j <= 2 ^ 30). { split; [pose proof (Z.pow_pos_nonneg 2 j); lia|apply Z.pow_le_mono_r; lia]. }
  assert (IM : imm_ok S8 (- 2 ^ j) = true). { unfold imm_ok. apply andb_true_intro. split; [apply Z.leb_le|apply Z.ltb_lt]; lia. }
  exists (mkx (setf (putr S8 q (v / 2 ^ j * 2 ^ j) (im m)) None) (xr m)). split.
  - split; [|split; [apply putr_only|split; [apply putr_mem|reflexivity]]].
    cbn [im setf rg]. rewrite rg_put8. apply Z.mod_small.
    pose proof (Z.mul_div_le v (2 ^ j) ltac:(lia)). pose proof (Z.div_pos v (2 ^ j) ltac:(lia) ltac:(lia)). nia.
  - intros k. cbn [xjrun xexec exec1 is_mem andb]. unfold osize. cbn [osizes flat_map app forallb size_eqb andb].
    cbn [rd]. rewrite IM. unfold getr. rewrite HV. cbn [nbits]. rewrite (Z.mod_small v) by lia.
    replace (- 2 ^ j mod 2 ^ 64) with (2 ^ 64 - 2 ^ j).
    2:{ rewrite <- (Z.mod_small (2 ^ 64 - 2 ^ j) (2 ^ 64)) by lia. rewrite <- (Z.mod_add (- 2 ^ j) 1 (2 ^ 64)) by lia. f_equal. lia. }
    rewrite land_align by lia. reflexivity.
Qed.
Lemma lea_ok : forall b o q m v, addr_of sym (im m) b o v 0 -> v < 2 ^ 64 ->
  exists m', sets q v m m' /\ forall k, xj (G (Lea b o (R S8 q)) :: k) None m = xj k None m'.
Proof.
  intros b o q m v (A1 & A2 & A3) L. exists (mkx (putr S8 q v (im m)) (xr m)). split.
  - split; [|split; [apply putr_only|split; [apply putr_mem|reflexivity]]].
    cbn [im]. rewrite rg_put8. apply Z.mod_small. lia.
  - intros k. cbn [xjrun xexec exec1]. unfold ea. rewrite <- A1, Z.mod_small by lia. reflexivity.
Qed.
Lemma movr : forall q q' suf m v, suf = None \/ suf = Some S8 -> rg (im m) q = v -> 0 <= v < 2 ^ 64 ->
  exists m', sets q' v m m' /\ forall k, xj (G (Mov suf (R S8 q) (R S8 q')) :: k) None m = xj k None m'.
Proof.
  intros q q' suf m v HS HV V0. exists (mkx (putr S8 q' v (im m)) (xr m)). split.
  - split; [|split; [apply putr_only|split; [apply putr_mem|reflexivity]]].
    cbn [im]. rewrite rg_put8. apply Z.mod_small. lia.
  - intros k. destruct HS as [->| ->]; cbn [xjrun xexec exec1 is_mem andb]; unfold osize; cbn [osizes flat_map app forallb size_eqb andb rd];
      unfold getr; rewrite HV; cbn [nbits]; rewrite Z.mod_small by lia; reflexivity.
Qed.
(** Stores to the va_list. *)
Definition writes (f : Z -> Z) (m m' : xmach) : Prop := rg (im m') = rg (im m) /\ mm (im m') = f /\ xr m' = xr m.
Lemma bump : forall c o m a, rg (im m) AX = a -> 0 <= a + o < 2 ^ 64 -> 0 <= c < 2 ^ 31 ->
  exists m', writes (storen 8 (a + o) (loadn 8 (a + o) (mm (im m)) + c) (mm (im m))) m m' /\
    forall k, xj (G (Alu AAdd (Some S8) (I c) (at_ax o)) :: k) None m = xj k None m'.
Proof.
  intros c o m a HA HR HC.
  assert (IM : imm_ok S8 c = true). { unfold imm_ok. apply andb_true_intro. split; [apply Z.leb_le|apply Z.ltb_lt]; lia. }
  eexists. split; [|intros k; unfold at_ax; cbn [xjrun xexec exec1 is_mem andb]; unfold osize; cbn [osizes flat_map app forallb size_eqb andb];
    cbn [rd]; rewrite IM, (ea_ax m o a HA HR); cbn [nbytes wr noflags nbits]; rewrite (ea_ax m o a HA HR), (Z.mod_small c) by lia; reflexivity].
  repeat split; reflexivity.
Qed.
Lemma st8 : forall o q m a v, rg (im m) AX = a -> 0 <= a + o < 2 ^ 64 -> rg (im m) q = v -> 0 <= v < 2 ^ 64 ->
  exists m', writes (storen 8 (a + o) v (mm (im m))) m m' /\ forall k, xj (G (Mov (Some S8) (R S8 q) (at_ax o)) :: k) None m = xj k None m'.
Proof.
  intros o q m a v HA HR HV V0.
  eexists. split; [|intros k; unfold at_ax; cbn [xjrun xexec exec1 is_mem andb]; unfold osize; cbn [osizes flat_map app forallb size_eqb andb];
    cbn [rd wr]; rewrite (ea_ax m o a HA HR); unfold getr; rewrite HV; cbn [nbits]; rewrite (Z.mod_small v) by lia; reflexivity].
  repeat split; reflexivity.
Qed.
Lemma sti4 : forall o c m a, rg (im m) AX = a -> 0 <= a + o < 2 ^ 64 -> 0 <= c < 2 ^ 31 ->
  exists m', writes (storen 4 (a + o) c (mm (im m))) m m' /\ forall k, xj (G (Mov (Some S4) (I c) (at_ax o)) :: k) None m = xj k None m'.
Proof.
  intros o c m a HA HR HC.
  assert (IM : imm_ok S4 c = true). { unfold imm_ok. cbn [nbits]. change (2 ^ (32 - 1)) with (2 ^ 31). apply andb_true_intro. split; [apply Z.leb_le|apply Z.ltb_lt]; lia. }
  eexists. split; [|intros k; unfold at_ax; cbn [xjrun xexec exec1 is_mem andb]; unfold osize; cbn [osizes flat_map app forallb size_eqb andb];
    cbn [rd wr]; rewrite IM, (ea_ax m o a HA HR); cbn [nbits]; rewrite (Z.mod_small c) by lia; reflexivity].
  repeat split; reflexivity.
Qed.
End Run.
