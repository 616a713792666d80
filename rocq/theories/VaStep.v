From Coq Require Import ZArith List Bool Lia.
From Verif Require Import Base BitLemmas X86 Sse MemSpec MemModel MemProofs CgLemmas FrameModel CallSpec CallModel CallProofs CallClass CallPlan CallRun CallEnd VaModel VaSpec VaProofs.
Import ListNotations.
Local Open Scope Z_scope.
Local Opaque natural.

(** The va_list after so many registers and bytes of the stack. *)
Definition inv (e : venv) (gp fp : nat) (st : Z) (f : Z -> Z) : Prop :=
  loadn 4 (v_ap e) f = 8 * Z.of_nat gp /\ loadn 4 (v_ap e + 4) f = 48 + 16 * Z.of_nat fp /\
  loadn 8 (v_ap e + 8) f = v_stk e + st /\ loadn 8 (v_ap e + 16) f = v_area e.
Lemma inv_beq : forall e gp fp st f g, inv e gp fp st f -> (forall x, within x (v_ap e) 24 -> byte_eq (g x) (f x)) -> inv e gp fp st g.
Proof.
  intros e gp fp st f g (A & B & C & D) H. unfold within in H. unfold inv.
  rewrite (loadn_beq 4 (v_ap e) f g), (loadn_beq 4 (v_ap e + 4) f g), (loadn_beq 8 (v_ap e + 8) f g), (loadn_beq 8 (v_ap e + 16) f g)
    by (intros; apply H; lia). auto.
Qed.
Lemma inv_st : forall e gp fp st f v, inv e gp fp st f -> 0 <= v_stk e + v < 2 ^ 64 ->
  inv e gp fp v (storen 8 (v_ap e + 8) (v_stk e + v) f).
Proof.
  intros e gp fp st f v (A & B & C & D) H. unfold inv.
  assert (O : forall x, x < v_ap e + 8 \/ v_ap e + 16 <= x -> storen 8 (v_ap e + 8) (v_stk e + v) f x = f x).
  { intros x Hx. unfold storen. change (Z.of_nat 8) with 8.
    destruct (Z.leb_spec (v_ap e + 8) x), (Z.ltb_spec x (v_ap e + 8 + 8)); cbn [andb]; try reflexivity; lia. }
  rewrite (loadn_ext 4 (v_ap e) _ f), (loadn_ext 4 (v_ap e + 4) _ f), (loadn_ext 8 (v_ap e + 16) _ f) by (intros; apply O; lia).
  rewrite loadn_storen. change (8 * Z.of_nat 8) with 64. rewrite Z.mod_small by lia. auto.
Qed.
Lemma inv_fp : forall e gp fp st f, inv e gp fp st f -> (fp < 8)%nat ->
  inv e gp (S fp) st (storen 8 (v_ap e + 4) (loadn 8 (v_ap e + 4) f + 16) f).
Proof.
  intros e gp fp st f (A & B & C & D) H. destruct (bump_ok (v_ap e + 4) f 16) as (B1 & B2 & B3); [lia|rewrite B; lia|].
  set (g := storen _ _ _ _) in *. unfold inv. rewrite B1, B.
  rewrite (loadn_beq 4 (v_ap e) f g), (loadn_beq 8 (v_ap e + 8) f g), (loadn_beq 8 (v_ap e + 16) f g) by (intros; apply B2; lia).
  repeat split; try assumption. lia.
Qed.
Lemma inv_gp : forall e gp fp st f i, inv e gp fp st f -> (gp + i <= 6)%nat ->
  inv e (gp + i) fp st (storen 8 (v_ap e + 0) (loadn 8 (v_ap e + 0) f + 8 * Z.of_nat i) f).
Proof.
  intros e gp fp st f i (A & B & C & D) H. rewrite Z.add_0_r.
  destruct (bump_ok (v_ap e) f (8 * Z.of_nat i)) as (B1 & B2 & B3); [lia|rewrite A; lia|].
  set (g := storen _ _ _ _) in *. unfold inv. rewrite B1, A.
  rewrite (loadn_beq 4 (v_ap e + 4) f g), (loadn_beq 8 (v_ap e + 8) f g), (loadn_beq 8 (v_ap e + 16) f g) by (intros; apply B2; lia).
  repeat split; try assumption. lia.
Qed.
Lemma store_out : forall k a v f x, x < a \/ a + Z.of_nat k <= x -> storen k a v f x = f x.
Proof.
  intros k a v f x Hx. unfold storen.
  destruct (Z.leb_spec a x), (Z.ltb_spec x (a + Z.of_nat k)); cbn [andb]; try reflexivity; lia.
Qed.

Lemma int_conv_nn : forall z, 0 <= z <= INT_MAX -> int_conv z = z.
Proof.
  intros z H. change INT_MAX with 2147483647 in H. unfold int_conv, sext. change (2 ^ (32 - 1)) with 2147483648. change (2 ^ 32) with 4294967296.
  rewrite Z.mod_small by lia. destruct (Z.ltb_spec z 2147483648); [reflexivity|lia].
Qed.

Section Run.
Variable sym : nat -> Z.
Notation xj := (xjrun sym).

(** The registers of the code and the memory it may write. *)
Definition regs_kept (m m' : xmach) : Prop := forall q, q <> CX -> q <> DX -> rg (im m') q = rg (im m) q.
Lemma sets_kept : forall q v m m', sets q v m m' -> q = CX \/ q = DX -> regs_kept m m'.
Proof. intros q v m m' (_ & O & _) H x N1 N2. apply O. intros ->. destruct H; subst; contradiction. Qed.
Lemma same_kept : forall m m', same m m' -> regs_kept m m'.
Proof. intros m m' (H & _) q _ _. rewrite H. reflexivity. Qed.
Lemma writes_kept : forall f m m', writes f m m' -> regs_kept m m'.
Proof. intros f m m' (H & _) q _ _. rewrite H. reflexivity. Qed.
Lemma kept_tr : forall a b c, regs_kept a b -> regs_kept b c -> regs_kept a c.
Proof. intros a b c H1 H2 q N1 N2. rewrite H2, H1; auto. Qed.

(** ** The stack *)
Lemma stack_code : forall t p e, argument t -> p_ok p -> env_ok e -> asize t + 8 + aalign t <= INT_MAX ->
  slot_of t p + round_up (asize t) 8 <= v_len e -> v_stk e mod aalign t = 0 ->
  exists s, va_arg_stack t = Ok s /\ nolab s = true /\
  forall m gp fp, rg (im m) AX = v_ap e -> inv e gp fp (p_st p) (mm (im m)) ->
  exists m', (forall k, xj (s ++ k) None m = xj k None m') /\ rg (im m') DX = v_stk e + slot_of t p /\ regs_kept m m' /\
    (forall x, ~ within x (v_ap e) 24 -> mm (im m') x = mm (im m) x) /\
    inv e gp fp (slot_of t p + round_up (asize t) 8) (mm (im m')).
Proof.
  intros t p e (N & Sz & _) K (E1 & E2 & E3 & E4 & E5 & E6 & _) HB HL HM.
  assert (IM : INT_MAX = 2147483647) by reflexivity.
  pose proof (align_pow2 t N) as PA. pose proof (pow2_pos _ PA) as PA1.
  destruct (slot_ok t p N K) as (S1 & S2 & S3 & S4 & S5). destruct K as (K0 & K8 & _).
  destruct (round_up_spec (asize t) 8 ltac:(lia)) as [R1 R2].
  unfold va_arg_stack. rewrite int_conv_nn, align_to_ok by lia. cbn [bind].
  set (sz := round_up (asize t) 8) in *.
  destruct (Z.leb_spec (aalign t) 8) as [L8|G8].
  - destruct (Z.ltb_spec 8 (aalign t)); [lia|]. rewrite <- S5 in *.
    eexists. split; [reflexivity|]. split; [reflexivity|]. intros m gp fp HA HI. pose proof HI as (I1 & I2 & I3 & I4).
    destruct (ld8 sym 8 DX m (v_ap e) HA ltac:(lia)) as (m1 & (D1 & D2 & D3 & _) & J1). rewrite I3 in D1.
    assert (HA1 : rg (im m1) AX = v_ap e) by (rewrite D2 by discriminate; exact HA).
    destruct (bump sym sz 8 m1 (v_ap e) HA1 ltac:(lia) ltac:(lia)) as (m2 & (W1 & W2 & _) & J2).
    rewrite D3, I3 in W2. exists m2. split; [|split; [|split; [|split]]].
    + intros k. cbn [app]. rewrite J1, J2. reflexivity.
    + rewrite W1. exact D1.
    + intros q N1 N2. rewrite W1. apply D2. exact N2.
    + intros x Hx. rewrite W2. apply store_out. unfold within in Hx. lia.
    + rewrite W2. replace (v_stk e + p_st p + sz) with (v_stk e + (p_st p + sz)) by lia. apply (inv_st _ _ _ (p_st p)); [exact HI|lia].
  - destruct (Z.ltb_spec 8 (aalign t)); [|lia].
    assert (A30 : aalign t <= 2 ^ 30). { destruct PA as (j & Hj & ->). apply Z.pow_le_mono_r; lia. }
    eexists. split; [reflexivity|]. split; [reflexivity|]. intros m gp fp HA HI. pose proof HI as (I1 & I2 & I3 & I4).
    destruct (ld8 sym 8 DX m (v_ap e) HA ltac:(lia)) as (m1 & (D1 & D2 & D3 & _) & J1). rewrite I3 in D1.
    assert (RU : v_stk e + slot_of t p = (v_stk e + p_st p + (aalign t - 1)) / aalign t * aalign t).
    { rewrite <- S5. unfold round_up. pose proof (Z.div_mod (v_stk e) (aalign t) ltac:(lia)) as DM. rewrite HM in DM.
      replace (v_stk e + p_st p + (aalign t - 1)) with ((p_st p + aalign t - 1) + (v_stk e / aalign t) * aalign t) by lia.
      rewrite Z.div_add by lia. lia. }
    assert (B64 : v_stk e + p_st p + (aalign t - 1) < 2 ^ 64 \/ 2 ^ 64 <= v_stk e + p_st p + (aalign t - 1)) by lia.
    destruct B64 as [B64|B64].
    2:{ exfalso. assert (2 ^ 64 <= v_stk e + slot_of t p); [|lia].
        rewrite RU. destruct PA as (j & Hj & EA). rewrite EA in *.
        assert (2 ^ 64 / 2 ^ j * 2 ^ j = 2 ^ 64). { replace 64 with (64 - j + j) by lia. rewrite Z.pow_add_r by lia. rewrite Z.div_mul by lia. reflexivity. }
        pose proof (Z.div_le_mono (2 ^ 64) (v_stk e + p_st p + (2 ^ j - 1)) (2 ^ j) ltac:(lia) B64). nia. }
    destruct (addi sym (aalign t - 1) DX m1 _ D1 ltac:(lia) ltac:(lia) B64) as (m2 & (F1 & F2 & F3 & _) & J2).
    destruct (andi sym (aalign t) DX m2 _ F1 ltac:(lia) PA) as (m3 & (G1 & G2 & G3 & _) & J3). rewrite <- RU in G1.
    destruct (lea_ok sym (BReg DX) sz CX m3 (v_stk e + slot_of t p + sz)) as (m4 & (H1 & H2 & H3 & _) & J4); [split; [rewrite G1; reflexivity|lia]|lia|].
    assert (HA4 : rg (im m4) AX = v_ap e). { rewrite H2, G2, F2, D2 by discriminate. exact HA. }
    destruct (st8 sym 8 CX m4 (v_ap e) _ HA4 ltac:(lia) H1 ltac:(lia)) as (m5 & (W1 & W2 & _) & J5).
    exists m5. split; [|split; [|split; [|split]]].
    + intros k. cbn [app]. rewrite J1, J2, J3, J4, J5. reflexivity.
    + rewrite W1, H2 by discriminate. exact G1.
    + intros q N1 N2. rewrite W1, H2, G2, F2, D2 by assumption. reflexivity.
    + intros x Hx. rewrite W2, H3, G3, F3, D3. apply store_out. unfold within in Hx. lia.
    + rewrite W2, H3, G3, F3, D3. rewrite <- Z.add_assoc. apply (inv_st _ _ _ (p_st p)); [exact HI|lia].
Qed.

(** ** Registers *)
Fixpoint in_area (e : venv) (f : Z -> Z) (l : list part) (gp fp : nat) (val : Z -> Z) : Prop :=
  match l with
  | [] => True
  | (o, n, true) :: r =>
      (forall k, 0 <= k < n -> byte_eq (f (v_area e + (48 + 16 * Z.of_nat fp) + k)) (val (o + k))) /\ in_area e f r gp (S fp) val
  | (o, n, false) :: r =>
      (forall k, 0 <= k < n -> byte_eq (f (v_area e + 8 * Z.of_nat gp + k)) (val (o + k))) /\ in_area e f r (S gp) fp val
  end.

Definition pre (fl : bool) : list xinstr :=
  if fl
  then [G (Mov (Some S4) (at_ax 4) (R S4 CX)); G (Alu AAdd (Some S8) (at_ax 16) (R S8 CX)); G (Alu AAdd (Some S8) (I 16) (at_ax 4))]
  else [G (Mov (Some S4) (at_ax 0) (R S4 CX)); G (Alu AAdd (Some S8) (at_ax 16) (R S8 CX)); G (Alu AAdd (Some S8) (I 8) (at_ax 0))].
Definition src_of (e : venv) (fl : bool) (gp fp : nat) : Z := v_area e + if fl then 48 + 16 * Z.of_nat fp else 8 * Z.of_nat gp.
Definition up (fl : bool) (gp fp : nat) : nat * nat := if fl then (gp, S fp) else (S gp, fp).

(** Address of a saved register in [q], counters moved on. *)
Lemma fetch : forall (fl : bool) q i m e gp fp st, q = CX \/ q = DX -> env_ok e -> rg (im m) AX = v_ap e -> inv e gp fp st (mm (im m)) ->
  (if fl then (fp < 8)%nat /\ i = 1%nat else (gp + i <= 6)%nat) ->
  let o := if fl then 4 else 0 in
  exists m', (forall k, xj (G (Mov (Some S4) (at_ax o) (R S4 q)) :: G (Alu AAdd (Some S8) (at_ax 16) (R S8 q)) ::
                            G (Alu AAdd (Some S8) (I (if fl then 16 else 8 * Z.of_nat i)) (at_ax o)) :: k) None m = xj k None m') /\
    rg (im m') q = src_of e fl gp fp /\ only_reg q (im m) (im m') /\ (forall x, ~ within x (v_ap e) 24 -> mm (im m') x = mm (im m) x) /\
    inv e (if fl then gp else (gp + i)%nat) (if fl then S fp else fp) st (mm (im m')).
Proof.
  intros fl q i m e gp fp st Hq (E1 & E2 & E3 & E4 & E5 & E6 & _) HA HI HC o. pose proof HI as (I1 & I2 & I3 & I4).
  assert (HO : o = if fl then 4 else 0) by reflexivity. clearbody o.
  assert (NQ : q <> AX) by (destruct Hq; subst; discriminate).
  destruct (ld4 sym o q m (v_ap e) HA) as (m1 & (D1 & D2 & D3 & _) & J1); [destruct fl; lia|].
  assert (V1 : rg (im m1) q = if fl then 48 + 16 * Z.of_nat fp else 8 * Z.of_nat gp).
  { rewrite D1, HO. destruct fl; [exact I2|rewrite Z.add_0_r; exact I1]. }
  assert (HA1 : rg (im m1) AX = v_ap e) by (rewrite D2 by (intros <-; contradiction); exact HA).
  destruct (add8 sym 16 q m1 (v_ap e) _ (v_area e) NQ HA1 ltac:(lia) V1) as (m2 & (F1 & F2 & F3 & _) & J2).
  { rewrite D3. exact I4. } { destruct fl; lia. } { lia. } { destruct fl; lia. }
  assert (HA2 : rg (im m2) AX = v_ap e) by (rewrite F2 by (intros <-; contradiction); exact HA1).
  destruct (bump sym (if fl then 16 else 8 * Z.of_nat i) o m2 (v_ap e) HA2) as (m3 & (W1 & W2 & _) & J3); [destruct fl; lia|destruct fl; lia|].
  rewrite F3, D3 in W2.
  exists m3. split; [intros k; rewrite J1, J2, J3; reflexivity|]. split; [|split; [|split]].
  - rewrite W1, F1. unfold src_of. lia.
  - intros x Hx. rewrite W1, F2, D2 by exact Hx. reflexivity.
  - intros x Hx. rewrite W2. apply store_out. unfold within in Hx. destruct fl; lia.
  - rewrite W2, HO. destruct fl.
    + apply inv_fp; [exact HI|apply HC].
    + apply inv_gp; [exact HI|exact HC].
Qed.

Lemma chunk_copy : forall vb o n, (forall r, vb = BReg r -> ~ In r int_regs) -> 1 <= n <= 8 ->
  exists c, gen_mem_copy2 (BReg CX) 0 vb o n = Ok c /\ nolab c = true /\
  forall (fl : bool) m e gp fp st dst, env_ok e -> rg (im m) AX = v_ap e -> inv e gp fp st (mm (im m)) -> (if fl then (fp < 8)%nat else (gp < 6)%nat) ->
    addr_of sym (im m) vb o dst n -> apart dst n (v_ap e) 24 -> apart dst n (v_area e) 176 ->
  exists m', (forall k, xj (pre fl ++ c ++ k) None m = xj k None m') /\
    (forall j, 0 <= j < n -> byte_eq (mm (im m') (dst + j)) (mm (im m) (src_of e fl gp fp + j))) /\
    (forall x, ~ within x dst n -> ~ within x (v_ap e) 24 -> mm (im m') x = mm (im m) x) /\ regs_kept m m' /\
    inv e (fst (up fl gp fp)) (snd (up fl gp fp)) st (mm (im m')).
Proof.
  intros vb o n SB Hn. assert (IM : INT_MAX = 2147483647) by reflexivity.
  assert (ND : vb <> BReg DX) by (intros ->; apply (SB DX); cbn; auto).
  assert (NC : vb <> BReg CX) by (intros ->; apply (SB CX); cbn; auto 6).
  destruct (copy_ok sym (BReg CX) 0 vb o n 0 0 ltac:(discriminate) ND ltac:(lia) ltac:(lia)) as (c & E & _).
  exists c. split; [exact E|]. split; [unfold gen_mem_copy2 in E; eapply mem_copy_nolab, E|].
  intros fl m e gp fp st dst EO HA HI HC AD AP1 AP2. pose proof EO as (E1 & E2 & E3 & E4 & E5 & E6 & E7 & E8).
  destruct (fetch fl CX 1 m e gp fp st ltac:(auto) EO HA HI) as (m1 & J1 & Q1 & Q2 & Q3 & Q4); [destruct fl; lia|].
  set (src := src_of e fl gp fp) in *.
  assert (SR : v_area e <= src /\ src + 8 <= v_area e + 176) by (unfold src, src_of; destruct fl; lia).
  unfold apart in AP1, AP2.
  destruct (copy_ok sym (BReg CX) 0 vb o n src dst ltac:(discriminate) ND ltac:(lia) ltac:(lia)) as (c' & E' & KC).
  assert (c' = c) by congruence. subst c'.
  destruct (KC m1) as (m2 & R2 & (P1 & P2) & P3).
  { split; [rewrite Q1; lia|]. lia. }
  { eapply addr_only; [exact AD|exact NC|exact Q2]. }
  exists m2. split; [|split; [|split; [|split]]].
  - intros k. replace (pre fl ++ c ++ k) with
      (G (Mov (Some S4) (at_ax (if fl then 4 else 0)) (R S4 CX)) :: G (Alu AAdd (Some S8) (at_ax 16) (R S8 CX)) ::
       G (Alu AAdd (Some S8) (I (if fl then 16 else 8 * Z.of_nat 1)) (at_ax (if fl then 4 else 0))) :: c ++ k) by (destruct fl; reflexivity).
    rewrite J1. apply xj_of_x, R2.
  - intros j Hj. eapply eq_trans; [apply P1; exact Hj|]. rewrite Q3; [reflexivity|]. unfold within, apart in *. lia.
  - intros x X1 X2. rewrite P2 by (unfold within in X1; lia). apply Q3, X2.
  - intros q N1 N2. rewrite P3 by exact N2. apply Q2, N1.
  - eapply inv_beq.
    + destruct fl; cbn [up fst snd]; [exact Q4|]. replace (S gp) with (gp + 1)%nat by lia. exact Q4.
    + intros x Hx. rewrite P2; [reflexivity|]. unfold within in Hx. lia.
Qed.
End Run.
