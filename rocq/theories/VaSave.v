From Coq Require Import ZArith List Bool Lia.
From Verif Require Import Base BitLemmas X86 Sse MemSpec MemModel MemProofs CgLemmas FrameModel CallSpec CallModel CallProofs CallClass CallPlan CallRun CallEnd VaModel VaSpec VaProofs VaStep VaEnd VaMain.
Import ListNotations.
Local Open Scope Z_scope.
Local Opaque natural.

Section Run.
Variable sym : nat -> Z.
Variable lp : reg.
Notation xj := (xjrun sym).

Definition sgp (i : nat) : xinstr := G (Mov (Some S8) (R S8 (nth i int_regs DI)) (M (BReg lp) (-176 + 8 * Z.of_nat i))).
Definition sfp (i : nat) : xinstr := MovapsSt i (BReg lp) (-128 + 16 * Z.of_nat i).
Lemma save_gp_map : forall gp, (gp <= 6)%nat -> save_gp gp lp = map sgp (seq gp (6 - gp)).
Proof. intros gp H. do 7 (destruct gp as [|gp]; [reflexivity|]). lia. Qed.
Lemma save_fp_map : forall fp, (fp <= 8)%nat -> save_fp fp lp = map sfp (seq fp (8 - fp)).
Proof. intros fp H. do 9 (destruct fp as [|fp]; [reflexivity|]). lia. Qed.
Lemma sfp_nolab : forall l, nolab (map sfp l) = true.
Proof. induction l as [|i l IH]; [reflexivity|exact IH]. Qed.

Lemma ea_lp : forall m o a, rg (im m) lp = a -> 0 <= a + o < 2 ^ 64 -> ea sym (BReg lp) o (im m) = a + o.
Proof. intros m o a H R. unfold ea. rewrite H. apply Z.mod_small. exact R. Qed.
Lemma st_gp : forall i m L, rg (im m) lp = L -> 176 <= L < 2 ^ 64 -> (i < 6)%nat ->
  exists m', writes (storen 8 (L - 176 + 8 * Z.of_nat i) (rg (im m) (nth i int_regs DI) mod 2 ^ 64) (mm (im m))) m m' /\
    forall k, xj (sgp i :: k) None m = xj k None m'.
Proof.
  intros i m L HL RL Hi. eexists. split; [|intros k; unfold sgp; cbn [xjrun xexec exec1 is_mem andb]; unfold osize; cbn [osizes flat_map app forallb size_eqb andb];
    cbn [rd wr]; rewrite (ea_lp m _ L HL) by lia; unfold getr; cbn [nbits]; reflexivity].
  unfold writes. cbn [im mm rg xr]. split; [reflexivity|]. split; [|reflexivity]. cbn [nbytes]. replace (L + (-176 + 8 * Z.of_nat i)) with (L - 176 + 8 * Z.of_nat i) by lia. reflexivity.
Qed.
Lemma st_fp : forall i m L, rg (im m) lp = L -> 176 <= L < 2 ^ 64 -> L mod 16 = 0 -> (i < 8)%nat ->
  exists m', writes (storen 16 (L - 128 + 16 * Z.of_nat i) (xr m i) (mm (im m))) m m' /\
    forall k, xj (sfp i :: k) None m = xj k None m'.
Proof.
  intros i m L HL RL ML Hi. assert (EA : ea sym (BReg lp) (-128 + 16 * Z.of_nat i) (im m) = L - 128 + 16 * Z.of_nat i) by (rewrite (ea_lp m _ L HL); lia).
  assert (AL : ((L - 128 + 16 * Z.of_nat i) mod 16 =? 0) = true).
  { apply Z.eqb_eq. replace (L - 128 + 16 * Z.of_nat i) with (L + (Z.of_nat i - 8) * 16) by lia. rewrite Z.mod_add by lia. exact ML. }
  eexists. split; [|intros k; unfold sfp; cbn [xjrun xexec]; unfold stx; rewrite EA, AL; reflexivity].
  repeat split; reflexivity.
Qed.

Definition gp_saved (m0 m : xmach) (L : Z) (i : nat) : Prop := forall k, 0 <= k < 8 ->
  byte_eq (mm (im m) (L - 176 + 8 * Z.of_nat i + k)) ((rg (im m0) (nth i int_regs DI) mod 2 ^ 64) / 2 ^ (8 * k)).
Definition fp_saved (m0 m : xmach) (L : Z) (i : nat) : Prop := forall k, 0 <= k < 16 ->
  byte_eq (mm (im m) (L - 128 + 16 * Z.of_nat i + k)) (xr m0 i / 2 ^ (8 * k)).

Lemma run_gp : forall n gp m L, (gp + n = 6)%nat -> rg (im m) lp = L -> 176 <= L < 2 ^ 64 ->
  exists m', (forall k, xj (map sgp (seq gp n) ++ k) None m = xj k None m') /\ rg (im m') = rg (im m) /\ xr m' = xr m /\
    (forall x, x < L - 176 + 8 * Z.of_nat gp \/ L - 128 <= x -> mm (im m') x = mm (im m) x) /\
    (forall i, (gp <= i < 6)%nat -> gp_saved m m' L i).
Proof.
  induction n as [|n IH]; intros gp m L HN HL RL.
  { exists m. split; [reflexivity|]. repeat split; intros; lia. }
  destruct (st_gp gp m L HL RL ltac:(lia)) as (m1 & (A1 & A2 & A3) & J1).
  destruct (IH (S gp) m1 L ltac:(lia) ltac:(rewrite A1; exact HL) RL) as (m2 & J2 & B1 & B2 & B3 & B4).
  exists m2. split; [|split; [|split; [|split]]].
  - intros k. cbn [seq map app]. rewrite J1. apply J2.
  - rewrite B1. exact A1.
  - rewrite B2. exact A3.
  - intros x Hx. rewrite B3 by lia. rewrite A2. apply store_out. lia.
  - intros i Hi. destruct (Nat.eq_dec i gp) as [->|NE].
    + intros k Hk. rewrite B3 by lia. rewrite A2. unfold byte_eq. rewrite storen_byte by lia. apply Z.mod_mod. lia.
    + intros k Hk. specialize (B4 i ltac:(lia) k Hk). rewrite A1 in B4. exact B4.
Qed.
Lemma run_fp : forall n fp m L, (fp + n = 8)%nat -> rg (im m) lp = L -> 176 <= L < 2 ^ 64 -> L mod 16 = 0 ->
  exists m', (forall k, xj (map sfp (seq fp n) ++ k) None m = xj k None m') /\ rg (im m') = rg (im m) /\ xr m' = xr m /\
    (forall x, x < L - 128 + 16 * Z.of_nat fp \/ L <= x -> mm (im m') x = mm (im m) x) /\
    (forall i, (fp <= i < 8)%nat -> fp_saved m m' L i).
Proof.
  induction n as [|n IH]; intros fp m L HN HL RL ML.
  { exists m. split; [reflexivity|]. repeat split; intros; lia. }
  destruct (st_fp fp m L HL RL ML ltac:(lia)) as (m1 & (A1 & A2 & A3) & J1).
  destruct (IH (S fp) m1 L ltac:(lia) ltac:(rewrite A1; exact HL) RL ML) as (m2 & J2 & B1 & B2 & B3 & B4).
  exists m2. split; [|split; [|split; [|split]]].
  - intros k. cbn [seq map app]. rewrite J1. apply J2.
  - rewrite B1. exact A1.
  - rewrite B2. exact A3.
  - intros x Hx. rewrite B3 by lia. rewrite A2. apply store_out. lia.
  - intros i Hi. destruct (Nat.eq_dec i fp) as [->|NE].
    + intros k Hk. rewrite B3 by lia. rewrite A2. unfold byte_eq. rewrite storen_byte by lia. apply Z.mod_mod. lia.
    + intros k Hk. specialize (B4 i ltac:(lia) k Hk). rewrite A3 in B4. exact B4.
Qed.

Lemma test_al : forall l m, exists m', same m m' /\
  forall k, xj (G (Alu ATest None (R S1 AX) (R S1 AX)) :: G (Jcc CcE l) :: k) None m = xj k (if rg (im m) AX mod 256 =? 0 then Some l else None) m'.
Proof.
  intros l m. eexists. split; [|intros k; cbn [xjrun xexec exec1 is_mem andb]; unfold osize; cbn [osizes flat_map app forallb size_eqb andb];
    cbn [rd fl im setf cond_holds]; unfold and_flags; cbn [zf nbits]; unfold getr; cbn [nbits]; rewrite Z.land_diag; change (2 ^ 8) with 256; rewrite ?Z.mod_mod by lia; reflexivity].
  repeat split; reflexivity.
Qed.

Lemma save_ok : forall st gp fp m L, cc_gp st = Z.of_nat gp -> cc_fp st = Z.of_nat fp -> (gp <= 6)%nat -> (fp <= 8)%nat ->
  rg (im m) lp = L -> 176 <= L < 2 ^ 64 -> L mod 16 = 0 ->
  exists m', xj (save_regs st lp) None m = Some (None, m') /\ rg (im m') = rg (im m) /\ xr m' = xr m /\
    (forall x, ~ within x (L - 176) 176 -> mm (im m') x = mm (im m) x) /\
    (forall i, (gp <= i < 6)%nat -> gp_saved m m' L i) /\
    (rg (im m) AX mod 256 <> 0 -> forall i, (fp <= i < 8)%nat -> fp_saved m m' L i).
Proof.
  intros st gp fp m L Eg Ef Hg Hf HL RL ML. unfold save_regs. rewrite Eg, Ef, !Nat2Z.id, save_gp_map by exact Hg.
  destruct (run_gp (6 - gp) gp m L ltac:(lia) HL RL) as (m1 & J1 & A1 & A2 & A3 & A4).
  destruct (Z.ltb_spec (Z.of_nat fp) 8) as [F8|F8].
  - destruct (test_al lab1 m1) as (m2 & (B1 & B2 & B3) & J2). rewrite save_fp_map by exact Hf.
    destruct (rg (im m) AX mod 256 =? 0) eqn:EA.
    + exists m2. split; [|split; [|split; [|split; [|split]]]].
      * rewrite J1. cbn [app]. rewrite J2, A1, EA, xj_skip by apply sfp_nolab. reflexivity.
      * congruence.
      * congruence.
      * intros x Hx. rewrite B2. apply A3. unfold within in Hx. lia.
      * intros i Hi k Hk. rewrite B2. apply A4; assumption.
      * apply Z.eqb_eq in EA. intros; contradiction.
    + destruct (run_fp (8 - fp) fp m2 L ltac:(lia) ltac:(rewrite B1, A1; exact HL) RL ML) as (m3 & J3 & C1 & C2 & C3 & C4).
      exists m3. split; [|split; [|split; [|split; [|split]]]].
      * rewrite J1. cbn [app]. rewrite J2, A1, EA, J3. reflexivity.
      * congruence.
      * congruence.
      * intros x Hx. unfold within in Hx. rewrite C3 by lia. rewrite B2. apply A3. lia.
      * intros i Hi k Hk. rewrite C3 by lia. rewrite B2. apply A4; assumption.
      * intros _ i Hi k Hk. specialize (C4 i Hi k Hk). rewrite B3, A2 in C4. exact C4.
  - exists m1. split; [|split; [|split; [|split; [|split]]]]; try assumption.
    + rewrite J1. reflexivity.
    + intros x Hx. unfold within in Hx. apply A3. lia.
    + intros; lia.
Qed.

Lemma start_ok : forall st gp fp s, cc_gp st = Z.of_nat gp -> cc_fp st = Z.of_nat fp -> cc_stack st = s -> (gp <= 6)%nat -> (fp <= 8)%nat -> 0 <= s -> s + 16 <= INT_MAX ->
  lp = BP \/ lp = BX ->
  exists c, va_start st lp = Ok c /\
  forall m e, env_ok e -> rg (im m) AX = v_ap e -> rg (im m) BP = v_stk e - 16 -> 16 <= v_stk e -> s <= v_len e -> rg (im m) lp = v_area e + 176 ->
  exists m', xj c None m = Some (None, m') /\ (forall x, ~ within x (v_ap e) 24 -> mm (im m') x = mm (im m) x) /\
    (forall q, q <> DX -> rg (im m') q = rg (im m) q) /\ inv e gp fp s (mm (im m')).
Proof.
  intros st gp fp s Eg Ef Es Hg Hf Hs HI HLP. unfold va_start. rewrite Eg, Ef, Es. assert (IM : INT_MAX = 2147483647) by reflexivity.
  assert (IN : INT_MIN = -2147483648) by reflexivity.
  rewrite !int_ok by lia. cbn [bind].
  eexists. split; [reflexivity|]. intros m e EO HA HB H16 HV HL. pose proof EO as (E1 & E2 & E3 & E4 & E5 & E6 & E7 & E8).
  destruct (sti4 sym 0 (Z.of_nat gp * 8) m _ HA ltac:(lia) ltac:(lia)) as (m1 & (A1 & A2 & A3) & J1).
  destruct (sti4 sym 4 (Z.of_nat fp * 16 + 48) m1 _ ltac:(rewrite A1; exact HA) ltac:(lia) ltac:(lia)) as (m2 & (B1 & B2 & B3) & J2).
  destruct (lea_ok sym (BReg BP) (s + 16) DX m2 (v_stk e + s)) as (m3 & (C1 & C2 & C3 & C4) & J3).
  { unfold addr_of. rewrite B1, A1, HB. split; [|split]; [|lia|lia]. lia. } { lia. }
  destruct (st8 sym 8 DX m3 (v_ap e) _ ltac:(rewrite C2 by discriminate; rewrite B1, A1; exact HA) ltac:(lia) C1 ltac:(lia)) as (m4 & (D1 & D2 & D3) & J4).
  assert (ND : lp <> DX) by (destruct HLP; subst; discriminate).
  destruct (lea_ok sym (BReg lp) (-176) DX m4 (v_area e)) as (m5 & (F1 & F2 & F3 & F4) & J5).
  { unfold addr_of. rewrite D1, C2 by exact ND. rewrite B1, A1, HL. split; [|split]; [|lia|lia]. lia. } { lia. }
  destruct (st8 sym 16 DX m5 (v_ap e) _ ltac:(rewrite F2 by discriminate; rewrite D1, C2 by discriminate; rewrite B1, A1; exact HA) ltac:(lia) F1 ltac:(lia)) as (m6 & (G1 & G2 & G3) & J6).
  assert (EM : mm (im m6) = storen 8 (v_ap e + 16) (v_area e) (storen 8 (v_ap e + 8) (v_stk e + s) (storen 4 (v_ap e + 4) (Z.of_nat fp * 16 + 48) (storen 4 (v_ap e + 0) (Z.of_nat gp * 8) (mm (im m)))))).
  { rewrite G2, F3, D2, C3, B2, A2. reflexivity. }
  exists m6. split; [|split; [|split]].
  - rewrite J1, J2, J3, J4, J5, J6. reflexivity.
  - intros x Hx. unfold within in Hx. rewrite EM. rewrite !store_out by lia. reflexivity.
  - intros q Hq. rewrite G1, F2, D1, C2, B1, A1 by exact Hq. reflexivity.
  - rewrite EM. unfold inv. split; [|split; [|split]].
    + rewrite (loadn_ext 4 _ _ (storen 4 (v_ap e + 0) (Z.of_nat gp * 8) (mm (im m)))) by (intros; rewrite !store_out by lia; reflexivity).
      rewrite Z.add_0_r, loadn_storen. change (8 * Z.of_nat 4) with 32. rewrite Z.mod_small by lia. lia.
    + rewrite (loadn_ext 4 _ _ (storen 4 (v_ap e + 4) (Z.of_nat fp * 16 + 48) (storen 4 (v_ap e + 0) (Z.of_nat gp * 8) (mm (im m))))) by (intros; rewrite !store_out by lia; reflexivity).
      rewrite loadn_storen. change (8 * Z.of_nat 4) with 32. rewrite Z.mod_small by lia. lia.
    + rewrite (loadn_ext 8 _ _ (storen 8 (v_ap e + 8) (v_stk e + s) (storen 4 (v_ap e + 4) (Z.of_nat fp * 16 + 48) (storen 4 (v_ap e + 0) (Z.of_nat gp * 8) (mm (im m)))))) by (intros; rewrite store_out by lia; reflexivity).
      rewrite loadn_storen. change (8 * Z.of_nat 8) with 64. rewrite Z.mod_small by lia. lia.
    + rewrite loadn_storen. change (8 * Z.of_nat 8) with 64. rewrite Z.mod_small by lia. lia.
Qed.

(** ** The caller *)
Lemma al_ok : forall n m, (n <= 8)%nat -> exists m', xrun sym (set_al (Func true) (Z.of_nat n)) m = Some m' /\ mm (im m') = mm (im m) /\ xr m' = xr m /\
  (forall q, q <> AX -> rg (im m') q = rg (im m) q) /\ rg (im m') AX mod 256 = Z.of_nat n.
Proof.
  intros n m H. unfold set_al. cbn [ty_is_variadic].
  assert (PA : forall v, 0 <= v < 256 -> (rg (putr S1 AX v (im m)) AX) mod 256 = v).
  { intros v Hv. pose proof (getr_putr S1 AX v (im m)) as P. unfold getr in P. cbn [nbits] in P. change (2 ^ 8) with 256 in P. rewrite P. apply Z.mod_small. lia. }
  destruct (Z.eqb_spec (Z.of_nat n) 0) as [E|E].
  - eexists. split; [reflexivity|]. cbn [im mm xr setf]. split; [apply putr_mem|]. split; [reflexivity|]. split; [intros q Hq; apply putr_only; exact Hq|].
    rewrite Z.lxor_nilpotent, E. apply PA. lia.
  - assert (IM : imm_ok S1 (Z.of_nat n) = true).
    { unfold imm_ok. cbn [nbits]. apply andb_true_intro. split; [apply Z.leb_le|apply Z.ltb_lt]; change (2 ^ (8 - 1)) with 128; change (2 ^ 8) with 256; lia. }
    eexists. split; [cbn [xrun xexec exec1 is_mem andb]; unfold osize; cbn [osizes flat_map app forallb size_eqb andb]; cbn [rd wr]; rewrite IM; reflexivity|].
    cbn [im mm xr]. split; [apply putr_mem|]. split; [reflexivity|]. split; [intros q Hq; apply putr_only; exact Hq|].
    apply PA. lia.
Qed.
End Run.
