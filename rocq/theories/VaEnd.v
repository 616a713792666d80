From Coq Require Import ZArith List Bool Lia.
From Verif Require Import Base BitLemmas X86 Sse MemSpec MemModel MemProofs CgLemmas FrameModel CallSpec CallModel CallProofs CallClass CallPlan CallRun CallEnd VaModel VaSpec VaProofs VaStep.
Import ListNotations.
Local Open Scope Z_scope.
Local Opaque natural.

Section Run.
Variable sym : nat -> Z.
Notation xj := (xjrun sym).

(** What the register code does. *)
Definition regs_spec (d : loc) (gp fp : nat) (r : list xinstr) : Prop :=
  forall m e st, env_ok e -> rg (im m) AX = v_ap e -> inv e gp fp st (mm (im m)) ->
  if stacked (l_ty d) gp fp
  then exists m', same m m' /\ forall k, xj (r ++ k) None m = xj k (Some lab1) m'
  else forall val, located sym (im m) d -> clear e d -> in_area e (mm (im m)) (parts (l_ty d)) gp fp val ->
    exists m', (forall k, xj (r ++ k) None m = xj k None m') /\ 0 <= rg (im m') DX < 2 ^ 64 /\
      (forall j, 0 <= j < asize (l_ty d) -> byte_eq (mm (im m') (rg (im m') DX + j)) (val j)) /\
      regs_kept m m' /\ (forall x, ~ within x (v_ap e) 24 -> outside x d -> mm (im m') x = mm (im m) x) /\
      inv e (gp + ni (l_ty d)) (fp + ns (l_ty d)) st (mm (im m')).

(** One or two adjacent registers: no copy. *)
Lemma simple_fp : forall d gp fp n, (gp <= 6)%nat -> (fp <= 8)%nat -> code_cls (l_ty d) = [Sse] -> parts (l_ty d) = [(0, n, true)] -> asize (l_ty d) = n -> n <= 8 ->
  regs_spec d gp fp [G (Alu ACmp (Some S4) (I 160) (at_ax 4)); G (Jcc CcA lab1); G (Mov (Some S4) (at_ax 4) (R S4 DX));
          G (Alu AAdd (Some S8) (at_ax 16) (R S8 DX)); G (Alu AAdd (Some S8) (I 16) (at_ax 4))].
Proof.
  intros d gp fp n Hg Hf EC EP EN Hn m e st EO HA HI. pose proof HI as (I1 & I2 & I3 & I4). pose proof EO as (E1 & E2 & E3 & E4 & _).
  destruct (cmp_ja sym 160 4 lab1 m (v_ap e) _ HA ltac:(lia) I2 ltac:(lia)) as (m1 & (S1 & S2 & S3) & J1).
  unfold stacked, ni, ns. rewrite EC. cbn [in_memory existsb cls_eqb orb count filter length].
  destruct (Nat.ltb_spec (6 - gp) 0); [lia|]. cbn [orb].
  destruct (Nat.ltb_spec (8 - fp) 1).
  - exists m1. split; [repeat split; assumption|]. intros k. cbn [app]. rewrite J1. destruct (Z.ltb_spec 160 (48 + 16 * Z.of_nat fp)); [reflexivity|lia].
  - intros val HD HCl HAr. rewrite EP in HAr. cbn [in_area] in HAr. destruct HAr as [HAr _].
    destruct (fetch sym true DX 1 m1 e gp fp st ltac:(auto) EO) as (m2 & J2 & Q1 & Q2 & Q3 & Q4).
    { rewrite S1. exact HA. } { rewrite S2. exact HI. } { lia. }
    unfold src_of in Q1. exists m2. split; [|split; [|split; [|split; [|split]]]].
    + intros k. cbn [app]. rewrite J1. destruct (Z.ltb_spec 160 (48 + 16 * Z.of_nat fp)); [lia|]. apply J2.
    + rewrite Q1. lia.
    + intros j Hj. rewrite EN in Hj. rewrite Q1. rewrite Q3, S2; [apply (HAr j Hj)|].
      destruct EO as (_ & _ & _ & _ & _ & _ & AP & _). unfold within, apart in *. lia.
    + intros q N1 N2. rewrite Q2 by exact N2. rewrite S1. reflexivity.
    + intros x X1 _. rewrite Q3 by exact X1. rewrite S2. reflexivity.
    + rewrite Nat.add_0_r, Nat.add_1_r. exact Q4.
Qed.
Lemma simple_gp : forall d gp fp i, (gp <= 6)%nat -> (fp <= 8)%nat ->
  (i = 1%nat /\ code_cls (l_ty d) = [Integer] /\ parts (l_ty d) = [(0, asize (l_ty d), false)] /\ asize (l_ty d) <= 8) \/
  (i = 2%nat /\ code_cls (l_ty d) = [Integer; Integer] /\ parts (l_ty d) = [(0, 8, false); (8, asize (l_ty d) - 8, false)] /\ asize (l_ty d) <= 16) ->
  regs_spec d gp fp [G (Alu ACmp (Some S4) (I (48 - 8 * Z.of_nat i)) (at_ax 0)); G (Jcc CcA lab1); G (Mov (Some S4) (at_ax 0) (R S4 DX));
          G (Alu AAdd (Some S8) (at_ax 16) (R S8 DX)); G (Alu AAdd (Some S8) (I (8 * Z.of_nat i)) (at_ax 0))].
Proof.
  intros d gp fp i Hg Hf HC m e st EO HA HI. pose proof HI as (I1 & I2 & I3 & I4). pose proof EO as (E1 & E2 & E3 & E4 & _).
  assert (Hi : i = 1%nat \/ i = 2%nat) by (destruct HC as [(-> & _)|(-> & _)]; auto).
  rewrite <- (Z.add_0_r (v_ap e)) in I1.
  destruct (cmp_ja sym (48 - 8 * Z.of_nat i) 0 lab1 m (v_ap e) _ HA ltac:(lia) I1 ltac:(lia)) as (m1 & (S1 & S2 & S3) & J1).
  assert (ST : stacked (l_ty d) gp fp = (6 - gp <? i)%nat /\ ni (l_ty d) = i /\ ns (l_ty d) = 0%nat).
  { unfold stacked, ni, ns. destruct HC as [(-> & -> & _)|(-> & -> & _)]; cbn [in_memory existsb cls_eqb orb count filter length];
      (destruct (Nat.ltb_spec (8 - fp) 0); [lia|]); rewrite orb_false_r; auto. }
  destruct ST as (-> & -> & ->).
  destruct (Nat.ltb_spec (6 - gp) i).
  - exists m1. split; [repeat split; assumption|]. intros k. cbn [app]. rewrite J1.
    destruct (Z.ltb_spec (48 - 8 * Z.of_nat i) (8 * Z.of_nat gp)); [reflexivity|lia].
  - intros val HD HCl HAr.
    destruct (fetch sym false DX i m1 e gp fp st ltac:(auto) EO) as (m2 & J2 & Q1 & Q2 & Q3 & Q4).
    { rewrite S1. exact HA. } { rewrite S2. exact HI. } { lia. }
    unfold src_of in Q1. exists m2. split; [|split; [|split; [|split; [|split]]]].
    + intros k. cbn [app]. rewrite J1. destruct (Z.ltb_spec (48 - 8 * Z.of_nat i) (8 * Z.of_nat gp)); [lia|]. apply J2.
    + rewrite Q1. lia.
    + intros j Hj. rewrite Q1. rewrite Q3, S2.
      2:{ destruct EO as (_ & _ & _ & _ & _ & _ & AP & _). unfold within, apart in *.
          assert (asize (l_ty d) <= 8 * Z.of_nat i) by (destruct HC as [(-> & _ & _ & ?)|(-> & _ & _ & ?)]; lia). lia. }
      destruct HC as [(-> & _ & EP & ES)|(-> & _ & EP & ES)]; rewrite EP in HAr; cbn [in_area] in HAr.
      * destruct HAr as [HAr _]. apply (HAr j Hj).
      * destruct HAr as (HA1 & HA2 & _). destruct (Z.lt_ge_cases j 8); [apply HA1; lia|].
        specialize (HA2 (j - 8) ltac:(lia)). replace (8 + (j - 8)) with j in HA2 by lia.
        replace (v_area e + 8 * Z.of_nat (S gp) + (j - 8)) with (v_area e + 8 * Z.of_nat gp + j) in HA2 by lia. exact HA2.
    + intros q N1 N2. rewrite Q2 by exact N2. rewrite S1. reflexivity.
    + intros x X1 _. rewrite Q3 by exact X1. rewrite S2. reflexivity.
    + rewrite Nat.add_0_r. exact Q4.
Qed.

(** A structure whose parts are saved apart. *)
Lemma copy_code : forall d gp fp n a ms, l_ty d = ARec n a ms -> argument (l_ty d) -> loc_ok d -> (gp <= 6)%nat -> (fp <= 8)%nat -> 8 < n <= 16 ->
  fpe (l_ty d) 0 = true \/ fpe (l_ty d) 1 = true ->
  exists r, gen_vaarg_reg_copy (l_ty d) (l_base d) (l_ofs d) = Ok r /\ nolab r = true /\ regs_spec d gp fp r.
Proof.
  intros d gp fp n a ms ET (N & Sz & _) (LB & LO1 & LO2) Hg Hf Hn HF. assert (IM : INT_MAX = 2147483647) by reflexivity.
  assert (IM2 : INT_MIN = -2147483648) by reflexivity.
  assert (SB : forall r, l_base d = BReg r -> ~ In r int_regs) by (intros r Er; rewrite Er in LB; exact LB).
  assert (SZ : asize (l_ty d) = n) by (rewrite ET; reflexivity).
  pose proof (cls_rec n a ms ltac:(lia)) as EC. assert (EP : parts (l_ty d) = (0, Z.min 8 n, fpe (l_ty d) 0) :: if 8 <? n then [(8, n - 8, fpe (l_ty d) 1)] else []) by (rewrite ET; reflexivity).
  assert (H1 : has_flonum1 (l_ty d) = Ok (fpe (l_ty d) 0)) by (rewrite ET in *; apply has1; assumption).
  assert (H2 : has_flonum2 (l_ty d) = Ok (fpe (l_ty d) 1)) by (rewrite ET in *; apply has2; assumption).
  rewrite <- ET in EC. destruct (Z.ltb_spec 8 n); [|lia].
  set (f1 := fpe (l_ty d) 0) in *. set (f2 := fpe (l_ty d) 1) in *. clearbody f1 f2. rewrite SZ in LO2.
  rewrite Z.min_l in EP by lia.
  destruct (chunk_copy sym (l_base d) (l_ofs d) 8 SB ltac:(lia)) as (c1 & G1 & L1 & K1).
  destruct (chunk_copy sym (l_base d) (8 + l_ofs d) (n - 8) SB ltac:(lia)) as (c2 & G2 & L2 & K2).
  unfold gen_vaarg_reg_copy. rewrite H1, H2. cbn [bind]. rewrite SZ.
  replace (S (Z.to_nat n)) with (S (S (S (Z.to_nat n - 2)))) by lia. cbn [vaarg_copy_loop]. rewrite SZ.
  destruct (Z.ltb_spec 0 n); [|lia]. change (0 =? 0) with true. cbv iota. rewrite H1. cbn [bind]. rewrite Z.add_0_l, int_ok by lia. cbn [bind].
  rewrite Z.sub_0_r, Z.min_l by lia. rewrite int_conv_nn by lia. rewrite G1. cbn [bind]. rewrite int_ok by lia. cbn [bind]. change (0 + 8) with 8. rewrite ?SZ.
  destruct (Z.ltb_spec 8 n); [|lia]. change (8 =? 0) with false. cbv iota. rewrite H2. cbn [bind]. rewrite int_ok by lia. cbn [bind].
  rewrite Z.min_r by lia. rewrite int_conv_nn by lia. rewrite G2. cbn [bind]. rewrite int_ok by lia. cbn [bind]. change (8 + 8) with 16. rewrite ?SZ.
  destruct (Z.ltb_spec 16 n); [lia|]. cbn [bind].
  fold (pre f1). fold (pre f2).
  assert (LP : forall f, nolab (pre f) = true) by (destruct f; reflexivity).
  eexists. split; [reflexivity|]. split.
  { rewrite !nolab_app, !LP, L1, L2. destruct (_ =? 0); reflexivity. }
  intros m e st EO HA HI. pose proof HI as (I1 & I2 & I3 & I4). pose proof EO as (E1 & E2 & E3 & E4 & E5 & E6 & _).
  set (gi := b2z (negb f1) + b2z (negb f2)). set (fi := b2z f1 + b2z f2).
  assert (CN : ni (l_ty d) = Z.to_nat gi /\ ns (l_ty d) = Z.to_nat fi /\ in_memory (code_cls (l_ty d)) = false).
  { unfold ni, ns. rewrite EC. unfold gi, fi. destruct f1, f2; repeat split; reflexivity. }
  destruct CN as (CN1 & CN2 & CN3).
  assert (GF : 0 <= gi <= 1 /\ fi = 2 - gi) by (unfold gi, fi; destruct f1, f2; cbn [b2z negb]; intuition (try lia; try discriminate)).
  (* the two tests *)
  assert (T1 : exists m1, same m m1 /\ forall k, xj ((if gi =? 0 then [] else [G (Alu ACmp (Some S4) (I (48 - gi * 8)) (at_ax 0)); G (Jcc CcA lab1)]) ++ k) None m =
                 xj k (if (gi =? 1) && (Nat.eqb gp 6) then Some lab1 else None) m1).
  { destruct (Z.eqb_spec gi 0) as [Z0|Z0].
    - exists m. split; [repeat split; reflexivity|]. intros k. rewrite Z0. reflexivity.
    - assert (Gi : gi = 1) by lia. rewrite Gi. rewrite <- (Z.add_0_r (v_ap e)) in I1.
      destruct (cmp_ja sym 40 0 lab1 m (v_ap e) _ HA ltac:(lia) I1 ltac:(lia)) as (m1 & S1 & J1).
      exists m1. split; [exact S1|]. intros k. change (48 - 1 * 8) with 40. cbn [app]. rewrite J1. change (1 =? 1) with true. cbn [andb].
      destruct (Nat.eqb_spec gp 6), (Z.ltb_spec 40 (8 * Z.of_nat gp)); try reflexivity; lia. }
  destruct T1 as (m1 & (S1 & S2 & S3) & J1).
  assert (HA1 : rg (im m1) AX = v_ap e) by (rewrite S1; exact HA). assert (HI1 : inv e gp fp st (mm (im m1))) by (rewrite S2; exact HI).
  destruct (cmp_ja sym (176 - fi * 16) 4 lab1 m1 (v_ap e) (48 + 16 * Z.of_nat fp) HA1 ltac:(lia)) as (m2 & (U4 & U5 & U6) & J2).
  { rewrite S2. exact I2. } { lia. }
  assert (ST : stacked (l_ty d) gp fp = ((gi =? 1) && Nat.eqb gp 6) || (176 - fi * 16 <? 48 + 16 * Z.of_nat fp)).
  { unfold stacked. rewrite CN1, CN2, CN3. cbn [orb]. f_equal.
    - destruct (Nat.ltb_spec (6 - gp) (Z.to_nat gi)), (Z.eqb_spec gi 1), (Nat.eqb_spec gp 6); cbn [andb]; try reflexivity; lia.
    - destruct (Nat.ltb_spec (8 - fp) (Z.to_nat fi)), (Z.ltb_spec (176 - fi * 16) (48 + 16 * Z.of_nat fp)); try reflexivity; lia. }
  rewrite ST.
  destruct ((gi =? 1) && Nat.eqb gp 6) eqn:B1; cbn [orb].
  { exists m1. split; [repeat split; assumption|]. intros k. rewrite <- app_assoc, J1.
    apply xj_skip. rewrite !nolab_app, !LP, L1, L2. reflexivity. }
  assert (J12 : forall k, xj ((([G (Alu ACmp (Some S4) (I (176 - fi * 16)) (at_ax 4)); G (Jcc CcA lab1)] ++
      (pre f1 ++ c1 ++ pre f2 ++ c2 ++ []) ++ [G (Lea (l_base d) (l_ofs d) (R S8 DX))]) ++ k)) None m1 =
      xj (((pre f1 ++ c1 ++ pre f2 ++ c2 ++ []) ++ [G (Lea (l_base d) (l_ofs d) (R S8 DX))]) ++ k)
         (if 176 - fi * 16 <? 48 + 16 * Z.of_nat fp then Some lab1 else None) m2).
  { intros k. apply (J2 (((pre f1 ++ c1 ++ pre f2 ++ c2 ++ []) ++ [G (Lea (l_base d) (l_ofs d) (R S8 DX))]) ++ k)). }
  destruct (Z.ltb_spec (176 - fi * 16) (48 + 16 * Z.of_nat fp)) as [JA|JN].
  { exists m2. split. { split; [congruence|]. split; congruence. }
    intros k. rewrite <- app_assoc, J1, J12. apply xj_skip. rewrite !nolab_app, !LP, L1, L2. reflexivity. }
  intros val HD (CL1 & CL2 & CL3) HAr. rewrite SZ in CL1, CL2, CL3. unfold located in HD. rewrite SZ in HD. destruct HD as (HD1 & HD2 & HD3).
  unfold apart in CL1, CL2.
  assert (HA2 : rg (im m2) AX = v_ap e) by (rewrite U4; exact HA1). assert (HI2 : inv e gp fp st (mm (im m2))) by (rewrite U5; exact HI1).
  assert (R12 : forall q, rg (im m2) q = rg (im m) q) by (intros q; rewrite U4, S1; reflexivity).
  assert (M12 : forall x, mm (im m2) x = mm (im m) x) by (intros q; rewrite U5, S2; reflexivity).
  apply andb_false_iff in B1.
  assert (BG : gi = 1 -> (gp < 6)%nat). { intros Gi. destruct B1 as [B1|B1]; [apply Z.eqb_neq in B1; lia|apply Nat.eqb_neq in B1; lia]. }
  assert (BF : (fp + Z.to_nat fi <= 8)%nat) by lia.
  assert (HB : forall mx, (forall q, q <> CX -> q <> DX -> rg (im mx) q = rg (im m) q) -> forall o, (match l_base d with BReg r => rg (im mx) r | BSym s => sym s end) + o =
               (match l_base d with BReg r => rg (im m) r | BSym s => sym s end) + o).
  { intros mx Hmx o. destruct (l_base d) as [r|s]; [|reflexivity]. f_equal. apply Hmx; intros ->; apply (SB _ eq_refl); cbn; auto 6. }
  destruct (K1 f1 m2 e gp fp st (l_addr d) EO HA2 HI2) as (m3 & J3 & P3 & Q3 & R3 & I3').
  { unfold gi, fi in *. destruct f1, f2; cbn [b2z negb] in *; lia. }
  { split; [rewrite HB by (intros; apply R12); exact HD1|lia]. }
  { unfold apart. lia. } { unfold apart. lia. }
  set (g3 := fst (up f1 gp fp)) in *. set (h3 := snd (up f1 gp fp)) in *.
  assert (HA3 : rg (im m3) AX = v_ap e) by (rewrite R3 by discriminate; exact HA2).
  destruct (K2 f2 m3 e g3 h3 st (l_addr d + 8) EO HA3 I3') as (m4 & J4 & P4 & Q4 & R4 & I4').
  { unfold g3, h3, up, gi, fi in *. destruct f1, f2; cbn [b2z negb fst snd] in *; lia. }
  { split; [|lia]. rewrite HB. - rewrite HD1. lia. - intros q N1 N2. rewrite R3 by assumption. apply R12. }
  { unfold apart. lia. } { unfold apart. lia. }
  destruct (lea_ok sym (l_base d) (l_ofs d) DX m4 (l_addr d)) as (m5 & (D1 & D2 & D3 & _) & J5).
  { split; [|lia]. rewrite HB; [exact HD1|]. intros q N1 N2. rewrite R4, R3 by assumption. apply R12. }
  { lia. }
  rewrite EP in HAr.
  assert (AP : apart (v_ap e) 24 (v_area e) 176) by apply EO. unfold apart in AP.
  assert (IA : forall k, (0 <= k < 8 -> byte_eq (mm (im m) (src_of e f1 gp fp + k)) (val k)) /\
     (0 <= k < n - 8 -> byte_eq (mm (im m) (src_of e f2 g3 h3 + k)) (val (8 + k)))).
  { intros k. unfold src_of, g3, h3, up. destruct f1, f2; cbn [in_area fst snd] in *; destruct HAr as (X1 & X2 & _);
      (split; intros Hk; [apply (X1 k Hk)|apply (X2 k Hk)]). }
  assert (SR1 : v_area e <= src_of e f1 gp fp /\ src_of e f1 gp fp + 8 <= v_area e + 176).
  { unfold src_of, gi, fi in *. destruct f1, f2; cbn [b2z negb] in *; lia. }
  assert (SR2 : v_area e <= src_of e f2 g3 h3 /\ src_of e f2 g3 h3 + 8 <= v_area e + 176).
  { unfold src_of, g3, h3, up, gi, fi in *. destruct f1, f2; cbn [b2z negb fst snd] in *; lia. }
  exists m5. split; [|split; [|split; [|split; [|split]]]].
  - intros k. rewrite <- app_assoc, J1, J12. rewrite <- !app_assoc. rewrite J3, J4. cbn [app]. apply J5.
  - rewrite D1. lia.
  - intros j Hj. rewrite SZ in Hj. rewrite D1, D3. destruct (Z.lt_ge_cases j 8).
    + rewrite Q4 by (unfold within; lia).
      eapply eq_trans; [apply P3; lia|]. rewrite M12. apply IA. lia.
    + replace (l_addr d + j) with (l_addr d + 8 + (j - 8)) by lia. eapply eq_trans; [apply P4; lia|].
      rewrite Q3 by (unfold within; lia). rewrite M12. eapply eq_trans; [apply IA; lia|]. f_equal. f_equal. lia.
  - intros q N1 N2. rewrite D2, R4, R3 by assumption. apply R12.
  - intros x X1 X2. unfold outside in X2. rewrite SZ in X2. rewrite D3, Q4, Q3 by (try exact X1; unfold within; lia). apply M12.
  - rewrite D3. replace (gp + ni (l_ty d))%nat with (fst (up f2 g3 h3)). replace (fp + ns (l_ty d))%nat with (snd (up f2 g3 h3)). exact I4'.
    all: rewrite ?CN1, ?CN2; unfold g3, h3, up, gi, fi; destruct f1, f2; cbn [b2z negb fst snd]; change (Z.to_nat (0 + 0)) with 0%nat; lia.
Qed.

Lemma regs_code : forall d gp fp, argument (l_ty d) -> loc_ok d -> (gp <= 6)%nat -> (fp <= 8)%nat -> asize (l_ty d) <= 16 -> l_ty d <> ALdouble ->
  exists r, va_arg_regs (l_ty d) (l_base d) (l_ofs d) = Ok r /\ nolab r = true /\ regs_spec d gp fp r.
Proof.
  intros d gp fp A LO Hg Hf H16 NL. pose proof A as (N & Sz & Ar). unfold va_arg_regs, va_arg_need_copy.
  destruct (l_ty d) as [u n| | | |n|n a ms|n b] eqn:ET; try congruence.
  - pose proof (nat_gp _ _ N) as Hn. cbn [asize] in *. destruct (Z.ltb_spec 8 n); [lia|]. cbn [andb bind].
    change (has_flonum1 (AGp u n)) with (Ok false). cbn [bind].
    eexists. split; [reflexivity|]. split; [reflexivity|]. apply (simple_gp d gp fp 1 Hg Hf). left. rewrite ET.
    split; [reflexivity|]. split; [apply (cls_gp _ _ N)|]. split; [reflexivity|exact ltac:(cbn [asize]; lia)].
  - cbn [asize]. cbn [Z.ltb Z.compare Pos.compare Pos.compare_cont andb bind]. change (has_flonum1 AFloat) with (Ok true). cbn [bind].
    eexists. split; [reflexivity|]. split; [reflexivity|]. apply (simple_fp d gp fp 4 Hg Hf); rewrite ?ET; try reflexivity; lia.
  - cbn [asize]. cbn [Z.ltb Z.compare Pos.compare Pos.compare_cont andb bind]. change (has_flonum1 ADouble) with (Ok true). cbn [bind].
    eexists. split; [reflexivity|]. split; [reflexivity|]. apply (simple_fp d gp fp 8 Hg Hf); rewrite ?ET; try reflexivity; lia.
  - destruct N.
  - cbn [asize] in *. pose proof (cls_rec n a ms ltac:(lia)) as EC. rewrite !(has1 _ _ _ N). rewrite !(has2 _ _ _ N).
    assert (EP : parts (l_ty d) = (0, Z.min 8 n, fpe (l_ty d) 0) :: if 8 <? n then [(8, n - 8, fpe (l_ty d) 1)] else []) by (rewrite ET; reflexivity).
    rewrite ET in EP.
    destruct (Z.ltb_spec 8 n) as [G8|L8]; cbn [andb].
    + destruct (Z.leb_spec n 16); [|lia]. cbn [bind].
      assert (HCp : fpe (l_ty d) 0 = true \/ fpe (l_ty d) 1 = true ->
                exists r, gen_vaarg_reg_copy (ARec n a ms) (l_base d) (l_ofs d) = Ok r /\ nolab r = true /\ regs_spec d gp fp r).
      { intros HF. rewrite <- ET. apply (copy_code d gp fp n a ms ET); [rewrite ET; exact A|exact LO|exact Hg|exact Hf|lia|exact HF]. }
      rewrite ET in HCp.
      destruct (fpe (ARec n a ms) 0) eqn:F0; cbn [bind]; [apply HCp; auto|].
      destruct (fpe (ARec n a ms) 1) eqn:F1; cbn [bind]; [apply HCp; auto|].
      eexists. split; [reflexivity|]. split; [reflexivity|]. apply (simple_gp d gp fp 2 Hg Hf). right. rewrite ET.
      split; [reflexivity|]. split; [exact EC|]. cbn [asize]. split; [rewrite EP, Z.min_l by lia; reflexivity|lia].
    + cbn [bind]. destruct (fpe (ARec n a ms) 0) eqn:F0; cbn [bind].
      * eexists. split; [reflexivity|]. split; [reflexivity|]. apply (simple_fp d gp fp n Hg Hf); rewrite ?ET; try assumption; try reflexivity.
        rewrite EP, Z.min_r by lia. reflexivity.
      * eexists. split; [reflexivity|]. split; [reflexivity|]. apply (simple_gp d gp fp 1 Hg Hf). left. rewrite ET.
        split; [reflexivity|]. split; [exact EC|]. cbn [asize]. split; [rewrite EP, Z.min_r by lia; reflexivity|lia].
  - destruct Ar.
Qed.
End Run.
