From Coq Require Import ZArith List Bool Lia.
From Verif Require Import Base BitLemmas X86 Sse MemSpec MemModel MemProofs CgLemmas FrameModel CallSpec CallModel CallProofs CallClass CallPlan CallRun CallEnd VaModel VaSpec VaProofs VaStep VaEnd.
Import ListNotations.
Local Open Scope Z_scope.
Local Opaque natural.

Lemma stack_code_ex : forall t, argument t -> asize t + 8 + aalign t <= INT_MAX -> exists s, va_arg_stack t = Ok s /\ nolab s = true.
Proof.
  intros t (N & Sz & _) HB. assert (IM : INT_MAX = 2147483647) by reflexivity. pose proof (pow2_pos _ (align_pow2 t N)).
  unfold va_arg_stack. rewrite int_conv_nn, align_to_ok by lia. cbn [bind].
  destruct (aalign t <=? 8); eexists; (split; [reflexivity|reflexivity]).
Qed.

Lemma stacked_mem : forall t gp fp, in_memory (code_cls t) = true -> stacked t gp fp = true.
Proof. intros t gp fp H. unfold stacked. rewrite H. reflexivity. Qed.

Section Run.
Variable sym : nat -> Z.
Notation xj := (xjrun sym).

Lemma xj_lab : forall l k m, xj (G (Lab l) :: k) None m = xj k None m.
Proof. reflexivity. Qed.
Lemma xj_jmp : forall l k m, xj (G (Jmp l) :: k) None m = xj k (Some l) m.
Proof. reflexivity. Qed.
Lemma xj_far : forall l l' k m, xj (G (Lab l) :: k) (Some l') m = xj k (if label_eqb l' l then None else Some l') m.
Proof. intros. cbn [xjrun]. destruct (label_eqb l' l) eqn:E; reflexivity. Qed.

Lemma xj_far0 : forall l l' k m, xj (G (Jmp l) :: k) (Some l') m = xj k (Some l') m.
Proof. reflexivity. Qed.
Lemma L11 : label_eqb lab1 lab1 = true. Proof. reflexivity. Qed.
Lemma L21 : label_eqb lab2 lab1 = false. Proof. reflexivity. Qed.
Lemma L22 : label_eqb lab2 lab2 = true. Proof. reflexivity. Qed.

Definition held1 (e : venv) (f : Z -> Z) (t : aty) (p : pst) (val : Z -> Z) : Prop :=
  if stacked t (p_gp p) (p_fp p)
  then forall j, 0 <= j < asize t -> byte_eq (f (v_stk e + slot_of t p + j)) (val j)
  else in_area e f (parts t) (p_gp p) (p_fp p) val.

Lemma va_step : forall d p e, argument (l_ty d) -> loc_ok d -> p_ok p -> env_ok e -> asize (l_ty d) + 8 + aalign (l_ty d) <= INT_MAX ->
  (stacked (l_ty d) (p_gp p) (p_fp p) = true -> slot_of (l_ty d) p + round_up (asize (l_ty d)) 8 <= v_len e /\ v_stk e mod aalign (l_ty d) = 0) ->
  exists c, va_arg (l_ty d) (l_base d) (l_ofs d) = Ok c /\
  forall m val, rg (im m) AX = v_ap e -> inv e (p_gp p) (p_fp p) (p_st p) (mm (im m)) -> located sym (im m) d -> clear e d ->
    held1 e (mm (im m)) (l_ty d) p val ->
  exists m', xj c None m = Some (None, m') /\
    (forall j, 0 <= j < asize (l_ty d) -> byte_eq (mm (im m') (rg (im m') AX + j)) (val j)) /\
    (forall x, ~ within x (v_ap e) 24 -> outside x d -> mm (im m') x = mm (im m) x) /\
    (forall q, ~ In q [AX; CX; DX] -> rg (im m') q = rg (im m) q) /\
    let p' := pstep (l_ty d) p in inv e (p_gp p') (p_fp p') (p_st p') (mm (im m')).
Proof.
  intros d p e A LO K EO HB HS. pose proof A as (N & Sz & _). pose proof K as (K0 & K8 & Kg & Kf & _).
  destruct (slot_ok _ p N K) as (S1 & S2 & S3 & _).
  destruct (round_up_spec (asize (l_ty d)) 8 ltac:(lia)) as [RU1 RU2].
  pose proof EO as (E1 & E2 & E3 & E4 & E5 & E6 & E7 & E8). unfold apart in E7, E8.
  destruct (stack_code_ex _ A HB) as (s & Es & Ls). unfold va_arg. rewrite Es. cbn [bind].
  assert (SC : stacked (l_ty d) (p_gp p) (p_fp p) = true -> forall m val, rg (im m) AX = v_ap e -> inv e (p_gp p) (p_fp p) (p_st p) (mm (im m)) ->
     held1 e (mm (im m)) (l_ty d) p val ->
     exists m', (forall k, xj (s ++ k) None m = xj k None m') /\ 0 <= rg (im m') DX < 2 ^ 64 /\
      (forall j, 0 <= j < asize (l_ty d) -> byte_eq (mm (im m') (rg (im m') DX + j)) (val j)) /\ regs_kept m m' /\
      (forall x, ~ within x (v_ap e) 24 -> mm (im m') x = mm (im m) x) /\
      let p' := pstep (l_ty d) p in inv e (p_gp p') (p_fp p') (p_st p') (mm (im m'))).
  { intros ST m val HA HI HH. destruct (HS ST) as [HS1 HS2].
    destruct (stack_code sym (l_ty d) p e A K EO HB HS1 HS2) as (s' & Es' & _ & KS). assert (s' = s) by congruence. subst s'.
    destruct (KS m _ _ HA HI) as (m' & J & Q1 & Q2 & Q3 & Q4). exists m'. split; [exact J|]. rewrite Q1.
    split; [lia|]. split; [|split; [exact Q2|split; [exact Q3|]]].
    - intros j Hj. rewrite Q3 by (unfold within; lia). unfold held1 in HH. rewrite ST in HH. apply HH, Hj.
    - cbv zeta. unfold pstep. rewrite ST. cbn [p_gp p_fp p_st]. exact Q4. }
  assert (USE : (asize (l_ty d) <=? 16) && match l_ty d with ALdouble => false | _ => true end = true ->
     asize (l_ty d) <= 16 /\ l_ty d <> ALdouble).
  { intros H. apply andb_prop in H. destruct H as [H1 H2]. apply Z.leb_le in H1. split; [exact H1|]. intros EL. rewrite EL in H2. discriminate. }
  assert (NUSE : (asize (l_ty d) <=? 16) && match l_ty d with ALdouble => false | _ => true end = false -> stacked (l_ty d) (p_gp p) (p_fp p) = true).
  { intros H. apply stacked_mem. apply andb_false_iff in H. unfold code_cls. destruct H as [H|H].
    - apply Z.leb_gt in H. assert (HT : (16 <? asize (l_ty d)) = true) by (apply Z.ltb_lt; exact H). rewrite HT. destruct (l_ty d); reflexivity.
    - destruct (l_ty d); try discriminate. reflexivity. }
  destruct ((asize (l_ty d) <=? 16) && _) eqn:EU.
  - destruct (USE eq_refl) as [U1 U2]. destruct (regs_code sym d (p_gp p) (p_fp p) A LO Kg Kf U1 U2) as (r & Er & Lr & KR).
    rewrite Er. cbn [bind]. eexists. split; [reflexivity|]. intros m val HA HI HD HC HH.
    specialize (KR m e (p_st p) EO HA HI). destruct (stacked (l_ty d) (p_gp p) (p_fp p)) eqn:ST.
    + destruct KR as (m1 & (A1 & A2 & A3) & J1).
      destruct (SC eq_refl m1 val) as (m2 & J2 & B1 & B2 & B3 & B4 & B5); [rewrite A1; exact HA|rewrite A2; exact HI|rewrite A2; exact HH|].
      destruct (movr sym DX AX None m2 _ ltac:(auto) eq_refl B1) as (m3 & (C1 & C2 & C3 & _) & J3).
      exists m3. split; [|split; [|split; [|split]]].
      * rewrite J1. cbn [app]. rewrite xj_far0.
        rewrite xj_far. rewrite L11, J2, xj_lab, J3. reflexivity.
      * intros j Hj. rewrite C1, C3. apply B2, Hj.
      * intros x X1 _. rewrite C3, B4 by exact X1. rewrite A2. reflexivity.
      * intros q Hq. rewrite C2, B3, A1 by (intros ->; apply Hq; cbn; auto). reflexivity.
      * rewrite C3. exact B5.
    + unfold held1 in HH. rewrite ST in HH. destruct (KR val HD HC HH) as (m2 & J2 & B1 & B2 & B3 & B4 & B5).
      destruct (movr sym DX AX None m2 _ ltac:(auto) eq_refl B1) as (m3 & (C1 & C2 & C3 & _) & J3).
      exists m3. split; [|split; [|split; [|split]]].
      * rewrite J2. cbn [app]. rewrite xj_jmp, xj_far, L21, (xj_skip _ _ _ _ _ Ls), xj_far, L22, J3. reflexivity.
      * intros j Hj. rewrite C1, C3. apply B2, Hj.
      * intros x X1 X2. rewrite C3. apply B4; assumption.
      * intros q Hq. rewrite C2, B3 by (intros ->; apply Hq; cbn; auto). reflexivity.
      * rewrite C3. cbv zeta. unfold pstep. rewrite ST. cbn [p_gp p_fp p_st]. exact B5.
  - specialize (NUSE eq_refl). eexists. split; [reflexivity|]. intros m val HA HI HD HC HH.
    destruct (SC NUSE m val HA HI HH) as (m2 & J2 & B1 & B2 & B3 & B4 & B5).
    destruct (movr sym DX AX None m2 _ ltac:(auto) eq_refl B1) as (m3 & (C1 & C2 & C3 & _) & J3).
    exists m3. split; [|split; [|split; [|split]]].
    + rewrite J2, J3. reflexivity.
    + intros j Hj. rewrite C1, C3. apply B2, Hj.
    + intros x X1 _. rewrite C3, B4 by exact X1. reflexivity.
    + intros q Hq. rewrite C2, B3 by (intros ->; apply Hq; cbn; auto). reflexivity.
    + rewrite C3. exact B5.
Qed.

(** ** One after the other *)
Fixpoint held (e : venv) (f : Z -> Z) (l : list (loc * (Z -> Z))) (p : pst) : Prop :=
  match l with
  | [] => True
  | (d, val) :: r => held1 e f (l_ty d) p val /\ held e f r (pstep (l_ty d) p)
  end.
Lemma in_area_same : forall e f g l gp fp val, (forall x, within x (v_area e) 176 -> g x = f x) ->
  Forall (fun q => snd (fst q) <= 8) l -> (gp + gpar l <= 6)%nat -> (fp + fpar l <= 8)%nat -> in_area e f l gp fp val -> in_area e g l gp fp val.
Proof.
  intros e f g. induction l as [|[[o n] fl] r IH]; intros gp fp val H FP G F C; [exact Logic.I|].
  inversion FP as [|? ? P1 P2]; subst. cbn [fst snd] in P1. unfold gpar, fpar in *.
  destruct fl; cbn [filter snd negb length in_area] in *; destruct C as [C1 C2]; (split; [|apply IH; try assumption; lia]).
  - intros k Hk. rewrite H by (unfold within; lia). apply C1, Hk.
  - intros k Hk. rewrite H by (unfold within; lia). apply C1, Hk.
Qed.
Lemma parts_small : forall t, argument t -> in_memory (code_cls t) = false -> Forall (fun q => snd (fst q) <= 8) (parts t).
Proof.
  intros t (N & Sz & Ar) IMm. destruct t as [u n| | | |n|n a ms|n b]; cbn [parts]; try (apply Forall_cons; [cbn [fst snd asize]; try lia|apply Forall_nil]).
  - apply nat_gp in N. lia.
  - discriminate.
  - destruct N.
  - cbn [asize] in Sz. assert (n <= 16). { unfold code_cls in IMm. cbn [asize] in IMm. destruct (Z.ltb_spec 16 n); [discriminate|lia]. }
    apply Forall_cons; [cbn [fst snd]; lia|]. destruct (8 <? n); [apply Forall_cons; [cbn [fst snd]; lia|]|]; apply Forall_nil.
Qed.
Lemma not_stacked : forall t gp fp, argument t -> (gp <= 6)%nat -> (fp <= 8)%nat -> stacked t gp fp = false ->
  in_memory (code_cls t) = false /\ (gp + gpar (parts t) <= 6)%nat /\ (fp + fpar (parts t) <= 8)%nat /\ Forall (fun q => snd (fst q) <= 8) (parts t).
Proof.
  intros t gp fp A Hg Hf E. unfold stacked in E. apply orb_false_elim in E. destruct E as [E E3]. apply orb_false_elim in E. destruct E as [E1 E2].
  apply Nat.ltb_ge in E2, E3. destruct (parts_count t A E1) as [-> ->]. split; [exact E1|]. split; [lia|]. split; [lia|]. apply parts_small; assumption.
Qed.
Lemma pend_st : forall ts p, Forall argument ts -> p_ok p -> p_st p <= p_st (pend ts p).
Proof. intros ts p F K. apply (plan_bounds ts p F K). Qed.
Lemma held1_same : forall e f g t p val, argument t -> p_ok p -> (stacked t (p_gp p) (p_fp p) = true -> slot_of t p + asize t <= v_len e) ->
  (forall x, within x (v_area e) 176 \/ within x (v_stk e) (v_len e) -> g x = f x) -> held1 e f t p val -> held1 e g t p val.
Proof.
  intros e f g t p val A K HL H C. pose proof K as (K0 & K8 & Kg & Kf & _). pose proof A as (N & _). destruct (slot_ok t p N K) as (S1 & _).
  unfold held1 in *. destruct (stacked t (p_gp p) (p_fp p)) eqn:ST.
  - specialize (HL eq_refl). intros j Hj. rewrite H by (right; unfold within; lia). apply C, Hj.
  - destruct (not_stacked t _ _ A Kg Kf ST) as (_ & G & F & P). eapply in_area_same; try eassumption. intros x Hx. apply H. auto.
Qed.
Lemma step_slot : forall t p, argument t -> p_ok p -> stacked t (p_gp p) (p_fp p) = true ->
  slot_of t p + round_up (asize t) 8 = p_st (pstep t p) /\ asize t <= round_up (asize t) 8.
Proof.
  intros t p (N & Sz & _) K ST. unfold pstep. rewrite ST. cbn [p_st]. split; [reflexivity|]. apply (round_up_spec (asize t) 8). lia.
Qed.
Lemma held_same : forall e f g l p, Forall argument (map (fun q => l_ty (fst q)) l) -> p_ok p ->
  p_st (pend (map (fun q => l_ty (fst q)) l) p) <= v_len e ->
  (forall x, within x (v_area e) 176 \/ within x (v_stk e) (v_len e) -> g x = f x) -> held e f l p -> held e g l p.
Proof.
  intros e f g. induction l as [|[d val] r IH]; intros p F K HL H C; [exact Logic.I|].
  cbn [map fst] in *. inversion F as [|? ? A Fr]; subst. cbn [pend fold_left] in HL. fold (pend (map (fun q => l_ty (fst q)) r) (pstep (l_ty d) p)) in HL.
  destruct C as [C1 C2]. pose proof (step_ok _ p A K) as K'. pose proof (pend_st _ _ Fr K') as PE. split.
  - eapply held1_same; try eassumption. intros ST. destruct (step_slot _ _ A K ST). lia.
  - apply IH; assumption.
Qed.

Lemma deliver_ok : forall e l p m, let ts := map (fun q => l_ty (fst q)) l in Forall argument ts -> Forall loc_ok (map fst l) -> stack_bytes ts <= INT_MAX ->
  p_ok p -> env_ok e -> p_st (pend ts p) <= v_len e -> v_stk e mod p_al (pend ts p) = 0 ->
  inv e (p_gp p) (p_fp p) (p_st p) (mm (im m)) -> held e (mm (im m)) l p -> delivers sym e l m.
Proof.
  intros e. induction l as [|[d val] r IH]; intros p m ts F FL SB K EO HL HM HI HH; [exact Logic.I|].
  unfold ts in *. clear ts. cbn [map fst] in *. inversion F as [|? ? A Fr]; subst. inversion FL as [|? ? LO FLr]; subst.
  destruct (plan_bounds (l_ty d :: map (fun q => l_ty (fst q)) r) p F K) as (_ & _ & _ & PB).
  destruct (plan_bounds (l_ty d :: map (fun q => l_ty (fst q)) r) p F K) as (_ & _ & (_ & _ & _ & _ & PA16 & PAp) & _).
  cbn [pend fold_left] in *. set (rs := map (fun q => l_ty (fst q)) r) in *. fold (pend rs (pstep (l_ty d) p)) in *.
  cbn [stack_bytes] in SB. pose proof (stack_bytes_pos rs Fr) as SBr.
  pose proof (step_ok _ p A K) as K'. pose proof (pend_st _ _ Fr K') as PE.
  destruct HH as [HH1 HH2]. pose proof A as (N & Sz & _). pose proof (pow2_pos _ (align_pow2 _ N)) as P1.
  cbn [delivers].
  assert (SLOT : stacked (l_ty d) (p_gp p) (p_fp p) = true ->
     slot_of (l_ty d) p + round_up (asize (l_ty d)) 8 <= v_len e /\ v_stk e mod aalign (l_ty d) = 0).
  { intros ST. destruct (step_slot _ _ A K ST) as [SS _]. split; [lia|].
    specialize (PB 0%nat (l_ty d) (slot_of (l_ty d) p) eq_refl). cbn [plan nth_error] in PB. unfold pdest in PB. rewrite ST in PB.
    destruct (PB eq_refl) as (_ & _ & _ & PM). eapply mod_trans; [| |exact HM|exact PM]; lia. }
  destruct (va_step d p e A LO K EO ltac:(lia) SLOT) as (c & E & KC).
  exists c. split; [exact E|]. intros m1 UT HA HD HC.
  destruct (KC m1 val HA) as (m2 & R & Q1 & Q2 & Q3 & Q4).
  { eapply inv_beq; [exact HI|]. intros x Hx. rewrite UT by auto. reflexivity. }
  { exact HD. } { exact HC. }
  { eapply held1_same; [exact A|exact K| | |exact HH1].
    - intros ST. destruct (SLOT ST). destruct (step_slot _ _ A K ST). lia.
    - intros x Hx. apply UT. tauto. }
  exists m2. split; [exact R|]. split; [exact Q1|]. split; [exact Q2|]. split; [exact Q3|].
  apply (IH (pstep (l_ty d) p) m2); try assumption; [lia|].
  eapply held_same; [exact Fr|exact K'|exact HL| |exact HH2].
  pose proof EO as (E1 & E2 & E3 & E4 & E5 & E6 & E7 & E8). destruct HC as (C1 & C2 & C3). unfold apart in *.
  intros x Hx. rewrite Q2; [apply UT; tauto| |]; unfold within, outside in *; lia.
Qed.
End Run.
