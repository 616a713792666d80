From Coq Require Import ZArith List Bool Lia.
From Verif Require Import Base BitLemmas X86 Sse MemSpec MemModel MemProofs CgLemmas FrameModel CallSpec CallModel CallProofs CallClass CallPlan CallRun CallEnd VaModel VaSpec VaProofs VaStep VaEnd VaMain VaSave.
Import ListNotations.
Local Open Scope Z_scope.
Local Opaque natural.

Lemma carried_suffix : forall m a b p f, all_carried m (a ++ b) p f -> all_carried m b (pend (map l_ty a) p) f.
Proof. intros m. induction a as [|s a IH]; intros b p f H; [exact H|]. cbn [all_carried app map pend fold_left] in *. destruct H. apply IH. assumption. Qed.
Lemma pend_bytes : forall ts p, Forall argument ts -> p_ok p -> p_st p <= p_st (pend ts p) /\ p_st (pend ts p) <= p_st p + stack_bytes ts.
Proof.
  induction ts as [|t r IH]; intros p F K; [cbn; lia|]. inversion F as [|? ? A Fr]; subst.
  cbn [pend fold_left stack_bytes]. fold (pend r (pstep t p)). pose proof (IH _ Fr (step_ok t p A K)). pose proof (step_bytes t p A K). lia.
Qed.
Lemma fp_mono : forall ts p, (p_fp p <= p_fp (pend ts p))%nat.
Proof.
  induction ts as [|t r IH]; intros p; [cbn; lia|]. cbn [pend fold_left]. fold (pend r (pstep t p)). specialize (IH (pstep t p)).
  unfold pstep in IH at 1. destruct (stacked t (p_gp p) (p_fp p)); cbn [p_fp] in IH; lia.
Qed.
Lemma to_area : forall m0 m1 m e L, L = v_area e + 176 -> forall l gp fp val,
  Forall (fun q => snd (fst q) <= 8) l ->
  (forall i, (gp <= i < gp + gpar l)%nat -> gp_saved m0 m L i) -> (forall i, (fp <= i < fp + fpar l)%nat -> fp_saved m0 m L i) ->
  (forall r, In r int_regs -> rg (im m0) r = rg (im m1) r) -> (forall i, (fp <= i < fp + fpar l)%nat -> xr m0 i = xr m1 i) ->
  carries m1 l gp fp val -> in_area e (mm (im m)) l gp fp val.
Proof.
  intros m0 m1 m e L EL. induction l as [|[[o n] fl] r IH]; intros gp fp val FP HG HF HR HX C; [exact Logic.I|].
  inversion FP as [|? ? P1 P2]; subst. cbn [fst snd] in P1. unfold gpar, fpar in *.
  destruct fl; cbn [filter snd negb length in_area carries] in *; destruct C as [C1 C2].
  - split; [|apply IH; try assumption; intros i Hi; first [apply HG; lia|apply HF; lia|apply HX; lia]].
    intros k Hk. specialize (HF fp ltac:(lia) k ltac:(lia)). rewrite HX in HF by lia. specialize (C1 k Hk). unfold byte_eq in *. rewrite <- C1, <- HF. do 2 f_equal. lia.
  - split; [|apply IH; try assumption; intros i Hi; first [apply HG; lia|apply HF; lia|apply HX; lia]].
    destruct C1 as (g & Eg & C1). intros k Hk. specialize (HG gp ltac:(lia) k ltac:(lia)). rewrite (nth_error_nth int_regs gp DI Eg) in HG.
    rewrite HR in HG by (eapply nth_error_In; exact Eg). specialize (C1 k Hk). unfold byte_eq in *. rewrite <- C1, <- HG. do 2 f_equal. lia.
Qed.

Lemma held_intro : forall m0 m1 m e L f0, L = v_area e + 176 -> forall ss ds p, map l_ty ds = map l_ty ss -> Forall argument (map l_ty ss) -> p_ok p ->
  (forall i, (p_gp p <= i < 6)%nat -> gp_saved m0 m L i) ->
  (forall i, (p_fp p <= i < p_fp (pend (map l_ty ss) p))%nat -> fp_saved m0 m L i) ->
  (forall r, In r int_regs -> rg (im m0) r = rg (im m1) r) -> (forall i, (i < 8)%nat -> xr m0 i = xr m1 i) ->
  all_carried m1 ss p f0 ->
  (forall k s o, nth_error ss k = Some s -> nth_error (plan (map l_ty ss) p) k = Some (Some o) ->
     forall j, 0 <= j < asize (l_ty s) -> byte_eq (mm (im m) (v_stk e + o + j)) (f0 (l_addr s + j))) ->
  held e (mm (im m)) (combine ds (map (fun s j => f0 (l_addr s + j)) ss)) p.
Proof.
  intros m0 m1 m e L f0 EL. induction ss as [|s ss IH]; intros ds p ET F K HG HF HR HX C HS; destruct ds as [|d ds]; try discriminate; [exact Logic.I|].
  cbn [map] in *. injection ET as ET1 ET2. inversion F as [|? ? A Fr]; subst. cbn [combine held]. destruct C as [C1 C2].
  rewrite ET1. cbn [pend fold_left] in HF. fold (pend (map l_ty ss) (pstep (l_ty s) p)) in HF.
  pose proof (fp_mono (map l_ty ss) (pstep (l_ty s) p)) as FM. pose proof K as (_ & _ & Kg & Kf & _).
  split.
  - unfold held1. destruct (stacked (l_ty s) (p_gp p) (p_fp p)) eqn:ST.
    + specialize (HS 0%nat s (slot_of (l_ty s) p) eq_refl). cbn [plan nth_error] in HS. unfold pdest in HS. rewrite ST in HS. apply HS. reflexivity.
    + destruct (not_stacked _ _ _ A Kg Kf ST) as (IMm & G1 & G2 & P). destruct (parts_count _ A IMm) as [Pg Pf].
      unfold pstep in FM at 1. rewrite ST in FM. cbn [p_fp] in FM.
      apply (to_area m0 m1 m e _ eq_refl); [exact P| | |exact HR| |exact (C1 eq_refl)].
      * intros i Hi. apply HG. lia.
      * intros i Hi. apply HF. lia.
      * intros i Hi. apply HX. lia.
  - apply IH; try assumption; [apply step_ok; assumption| | |].
    + intros i Hi. apply HG. unfold pstep in Hi. destruct (stacked (l_ty s) (p_gp p) (p_fp p)); cbn [p_gp] in Hi; lia.
    + intros i Hi. apply HF. unfold pstep in Hi at 1. destruct (stacked (l_ty s) (p_gp p) (p_fp p)); cbn [p_fp] in Hi; lia.
    + intros k s' o E1 E2. apply (HS (S k) s' o); [exact E1|]. cbn [plan nth_error]. exact E2.
Qed.

Lemma va_ok : forall sym lp named anon dsts gp,
  map l_ty dsts = map l_ty anon -> (gp <= 1)%nat -> Forall argument (map l_ty (named ++ anon)) -> Forall loc_ok (named ++ anon) -> Forall loc_ok dsts ->
  stack_bytes (map l_ty (named ++ anon)) <= INT_MAX - 16 -> lp = BP \/ lp = BX ->
  exists stk1 st1 stk2 st2 c1 c2,
    calling_convention (map l_ty (named ++ anon)) (Z.of_nat gp) 0 = Ok (stk1, st1) /\
    calling_convention (map l_ty named) (Z.of_nat gp) 0 = Ok (stk2, st2) /\
    gen_reg_args (combine (combine (map l_ty (named ++ anon)) stk1) (map l_place (named ++ anon))) gp 0 = Ok c1 /\
    va_start st2 lp = Ok c2 /\
    forall m, Forall (located sym (im m)) (named ++ anon) ->
    exists m1, xrun sym (concat c1 ++ set_al (Func true) (cc_fp st1)) m = Some m1 /\ mm (im m1) = mm (im m) /\
      forall m2, (forall r, In r int_regs -> rg (im m2) r = rg (im m1) r) -> (forall x, (x < 8)%nat -> xr m2 x = xr m1 x) ->
        rg (im m2) AX mod 256 = rg (im m1) AX mod 256 ->
        176 <= rg (im m2) lp <= rg (im m2) BP -> rg (im m2) BP + 16 + cc_stack st1 < 2 ^ 64 ->
        rg (im m2) lp mod 16 = 0 -> (rg (im m2) BP + 16) mod cc_align st1 = 0 ->
        (forall k s o, nth_error (named ++ anon) k = Some s -> nth_error stk1 k = Some (Some o) ->
           forall j, 0 <= j < asize (l_ty s) -> byte_eq (mm (im m2) (rg (im m2) BP + 16 + o + j)) (mm (im m) (l_addr s + j))) ->
      exists m3, xjrun sym (save_regs st2 lp) None m2 = Some (None, m3) /\ rg (im m3) = rg (im m2) /\ xr m3 = xr m2 /\
        (forall x, ~ within x (rg (im m2) lp - 176) 176 -> mm (im m3) x = mm (im m2) x) /\
        forall m4 ap, let e := mkv ap (rg (im m2) lp - 176) (rg (im m2) BP + 16) (cc_stack st1) in
          env_ok e -> rg (im m4) AX = ap -> rg (im m4) BP = rg (im m2) BP -> rg (im m4) lp = rg (im m2) lp ->
          (forall x, within x (v_area e) 176 \/ within x (v_stk e) (v_len e) -> mm (im m4) x = mm (im m3) x) ->
        exists m5, xjrun sym c2 None m4 = Some (None, m5) /\ (forall x, ~ within x ap 24 -> mm (im m5) x = mm (im m4) x) /\
          (forall q, q <> DX -> rg (im m5) q = rg (im m4) q) /\
          delivers sym e (combine dsts (map (fun s j => mm (im m) (l_addr s + j)) anon)) m5.
Proof.
  intros sym lp named anon dsts gp ET Hg F Ls Ld SB HLP. assert (IM : INT_MAX = 2147483647) by reflexivity.
  assert (Hg6 : (gp <= 6)%nat) by lia.
  pose proof F as F'. rewrite map_app in F'. apply Forall_app in F'. destruct F' as [Fn Fa].
  assert (SBn : stack_bytes (map l_ty named) <= INT_MAX - 16 /\ stack_bytes (map l_ty anon) <= INT_MAX).
  { rewrite map_app, stack_bytes_app in SB. pose proof (stack_bytes_pos _ Fn). pose proof (stack_bytes_pos _ Fa). lia. }
  destruct SBn as [SBn SBa].
  pose proof (convention_ok _ gp F Hg6 ltac:(lia)) as E1. pose proof (convention_ok _ gp Fn Hg6 ltac:(lia)) as E2. cbv zeta in E1, E2.
  destruct (gen_ok _ (p0 gp) (map l_place (named ++ anon)) F (p0_ok gp Hg6)) as (c1 & E3 & _); [rewrite !map_length; reflexivity|].
  destruct (plan_bounds _ (p0 gp) F (p0_ok gp Hg6)) as (_ & _ & KF & _).
  destruct (plan_bounds _ (p0 gp) Fn (p0_ok gp Hg6)) as (_ & _ & KN & _).
  set (pn := pend (map l_ty named) (p0 gp)) in *.
  assert (EP : pend (map l_ty (named ++ anon)) (p0 gp) = pend (map l_ty anon) pn) by (rewrite map_app; unfold pend, pn; apply fold_left_app).
  assert (EPL : plan (map l_ty (named ++ anon)) (p0 gp) = plan (map l_ty named) (p0 gp) ++ plan (map l_ty anon) pn) by (rewrite map_app; apply plan_app).
  assert (LPL : length (plan (map l_ty named) (p0 gp)) = length named) by (rewrite plan_len, map_length; reflexivity).
  set (pf := pend (map l_ty (named ++ anon)) (p0 gp)) in *.
  assert (STN : p_st pn + 16 <= INT_MAX).
  { destruct (pend_bytes (map l_ty named) (p0 gp) Fn (p0_ok gp Hg6)) as [_ PB]. fold pn in PB. cbn [p0 p_st] in PB. lia. }
  pose proof KN as (KN0 & _ & KNg & KNf & _). pose proof KF as (KF0 & _ & KFg & KFf & _).
  destruct (start_ok sym lp (mkcc (Z.of_nat (p_gp pn)) (Z.of_nat (p_fp pn)) (p_st pn) (p_al pn)) (p_gp pn) (p_fp pn) (p_st pn)
     eq_refl eq_refl eq_refl KNg KNf KN0 STN HLP) as (c2 & E4 & KS).
  do 6 eexists. split; [exact E1|]. split; [exact E2|]. split; [exact E3|]. split; [exact E4|]. cbn [cc_fp cc_stack cc_align].
  intros m HL. destruct (caller_ok sym _ (p0 gp) c1 F Ls (p0_ok gp Hg6) E3 m HL) as (m0 & R0 & K0 & C0).
  destruct (al_ok sym (p_fp pf) m0 KFf) as (m1 & R1 & M1 & X1 & G1 & A1).
  exists m1. split; [rewrite (xrun_app _ _ _ _ _ R0); exact R1|]. split; [rewrite M1; apply K0|].
  intros m2 H1 H2 H3 H4 H5 H6 H7 HS.
  assert (C1 : all_carried m1 (named ++ anon) (p0 gp) (mm (im m))).
  { eapply carried_same; [| |exact F|apply p0_ok; exact Hg6|exact C0].
    - intros r Hr. apply G1. intros ->. repeat (destruct Hr as [Hr|Hr]; [discriminate|]). destruct Hr.
    - intros x _. rewrite X1. reflexivity. }
  apply carried_suffix in C1. fold pn in C1.
  destruct (save_ok sym lp (mkcc (Z.of_nat (p_gp pn)) (Z.of_nat (p_fp pn)) (p_st pn) (p_al pn)) (p_gp pn) (p_fp pn) m2 _ eq_refl eq_refl KNg KNf eq_refl) as (m3 & R3 & B1 & B2 & B3 & B4 & B5).
  { lia. } { exact H6. }
  exists m3. split; [exact R3|]. split; [exact B1|]. split; [exact B2|]. split; [exact B3|].
  intros m4 ap. set (e := mkv ap (rg (im m2) lp - 176) (rg (im m2) BP + 16) (p_st pf)). intros EO HA HB HP HM. pose proof (pend_st _ _ Fa KN) as PST. rewrite <- EP in PST.
  destruct (KS m4 e EO HA) as (m5 & R5 & D1 & D2 & D3); unfold e; cbn [v_stk v_area v_len].
  { lia. } { lia. } { exact PST. } { lia. }
  exists m5. split; [exact R5|]. split; [exact D1|]. split; [exact D2|].
  assert (ML : map (fun q : loc * (Z -> Z) => l_ty (fst q)) (combine dsts (map (fun s j => mm (im m) (l_addr s + j)) anon)) = map l_ty anon).
  { rewrite <- ET. rewrite <- (map_map fst l_ty). f_equal. clear - ET. revert anon ET. induction dsts as [|d ds IH]; intros [|a an] ET; try discriminate; [reflexivity|].
    cbn [map combine fst] in *. f_equal. apply IH. congruence. }
  apply (deliver_ok sym e _ pn m5); cbv zeta; rewrite ?ML; try assumption.
  - replace (map fst _) with dsts; [exact Ld|]. clear - ET. revert anon ET. induction dsts as [|d ds IH]; intros [|a an] ET; try discriminate; [reflexivity|].
    cbn [map combine fst] in *. f_equal. apply IH. congruence.
  - rewrite <- EP. unfold e. cbn [v_len]. lia.
  - rewrite <- EP. exact H7.
  - apply (held_same e (mm (im m3))); rewrite ?ML; try assumption; [rewrite <- EP; unfold e; cbn [v_len]; lia| |].
    { pose proof EO as (_ & _ & _ & _ & _ & _ & E7 & E8). unfold apart in E7, E8. intros x Hx. rewrite D1; [apply HM; exact Hx|]. unfold within in *. unfold e in *. cbn [v_ap v_area v_stk v_len] in *. lia. }
    apply (held_intro m2 m1 m3 e (rg (im m2) lp)); try assumption.
    + unfold e. cbn [v_area]. lia.
    + intros i Hi. rewrite <- EP in Hi. apply B5; [|lia]. rewrite H3, A1. lia.
    + intros k s o N1 N2 j Hj.
      assert (N1' : nth_error (named ++ anon) (length named + k) = Some s) by (rewrite nth_error_app2 by lia; rewrite Nat.add_comm, Nat.add_sub; exact N1).
      assert (N2' : nth_error (plan (map l_ty (named ++ anon)) (p0 gp)) (length named + k) = Some (Some o)).
      { rewrite EPL, nth_error_app2 by lia. rewrite LPL, Nat.add_comm, Nat.add_sub. exact N2. }
      specialize (HS _ _ _ N1' N2' j Hj). unfold e. cbn [v_stk].
      destruct (plan_bounds _ (p0 gp) F (p0_ok gp Hg6)) as (_ & _ & _ & PB).
      assert (N3 : nth_error (map l_ty (named ++ anon)) (length named + k) = Some (l_ty s)) by (rewrite nth_error_map, N1'; reflexivity).
      destruct (PB _ _ _ N3 N2') as (O1 & _). cbn [p0 p_st] in O1.
      rewrite B3; [exact HS|]. unfold within. lia.
Qed.
