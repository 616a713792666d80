From Coq Require Import ZArith List Bool Lia.
From Verif Require Import Base BitLemmas X86 Sse MemSpec MemModel MemProofs CgLemmas FrameModel CallSpec CallModel CallProofs CallClass CallPlan CallRun InitEmit.
Import ListNotations.
Local Open Scope Z_scope.
Local Opaque natural.

(** Parts in xmm registers have four or eight bytes. *)
Lemma leaf_align : forall t off p, natural t -> In p (leaves t off) -> aalign t mod aalign (snd p) = 0.
Proof.
  induction t using aty_ind'; intros off p N Ip; cbn [leaves] in Ip.
  1-4: destruct Ip as [<-|[]]; cbn [snd]; apply Z.mod_same; pose proof (pow2_pos _ (align_pow2 _ N)); lia.
  - destruct Ip.
  - apply natural_rec in N. destruct N as (Pa & Pn & Pm & Po & Pf). apply in_flat_map in Ip. destruct Ip as (q & Iq & Ip).
    rewrite Forall_forall in H, Pf. specialize (Pf q Iq). destruct Pf as (F1 & F2 & F3 & F4 & F5).
    specialize (H q Iq _ p F5 Ip). cbn [aalign].
    pose proof (leaves_ok (snd q) (off + fst q) F5) as L. rewrite Forall_forall in L. specialize (L p Ip).
    destruct L as (_ & _ & _ & L & _).
    eapply mod_trans; [apply (pow2_pos _ (align_pow2 _ F5))|apply (pow2_pos _ (align_pow2 _ L))|exact F4|exact H].
  - apply natural_arr in N. destruct N as [N1 N2]. apply in_flat_map in Ip. destruct Ip as (i & Ii & Ip).
    cbn [aalign]. eapply IHt; eassumption.
Qed.
Lemma fp_part : forall t e, natural t -> full t -> asize t <= 16 -> 8 * Z.of_nat e < asize t -> fpe t e = true ->
  asize t mod 4 = 0.
Proof.
  intros t e N Fu S16 Se Fe. destruct (Fu S16) as [C|[->| ->]]; [|reflexivity|reflexivity].
  destruct (C (Z.of_nat e)) as (p & Ip & O); [lia|lia|].
  unfold fpe, only_fp in Fe. rewrite forallb_forall in Fe. specialize (Fe p Ip). rewrite O in Fe. cbn [negb orb] in Fe.
  pose proof (leaf_align t 0 p N Ip) as A. pose proof (size_align t N) as SA.
  pose proof (pow2_pos _ (align_pow2 _ N)).
  assert (aalign (snd p) mod 4 = 0) by (destruct (snd p); try discriminate; reflexivity).
  assert (1 <= aalign (snd p)) by (destruct (snd p); try discriminate; cbn; lia).
  eapply mod_trans; [| |exact SA|]; try lia. eapply mod_trans; [| |exact A|]; try lia. 
Qed.
Lemma mod4_part : forall n, 1 <= n <= 16 -> n mod 4 = 0 -> (n <= 8 -> n = 4 \/ n = 8) /\ (8 < n -> n - 8 = 4 \/ n - 8 = 8).
Proof. intros n H E. pose proof (Z.div_mod n 4 ltac:(lia)). lia. Qed.

Section Run.
Variable sym : nat -> Z.
Lemma param_ok : forall t b o gp fp a, argument t -> full t -> (gp <= 6)%nat -> (fp <= 8)%nat -> stacked t gp fp = false ->
  safe_base b -> INT_MIN <= o -> o + asize t <= INT_MAX ->
  exists c, save_param t b o gp fp = Ok (c, ((gp + ni t)%nat, (fp + ns t)%nat)) /\
  forall m val, addr_of sym (im m) b o a (asize t) -> carries m (parts t) gp fp val ->
  exists m', xrun sym c m = Some m' /\ replaced (mm (im m)) (mm (im m')) a (asize t) val /\ saved (gp + ni t) m m'.
Proof.
  intros t b o gp fp a (N & Sz & Ar) Fu Hg Hf Hs SB O1 O2.
  assert (S16 : asize t <= 16).
  { destruct t as [u n| | | |n|n al ms|n bt]; cbn [asize] in *; try lia.
    - apply nat_gp in N. lia.
    - destruct N.
    - unfold stacked, code_cls in Hs. cbn [asize] in Hs. destruct (Z.ltb_spec 16 n); [discriminate|lia]. }
  unfold stacked, ni, ns in Hs. apply orb_false_elim in Hs. destruct Hs as [Hs S3]. apply orb_false_elim in Hs.
  destruct Hs as [S1 S2]. apply Nat.ltb_ge in S2, S3. unfold ni, ns.
  destruct t as [u n| | | |n|n al ms|n bt]; cbn [save_param].
  - rewrite (cls_gp _ _ N) in *. cbn [count filter cls_eqb length] in *. pose proof (nat_gp _ _ N). cbn [asize] in *.
    destruct (save_chunk_ok sym false n b o gp fp a) as (c & E & K); try assumption; try lia; try discriminate.
    rewrite E. exists c. rewrite Nat.add_0_r, Nat.add_1_r. split; [reflexivity|].
    intros m val AD C. cbn [parts asize] in C. destruct (K m val 0 AD C) as (m' & R1 & R2 & R3). exists m'. auto.
  - change (code_cls AFloat) with [Sse] in *. cbn [count filter cls_eqb length] in *. cbn [asize] in *.
    destruct (save_chunk_ok sym true 4 b o gp fp a) as (c & E & K); try assumption; try lia; try discriminate.
    rewrite E. exists c. rewrite Nat.add_0_r, Nat.add_1_r. split; [reflexivity|].
    intros m val AD C. cbn [parts] in C. destruct (K m val 0 AD C) as (m' & R1 & R2 & R3). exists m'. auto.
  - change (code_cls ADouble) with [Sse] in *. cbn [count filter cls_eqb length] in *. cbn [asize] in *.
    destruct (save_chunk_ok sym true 8 b o gp fp a) as (c & E & K); try assumption; try lia; try discriminate.
    rewrite E. exists c. rewrite Nat.add_0_r, Nat.add_1_r. split; [reflexivity|].
    intros m val AD C. cbn [parts] in C. destruct (K m val 0 AD C) as (m' & R1 & R2 & R3). exists m'. auto.
  - discriminate.
  - destruct N.
  - cbn [asize] in Sz, S16, O2.
    destruct (Z.ltb_spec 16 n); [lia|]. rewrite has1 by assumption. cbn [bind]. rewrite cls_rec in * by lia.
    set (T := ARec n al ms) in *.
    assert (F0 : fpe T 0 = true -> n mod 4 = 0). { intros F. apply (fp_part T 0 N Fu); cbn [asize T]; try assumption; lia. }
    assert (F1 : 8 < n -> fpe T 1 = true -> n mod 4 = 0). { intros L F. apply (fp_part T 1 N Fu); cbn [asize T]; try assumption; lia. }
    pose proof (mod4_part n ltac:(lia)) as M4.
    destruct (save_chunk_ok sym (fpe T 0) (Z.min 8 n) b o gp fp a) as (c1 & E1 & K1); try assumption; try lia.
    { intros F. specialize (M4 (F0 F)). lia. }
    { intros F. rewrite F in *. destruct (8 <? n); try destruct (fpe T 1); cbn [count filter cls_eqb length] in *; lia. }
    rewrite E1. cbn [bind fst snd].
    destruct (Z.ltb_spec 8 n).
    + assert (H2 := has2 n al ms N). fold T in H2. rewrite H2. cbn [bind]. rewrite int_ok by (unfold INT_MIN, INT_MAX in *; lia). cbn [bind].
      destruct (save_chunk_ok sym (fpe T 1) (n - 8) b (o + 8) (if fpe T 0 then gp else S gp) (if fpe T 0 then S fp else fp) (a + 8))
        as (c2 & E2 & K2); try assumption; try lia.
      { intros F. specialize (M4 (F1 H0 F)). lia. }
      { intros F. rewrite F in *. destruct (fpe T 0); cbn [count filter cls_eqb length] in *; lia. }
      replace (fst (if fpe T 0 then (gp, S fp) else (S gp, fp))) with (if fpe T 0 then gp else S gp) by (destruct (fpe T 0); reflexivity).
      replace (snd (if fpe T 0 then (gp, S fp) else (S gp, fp))) with (if fpe T 0 then S fp else fp) by (destruct (fpe T 0); reflexivity).
      rewrite E2. cbn [bind fst snd]. eexists. split.
      { repeat f_equal. destruct (fpe T 0), (fpe T 1); cbn [count filter cls_eqb length]; f_equal; lia. }
      intros m val AD C. change (asize T) with n in AD. unfold parts in C. fold T in C. cbn [T] in C. fold T in C.
      destruct (Z.ltb_spec 8 n) in C; [|lia].
      assert (C1 : carries m [(0, Z.min 8 n, fpe T 0)] gp fp val) by (destruct (fpe T 0); cbn [carries] in *; tauto).
      assert (C2 : carries m [(8, n - 8, fpe T 1)] (if fpe T 0 then gp else S gp) (if fpe T 0 then S fp else fp) val)
        by (destruct (fpe T 0); cbn [carries] in C |- *; tauto).
      destruct (K1 m val 0) as (m1 & R1 & P1 & V1); [|exact C1|].
      { destruct AD as (A1 & A2 & A3). split; [exact A1|]. lia. }
      assert (SV : saved (if fpe T 0 then gp else S gp) m m1) by exact V1.
      destruct (K2 m1 val 8) as (m2 & R2 & P2 & V2).
      { eapply addr_saved; [exact SB|exact SV|]. destruct AD as (A1 & A2 & A3). split; [destruct b; lia|lia]. }
      { eapply carries_saved; [exact SV| |exact C2]. lia. }
      exists m2. rewrite (xrun_app _ _ _ _ _ R1). split; [exact R2|]. split.
      * replace (Z.min 8 n) with 8 in P1 by lia. change (asize T) with n. replace n with (8 + (n - 8)) by lia.
        eapply (replaced_app _ _ _ a 8 (n - 8)); [lia|lia|exact P1|exact P2| |]; intros k Hk; reflexivity.
      * eapply saved_trans; [eapply saved_le; [|exact SV]|eapply saved_le; [|exact V2]];
          destruct (fpe T 0), (fpe T 1); cbn [count filter cls_eqb length]; lia.
    + eexists. split.
      { repeat f_equal. destruct (fpe T 0); cbn [count filter cls_eqb length]; f_equal; lia. }
      intros m val AD C. change (asize T) with n in AD. unfold parts in C. cbn [T] in C. fold T in C.
      destruct (Z.ltb_spec 8 n) in C; [lia|].
      destruct (K1 m val 0) as (m1 & R1 & P1 & V1); [|exact C|].
      { replace (Z.min 8 n) with n by lia. exact AD. }
      exists m1. split; [exact R1|]. split.
      * replace (Z.min 8 n) with n in P1 by lia. exact P1.
      * eapply saved_le; [|exact V1]. destruct (fpe T 0); cbn [count filter cls_eqb length]; lia.
  - destruct Ar.
Qed.

Lemma callee_ok : forall ds p, Forall argument (map l_ty ds) -> Forall full (map l_ty ds) -> Forall loc_ok ds -> p_ok p ->
  exists c, save_params (combine (combine (map l_ty ds) (plan (map l_ty ds) p)) (map l_place ds)) (p_gp p) (p_fp p) = Ok c /\
  forall m (ss : list loc) f, map l_ty ss = map l_ty ds -> Forall (located sym (im m)) ds -> ForallOrdPairs disjoint ds -> all_carried m ss p f ->
  exists m', xrun sym c m = Some m' /\
   (forall k s d, nth_error ss k = Some s -> nth_error ds k = Some d -> nth_error (plan (map l_ty ds) p) k = Some None ->
      forall j, 0 <= j < asize (l_ty d) -> byte_eq (mm (im m') (l_addr d + j)) (f (l_addr s + j))) /\
   (forall x, (forall k d, nth_error ds k = Some d -> nth_error (plan (map l_ty ds) p) k = Some None -> outside x d) ->
      mm (im m') x = mm (im m) x) /\
   (forall r, ~ In r int_regs -> rg (im m') r = rg (im m) r).
Proof.
  assert (IM : INT_MIN = -2147483648 /\ INT_MAX = 2147483647) by (split; reflexivity). 
  induction ds as [|d ds IH]; intros p F Fu L K.
  { exists []. split; [reflexivity|]. intros m ss f ET HL HD C. exists m. split; [reflexivity|]. split; [|split; reflexivity].
    intros k s d _ E. destruct k; discriminate. }
  cbn [map] in *. inversion F as [|? ? At Fr]; subst. inversion L as [|? ? L1 Lr]; subst. inversion Fu as [|? ? U1 Ur]; subst.
  destruct (IH (pstep (l_ty d) p) Fr Ur Lr (step_ok _ p At K)) as (c & E & KK).
  cbn [plan combine]. unfold pdest.
  destruct (stacked (l_ty d) (p_gp p) (p_fp p)) eqn:ES; cbn [save_params l_place].
  - assert (PG : p_gp (pstep (l_ty d) p) = p_gp p /\ p_fp (pstep (l_ty d) p) = p_fp p) by (unfold pstep; rewrite ES; auto).
    destruct PG as [P1 P2]. rewrite P1, P2 in E. exists c. split; [exact E|].
    intros m ss f ET HL HD C. destruct ss as [|s ss]; [discriminate|]. injection ET as ET1 ET2.
    inversion HL; subst. inversion HD; subst. cbn [all_carried] in C. rewrite ET1 in C. destruct C as [_ C].
    destruct (KK m ss f ET2 ltac:(assumption) ltac:(assumption) C) as (m' & R1 & R2 & R3 & R4).
    exists m'. split; [exact R1|]. split; [|split; [|exact R4]].
    + intros k s' d' E1 E2 E3. destruct k; [discriminate E3|]. cbn [nth_error] in *. eapply R2; eassumption.
    + intros x Hx. apply R3. intros k d' E1 E2. apply (Hx (S k) d'); assumption.
  - destruct L1 as (SB & O1 & O2).
    destruct (param_ok (l_ty d) (l_base d) (l_ofs d) (p_gp p) (p_fp p) (l_addr d) At U1) as (c1 & E1 & K1); try apply K; try assumption; try lia.
    rewrite E1. cbn [bind fst snd].
    assert (PG : p_gp (pstep (l_ty d) p) = (p_gp p + ni (l_ty d))%nat /\ p_fp (pstep (l_ty d) p) = (p_fp p + ns (l_ty d))%nat)
      by (unfold pstep; rewrite ES; auto).
    destruct PG as [P1 P2]. rewrite P1, P2 in E. rewrite E. cbn [bind]. eexists. split; [reflexivity|].
    intros m ss f ET HL HD C. destruct ss as [|s ss]; [discriminate|]. injection ET as ET1 ET2.
    inversion HL as [|? ? HL1 HLr]; subst. inversion HD as [|? ? HD1 HDr]; subst. cbn [all_carried] in C. rewrite ET1 in C. destruct C as [C1 C].
    destruct (K1 m _ HL1 (C1 ES)) as (m1 & R1 & Q1 & V1).
    destruct (KK m1 ss f ET2) as (m2 & R2 & Q2 & Q3 & Q4).
    + rewrite Forall_forall in *. intros x Ix. unfold located. eapply addr_saved; [apply Lr, Ix|exact V1|apply HLr, Ix].
    + exact HDr.
    + assert (G : forall ss p', (p_gp p + ni (l_ty d) <= p_gp p')%nat -> all_carried m ss p' f -> all_carried m1 ss p' f).
      { clear - V1. induction ss as [|s ss IHs]; intros p' G C; [exact Logic.I|]. cbn [all_carried] in *. destruct C as [C1 C2].
        split; [|apply IHs; [|exact C2]; pose proof (step_mono (l_ty s) p'); lia].
        intros ST. eapply carries_saved; [exact V1|exact G|]. auto. }
      apply G; [rewrite P1; lia|exact C].
    + exists m2. rewrite (xrun_app _ _ _ _ _ R1). split; [exact R2|].
      assert (OD : forall k d' j, nth_error ds k = Some d' -> 0 <= j < asize (l_ty d) -> outside (l_addr d + j) d').
      { intros k d' j Ek Hj. rewrite Forall_forall in HD1. specialize (HD1 d' (nth_error_In _ _ Ek)).
        unfold disjoint, outside in *. lia. }
      split; [|split].
      * intros k s' d' A1 A2 A3 j Hj. destruct k as [|k]; cbn [nth_error] in A1, A2, A3.
        -- injection A1 as <-. injection A2 as <-. rewrite Q3; [|intros; eapply OD; eassumption].
           destruct Q1 as [Q1 _]. apply Q1, Hj.
        -- eapply Q2; eassumption.
      * intros x Hx. rewrite Q3; [|intros k d' A1 A2; apply (Hx (S k) d'); assumption].
        destruct Q1 as [_ Q1]. apply Q1. specialize (Hx 0%nat d eq_refl eq_refl). unfold outside in Hx. lia.
      * intros r Ir. rewrite Q4 by assumption. destruct V1 as [V1 _]. apply V1. intros I. apply Ir.
        rewrite <- (firstn_skipn (p_gp p + ni (l_ty d)) int_regs). apply in_or_app. left. exact I.
Qed.
End Run.

(** ** Statements *)
Lemma carried_app : forall m a b p f, all_carried m (a ++ b) p f -> all_carried m a p f.
Proof. intros m. induction a as [|s a IH]; intros b p f H; [exact Logic.I|]. cbn [all_carried app] in *. destruct H. split; eauto. Qed.
Lemma carried_same : forall m m' ss p f, (forall r, In r int_regs -> rg (im m') r = rg (im m) r) -> (forall x, (x < 8)%nat -> xr m' x = xr m x) ->
  Forall argument (map l_ty ss) -> p_ok p -> all_carried m ss p f -> all_carried m' ss p f.
Proof.
  intros m m' ss p f HR HX. revert p. induction ss as [|s ss IH]; intros p F K C; [exact Logic.I|].
  cbn [all_carried map] in *. inversion F as [|? ? At Fr]; subst. destruct C as [C1 C2].
  split; [|apply IH; [exact Fr|apply step_ok; assumption|exact C2]]. intros ST. specialize (C1 ST).
  assert (G : forall l gp fp val, (fp + fpar l <= 8)%nat -> carries m l gp fp val -> carries m' l gp fp val).
  { clear - HR HX. induction l as [|[[o n] b] l IH]; intros gp fp val HF C; [exact Logic.I|].
    unfold fpar in *. destruct b; cbn [carries filter snd length negb] in *; destruct C as [C1 C2].
    - split; [|apply IH; [lia|exact C2]]. rewrite HX by lia. exact C1.
    - split; [|apply IH; [lia|exact C2]]. destruct C1 as (g & Eg & C1). exists g. split; [exact Eg|].
      rewrite HR; [exact C1|]. apply nth_error_In with gp. exact Eg. }
  apply G; [|exact C1]. unfold stacked in ST. apply orb_false_elim in ST. destruct ST as [ST S3]. apply orb_false_elim in ST.
  destruct ST as [S1 S2]. apply Nat.ltb_ge in S3. destruct (parts_count _ At S1) as [_ ->]. destruct K as (_ & _ & _ & K & _). lia.
Qed.

Lemma stack_bytes_app : forall a b, stack_bytes (a ++ b) = stack_bytes a + stack_bytes b.
Proof. induction a as [|t a IH]; intros b; cbn [stack_bytes app]; [lia|]. rewrite IH. lia. Qed.

Lemma transfer_ok : forall sym srcs dsts extra gp,
  map l_ty srcs = map l_ty dsts ++ extra -> (gp <= 1)%nat ->
  Forall argument (map l_ty srcs) -> Forall full (map l_ty dsts) -> Forall loc_ok srcs -> Forall loc_ok dsts ->
  stack_bytes (map l_ty srcs) <= INT_MAX ->
  exists stk1 st1 stk2 st2 c1 c2,
    calling_convention (map l_ty srcs) (Z.of_nat gp) 0 = Ok (stk1, st1) /\
    calling_convention (map l_ty dsts) (Z.of_nat gp) 0 = Ok (stk2, st2) /\
    stk2 = firstn (length dsts) stk1 /\
    gen_reg_args (combine (combine (map l_ty srcs) stk1) (map l_place srcs)) gp 0 = Ok c1 /\
    save_params (combine (combine (map l_ty dsts) stk2) (map l_place dsts)) gp 0 = Ok c2 /\
    forall m, Forall (located sym (im m)) srcs ->
    exists m1, xrun sym (concat c1) m = Some m1 /\ mm (im m1) = mm (im m) /\
      (forall r, ~ In r (skipn gp int_regs) -> rg (im m1) r = rg (im m) r) /\
      forall m2, (forall r, In r int_regs -> rg (im m2) r = rg (im m1) r) -> (forall x, (x < 8)%nat -> xr m2 x = xr m1 x) ->
        Forall (located sym (im m2)) dsts -> ForallOrdPairs disjoint dsts ->
      exists m3, xrun sym c2 m2 = Some m3 /\
        (forall k s d, nth_error srcs k = Some s -> nth_error dsts k = Some d -> nth_error stk2 k = Some None ->
           forall j, 0 <= j < asize (l_ty d) -> byte_eq (mm (im m3) (l_addr d + j)) (mm (im m) (l_addr s + j))) /\
        (forall x, (forall k d, nth_error dsts k = Some d -> nth_error stk2 k = Some None -> outside x d) ->
           mm (im m3) x = mm (im m2) x) /\
        (forall r, ~ In r int_regs -> rg (im m3) r = rg (im m2) r).
Proof.
  intros sym srcs dsts extra gp ET Hg F Fu Ls Ld SB.
  assert (Hg6 : (gp <= 6)%nat) by lia.
  assert (Fd : Forall argument (map l_ty dsts)). { rewrite ET in F. apply Forall_app in F. apply F. }
  assert (Fe : Forall argument extra). { rewrite ET in F. apply Forall_app in F. apply F. }
  assert (SBd : stack_bytes (map l_ty dsts) <= INT_MAX).
  { rewrite ET, stack_bytes_app in SB. pose proof (stack_bytes_pos extra Fe). lia. }
  pose proof (convention_ok _ gp F Hg6 SB) as E1. pose proof (convention_ok _ gp Fd Hg6 SBd) as E2. cbv zeta in E1, E2.
  destruct (gen_ok _ (p0 gp) (map l_place srcs) F (p0_ok gp Hg6)) as (c1 & E3 & _); [rewrite !map_length; reflexivity|].
  destruct (callee_ok sym dsts (p0 gp) Fd Fu Ld (p0_ok gp Hg6)) as (c2 & E4 & K4).
  do 6 eexists. split; [exact E1|]. split; [exact E2|].
  split. { rewrite ET, plan_app. rewrite <- (map_length l_ty dsts), <- (plan_len (map l_ty dsts) (p0 gp)).
           rewrite firstn_app, Nat.sub_diag, firstn_all. cbn [firstn]. rewrite app_nil_r. reflexivity. }
  split; [exact E3|]. split; [exact E4|].
  intros m HL. destruct (caller_ok sym srcs (p0 gp) c1 F Ls (p0_ok gp Hg6) E3 m HL) as (m1 & R1 & (K1 & K2 & _) & C1).
  exists m1. split; [exact R1|]. split; [exact K1|]. split; [exact K2|].
  intros m2 HR HX HD DJ.
  set (ss := firstn (length dsts) srcs).
  assert (ES : srcs = ss ++ skipn (length dsts) srcs) by (symmetry; apply firstn_skipn).
  assert (TS : map l_ty ss = map l_ty dsts).
  { unfold ss. rewrite <- firstn_map, ET. rewrite <- (map_length l_ty dsts), firstn_app, Nat.sub_diag, firstn_all.
    cbn [firstn]. apply app_nil_r. }
  assert (C2 : all_carried m2 ss (p0 gp) (mm (im m))).
  { eapply carried_same; [exact HR|exact HX|rewrite TS; exact Fd|apply p0_ok, Hg6|]. eapply carried_app. rewrite <- ES. exact C1. }
  destruct (K4 m2 ss (mm (im m)) TS HD DJ C2) as (m3 & R3 & Q1 & Q2 & Q3).
  exists m3. split; [exact R3|]. split; [|split; [exact Q2|exact Q3]].
  intros k s d A1 A2 A3 j Hj. eapply Q1; try eassumption.
  unfold ss. assert (k < length dsts)%nat by (apply nth_error_Some; congruence).
  rewrite ES in A1. rewrite nth_error_app1 in A1; [exact A1|].
  rewrite <- (map_length l_ty), TS, map_length. assumption.
Qed.

Lemma plan_bounds : forall ts p, Forall argument ts -> p_ok p ->
  p_st p <= p_st (pend ts p) /\ p_al p <= p_al (pend ts p) /\ p_ok (pend ts p) /\
  forall k t o, nth_error ts k = Some t -> nth_error (plan ts p) k = Some (Some o) ->
    p_st p <= o /\ o + asize t <= p_st (pend ts p) /\ o mod Z.max 8 (aalign t) = 0 /\ p_al (pend ts p) mod aalign t = 0.
Proof.
  induction ts as [|t r IH]; intros p F K.
  { cbn [pend fold_left plan]. split; [lia|]. split; [lia|]. split; [exact K|]. intros k t o E. destruct k; discriminate. }
  inversion F as [|? ? At Fr]; subst. pose proof (step_ok t p At K) as K'. pose proof (step_bytes t p At K) as B.
  assert (AL : p_al p <= p_al (pstep t p)). { unfold pstep. destruct (stacked _ _ _), (8 <? aalign t); cbn [p_al]; lia. }
  destruct (IH (pstep t p) Fr K') as (I1 & I2 & I3 & I4).
  cbn [pend fold_left plan]. fold (pend r (pstep t p)). split; [lia|]. split; [lia|]. split; [exact I3|].
  intros k t' o E1 E2. destruct k as [|k]; cbn [nth_error] in E1, E2.
  - injection E1 as <-. unfold pdest in E2. destruct (stacked t (p_gp p) (p_fp p)) eqn:ES; [|discriminate]. injection E2 as <-.
    destruct At as (N & Sz & _). destruct (slot_ok t p N K) as (S1 & S2 & S3 & S4 & _).
    destruct (round_up_spec (asize t) 8 ltac:(lia)) as [R1 R2].
    assert (PS : p_st (pstep t p) = slot_of t p + round_up (asize t) 8 /\
                 p_al (pstep t p) = if 8 <? aalign t then Z.max (p_al p) (aalign t) else p_al p)
      by (unfold pstep; rewrite ES; auto). destruct PS as [PS PA].
    repeat split; try lia. pose proof (align_pow2 t N) as PT.
    destruct I3 as (_ & _ & _ & _ & I3 & I5). apply pow2_dvd; [exact PT|exact I5|].
    destruct (Z.ltb_spec 8 (aalign t)); lia.
  - specialize (I4 k t' o E1 E2). lia.
Qed.
Lemma plan_order : forall ts p, Forall argument ts -> p_ok p -> forall j k t o o', (j < k)%nat ->
  nth_error ts j = Some t -> nth_error (plan ts p) j = Some (Some o) -> nth_error (plan ts p) k = Some (Some o') -> o + asize t <= o'.
Proof.
  induction ts as [|t r IH]; intros p F K j k t' o o' Hjk E1 E2 E3; [destruct j; discriminate|].
  inversion F as [|? ? At Fr]; subst. pose proof (step_ok t p At K) as K'.
  destruct k as [|k]; [lia|]. cbn [plan nth_error] in E3.
  destruct j as [|j]; cbn [plan nth_error] in E1, E2.
  - injection E1 as <-. unfold pdest in E2. destruct (stacked t (p_gp p) (p_fp p)) eqn:ES; [|discriminate]. injection E2 as <-.
    destruct (plan_bounds r (pstep t p) Fr K') as (_ & _ & _ & B).
    assert (k < length r)%nat by (rewrite <- (plan_len r (pstep t p)); apply nth_error_Some; congruence).
    destruct (nth_error r k) as [t2|] eqn:E4; [|apply nth_error_None in E4; lia].
    specialize (B k t2 o' E4 E3).
    destruct At as (N & Sz & _). destruct (round_up_spec (asize t) 8 ltac:(lia)) as [R1 R2].
    assert (PS : p_st (pstep t p) = slot_of t p + round_up (asize t) 8) by (unfold pstep; rewrite ES; auto). lia.
  - eapply (IH (pstep t p) Fr K' j k); try eassumption. lia.
Qed.
Lemma stack_ok : forall ts gp, Forall argument ts -> (gp <= 1)%nat -> stack_bytes ts <= INT_MAX ->
  exists stk st, calling_convention ts (Z.of_nat gp) 0 = Ok (stk, st) /\ length stk = length ts /\
    (forall k t o, nth_error ts k = Some t -> nth_error stk k = Some (Some o) ->
       0 <= o /\ o + asize t <= cc_stack st /\ o mod Z.max 8 (aalign t) = 0 /\ cc_align st mod aalign t = 0) /\
    (forall j k t o o', (j < k)%nat -> nth_error ts j = Some t -> nth_error stk j = Some (Some o) ->
       nth_error stk k = Some (Some o') -> o + asize t <= o') /\
    cc_stack st mod 8 = 0 /\ cc_align st mod 16 = 0.
Proof.
  intros ts gp F Hg SB. pose proof (convention_ok _ gp F ltac:(lia) SB) as E. cbv zeta in E.
  do 2 eexists. split; [exact E|]. split; [apply plan_len|]. cbn [cc_stack cc_align].
  assert (K : p_ok (p0 gp)) by (apply p0_ok; lia).
  destruct (plan_bounds ts (p0 gp) F K) as (B1 & B2 & B3 & B4).
  split; [|split; [|split]].
  - intros k t o E1 E2. specialize (B4 k t o E1 E2). cbn [p0 p_st] in B4. exact B4.
  - intros j k t o o'. apply plan_order; assumption.
  - apply B3.
  - destruct B3 as (_ & _ & _ & _ & B3 & B5). apply pow2_dvd; [exists 4; lia|exact B5|lia].
Qed.

Lemma places_ok : forall ts gp srcs, Forall abi_type ts -> (gp <= 1)%nat -> stack_bytes ts <= INT_MAX -> length srcs = length ts ->
  exists stk st codes, calling_convention ts (Z.of_nat gp) 0 = Ok (stk, st) /\
    gen_reg_args (combine (combine ts stk) srcs) gp 0 = Ok codes /\
    map place_of (combine stk codes) = sysv_places ts (skipn gp int_regs) sse_regs 0.
Proof.
  intros ts gp srcs F Hg SB L.
  assert (F1 : Forall argument ts) by (eapply Forall_impl; [|exact F]; intros t H; apply H).
  assert (F2 : Forall (fun t => sysv_classes t = code_cls t) ts).
  { eapply Forall_impl; [|exact F]. intros t (H1 & H2). apply classes_ok; assumption. }
  pose proof (convention_ok _ gp F1 ltac:(lia) SB) as E. cbv zeta in E.
  destruct (gen_ok ts (p0 gp) srcs F1 (p0_ok gp ltac:(lia)) L) as (codes & E2 & Q).
  do 3 eexists. split; [exact E|]. split; [exact E2|]. exact (Q F2).
Qed.

(** ** The registers of scalars *)
Lemma rg_put4 : forall r v m, rg (putr S4 r v m) r = v mod 2 ^ 32.
Proof. intros. unfold putr. cbn [setr rg nbits]. rewrite reg_eqb_refl. reflexivity. Qed.
Lemma rg_put8 : forall r v m, rg (putr S8 r v m) r = v mod 2 ^ 64.
Proof. intros. unfold putr. cbn [setr rg nbits]. rewrite reg_eqb_refl. reflexivity. Qed.

Lemma scalar_ok : forall t b ofs gp fp, is_scalar t = true -> argument t -> t <> ALdouble -> (gp < 6)%nat ->
  exists c d q, place_reg_arg t b ofs gp fp = Ok (c, q) /\ flat_map dest c = [d] /\
  forall sym m, exists m', xrun sym c m = Some m' /\ mm (im m') = mm (im m) /\
    match d with inl r => rg (im m') r | inr x => xr m' x end = extended t (loadn (Z.to_nat (asize t)) (ea sym b ofs (im m)) (mm (im m))).
Proof.
  intros t b ofs gp fp HS (HN & HP & _) NL G6. destruct t as [u n| | | |n|n a ms|n b']; try discriminate HS; try congruence.
  - apply nat_gp in HN. destruct (argreg_ok gp G6) as (r & Er & _). unfold place_reg_arg. rewrite Er. cbn [bind asize].
    destruct HN as [->|[->|[->| ->]]].
    + do 3 eexists. split; [reflexivity|]. split; [reflexivity|]. intros sym m. eexists. split; [reflexivity|]. split; [reflexivity|].
      change (Z.to_nat 1) with (nbytes S1). cbn [im]. rewrite rg_put4. destruct u; reflexivity.
    + do 3 eexists. split; [reflexivity|]. split; [reflexivity|]. intros sym m. eexists. split; [reflexivity|]. split; [reflexivity|].
      change (Z.to_nat 2) with (nbytes S2). cbn [im]. rewrite rg_put4. destruct u; reflexivity.
    + do 3 eexists. split; [reflexivity|]. split; [reflexivity|]. intros sym m. eexists. split; [reflexivity|]. split; [reflexivity|].
      change (Z.to_nat 4) with (nbytes S4). cbn [im]. rewrite rg_put4. apply Z.mod_small. apply (loadn_range (nbytes S4)).
    + do 3 eexists. split; [reflexivity|]. split; [reflexivity|]. intros sym m. eexists. split; [reflexivity|]. split; [reflexivity|].
      change (Z.to_nat 8) with (nbytes S8). cbn [im]. rewrite rg_put8. apply Z.mod_small. apply (loadn_range (nbytes S8)).
  - do 3 eexists. split; [reflexivity|]. split; [reflexivity|]. intros sym m. eexists. split; [reflexivity|]. split; [reflexivity|].
    unfold ldx, setx. cbn [xr]. rewrite Nat.eqb_refl. reflexivity.
  - do 3 eexists. split; [reflexivity|]. split; [reflexivity|]. intros sym m. eexists. split; [reflexivity|]. split; [reflexivity|].
    unfold ldx, setx. cbn [xr]. rewrite Nat.eqb_refl. reflexivity.
  - destruct HN.
Qed.
