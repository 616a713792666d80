(** Pieces of code that may change memory outside the temporaries, and temporaries kept across them. *)
From Coq Require Import ZArith List Bool Lia.
From Verif Require Import Base BitLemmas IntSpec IntLemmas IntModel IntTyped X86 CgModel CgLemmas CgSeq CgSeq2 CgSeq3 CgInv.
Import ListNotations.
Local Open Scope Z_scope.

Section Piece.
Variable G : genv.
Variable sym : nat -> Z.
Variable bs : reg -> Z.
Variable P : Z.
Hypothesis FR : frame_ok G bs P.

Local Notation lpv := (lpv G bs).
Local Notation ext := (ext G).
Local Notation zlo := (zlo G).
Local Notation zhi := (zhi G).

Definition callees (m : mach) : Prop := forall r, callee r -> rg m r = bs r.

Record keepT (st st' : gst) (g s : nat) (m m' : mach) : Prop := mkkeepT {
  kt_c : forall r, callee r -> rg m' r = rg m r;
  kt_t : forall i, (g <= i < 6)%nat -> rg m' (tmpreg i) = rg m (tmpreg i);
  kt_m : forall a, lpv - P <= a < lpv - lvar_sz G -> a < lpv - zhi st' s \/ lpv - zlo st <= a -> mm m' a = mm m a
}.

Lemma keepT_callees st st' g s m m' : callees m -> keepT st st' g s m m' -> callees m'.
Proof. intros C K r Hr. rewrite (kt_c _ _ _ _ _ _ K) by auto. auto. Qed.

Lemma keep_keepT st st' g s m m' : keep G bs st st' g s m m' -> keepT st st' g s m m'.
Proof. intros [A B C]. constructor; auto. Qed.

Lemma keepT_refl st st' g s m : keepT st st' g s m m.
Proof. constructor; auto. Qed.

Lemma keepT_trans st st1 st2 c1 c2 g1 s1 g2 s2 m m1 m2 :
  ext st st1 c1 g1 s1 -> ext st1 st2 c2 g2 s2 ->
  keepT st st1 g1 s1 m m1 -> keepT st1 st2 g2 s2 m1 m2 ->
  keepT st st2 (Nat.max g1 g2) (Nat.max s1 s2) m m2.
Proof.
  intros E1 E2 [A1 A2 A3] [B1 B2 B3]. pose proof (ex_pk _ _ _ _ _ _ E1). pose proof (ex_pk _ _ _ _ _ _ E2).
  constructor.
  - intros. rewrite B1, A1; auto.
  - intros i Hi. rewrite B2, A2 by lia. reflexivity.
  - unfold CgInv.zhi, CgInv.zlo in *. intros a R Ha. rewrite B3, A3; [reflexivity|..]; try exact R; destruct (reuse G); lia.
Qed.

Lemma ext_code st st' c1 c2 g1 s1 g2 s2 : ext st st' c1 g1 s1 -> ext st st' c2 g2 s2 -> c1 = c2.
Proof. intros [A _ _ _ _ _ _] [B _ _ _ _ _ _]. rewrite A in B. eapply app_inv_head; eauto. Qed.

(** Code that leaves alone the saved registers, the registers for temporaries and the area of temporaries. *)
Definition calm (m m' : mach) : Prop :=
  (forall r, callee r -> rg m' r = rg m r) /\ (forall i, rg m' (tmpreg i) = rg m (tmpreg i)) /\
  forall a, lpv - P <= a < lpv - lvar_sz G -> mm m' a = mm m a.

Lemma calm_keepT st st' g s m m' : calm m m' -> keepT st st' g s m m'.
Proof. intros [A [B C]]. constructor; auto. Qed.

Definition exted (st st' : gst) : Prop := exists code g s, ext st st' code g s.

Section Ind.
Context {T : Type}.
Definition psem (st st' : gst) (code : list instr) (pre : T -> mach -> Prop) (Q : T -> mach -> mach -> Prop) : Prop :=
  peak st' <= P -> lvar_sz G <= peak st -> forall i m, callees m -> pre i m ->
  exists g s m', ext st st' code g s /\ run sym code None m = Some (None, m') /\ keepT st st' g s m m' /\ Q i m m'.
Definition piece (st st' : gst) (pre : T -> mach -> Prop) (Q : T -> mach -> mach -> Prop) : Prop :=
  exists code g s, ext st st' code g s /\ psem st st' code pre Q.

Lemma piece_exted st st' pre Q : piece st st' pre Q -> exted st st'.
Proof. intros [c [g [s [E _]]]]. exists c, g, s. exact E. Qed.

Lemma piece_weak st st' preA QA (pre : T -> mach -> Prop) (Q : T -> mach -> mach -> Prop) :
  piece st st' preA QA -> (forall i m, callees m -> pre i m -> preA i m /\ forall m', callees m' -> QA i m m' -> Q i m m') ->
  piece st st' pre Q.
Proof.
  intros [c [g0 [s0 [E0 SM]]]] H. exists c, g0, s0. split; [exact E0|]. intros HP HL i m Cm Pm.
  destruct (H i m Cm Pm) as [PA HQ]. destruct (SM HP HL i m Cm PA) as [g [s [m' [E [R1 [K1 Q1]]]]]].
  exists g, s, m'. split; [exact E|]. split; [exact R1|]. split; [exact K1|]. apply HQ; [|exact Q1]. eapply keepT_callees; eauto.
Qed.

Lemma piece_nop st (pre : T -> mach -> Prop) : piece st st pre (fun i m m' => m' = m).
Proof.
  exists [], 0%nat, 0%nat. split; [apply ext_refl|]. intros HP HL i m Cm Pm. exists 0%nat, 0%nat, m.
  split; [apply ext_refl|]. split; [reflexivity|]. split; [apply keepT_refl|reflexivity].
Qed.

(** [Q1 i m m1] may mention the state before; the rest is established after the first piece. *)
Lemma piece_seq st st1 st2 preA QA preB QB (pre : T -> mach -> Prop) (Q : T -> mach -> mach -> Prop) :
  piece st st1 preA QA -> piece st1 st2 preB QB ->
  (forall i m, callees m -> pre i m -> preA i m /\ forall m1, callees m1 -> QA i m m1 ->
     preB i m1 /\ forall m2, callees m2 -> QB i m1 m2 -> Q i m m2) ->
  piece st st2 pre Q.
Proof.
  intros [c1 [g1 [s1 [E1 S1]]]] [c2 [g2 [s2 [E2 S2]]]] H.
  exists (c1 ++ c2), (Nat.max g1 g2), (Nat.max s1 s2). split; [exact (ext_trans _ _ _ _ _ _ _ _ _ _ E1 E2)|].
  intros HP HL i m Cm Pm. pose proof (ex_pk _ _ _ _ _ _ E1). pose proof (ex_pk _ _ _ _ _ _ E2).
  clear g1 s1 g2 s2 E1 E2.
  destruct (H i m Cm Pm) as [PA HQ]. destruct (S1 ltac:(lia) HL i m Cm PA) as [g1 [s1 [m1 [E1 [R1 [K1 Q1]]]]]].
  pose proof (keepT_callees _ _ _ _ _ _ Cm K1) as C1. destruct (HQ m1 C1 Q1) as [PB HQ2].
  destruct (S2 HP ltac:(lia) i m1 C1 PB) as [g2 [s2 [m2 [E2 [R2 [K2 Q2]]]]]].
  exists (Nat.max g1 g2), (Nat.max s1 s2), m2. split; [exact (ext_trans _ _ _ _ _ _ _ _ _ _ E1 E2)|].
  rewrite run_app, R1. split; [exact R2|]. split; [eapply keepT_trans; eauto|].
  apply HQ2; [|exact Q2]. eapply keepT_callees; eauto.
Qed.

Lemma piece_code st code (pre : T -> mach -> Prop) (Q : T -> mach -> mach -> Prop) : labels code = [] ->
  (forall i m, callees m -> pre i m -> exists m', run sym code None m = Some (None, m') /\ calm m m' /\ Q i m m') ->
  piece st (emit code st) pre Q.
Proof.
  intros L H. assert (E : ext st (emit code st) code 0 0) by (apply (ext_emit G st st [] code); [apply ext_refl|exact L]).
  exists code, 0%nat, 0%nat. split; [exact E|].
  intros HP HL i m Cm Pm. destruct (H i m Cm Pm) as [m' [R1 [K1 Q1]]]. exists 0%nat, 0%nat, m'. split; [exact E|]. split; [exact R1|].
  split; [apply calm_keepT; exact K1|exact Q1].
Qed.

Lemma piece_emit st st1 code preA QA (pre : T -> mach -> Prop) (Q : T -> mach -> mach -> Prop) :
  piece st st1 preA QA -> labels code = [] ->
  (forall i m, callees m -> pre i m -> preA i m /\ forall m1, callees m1 -> QA i m m1 ->
     exists m', run sym code None m1 = Some (None, m') /\ calm m1 m' /\ Q i m m') ->
  piece st (emit code st1) pre Q.
Proof.
  intros A L H.
  eapply (piece_seq st st1 (emit code st1) preA QA (fun i m1 => exists m0, callees m0 /\ pre i m0 /\ QA i m0 m1)
     (fun i m1 m2 => forall m0, callees m0 -> pre i m0 -> QA i m0 m1 -> Q i m0 m2)); [exact A| |].
  - apply piece_code; [exact L|]. intros i m1 C1 [m0 [C0 [P0 Q0]]]. destruct (H i m0 C0 P0) as [_ HQ].
    destruct (HQ m1 C1 Q0) as [m' [R1 [K1 _]]]. exists m'. split; [exact R1|]. split; [exact K1|].
    intros m0' C0' P0' Q0'. destruct (H i m0' C0' P0') as [_ HQ']. destruct (HQ' m1 C1 Q0') as [m'' [R1' [_ Q1']]].
    rewrite R1 in R1'. assert (m'' = m') as -> by congruence. exact Q1'.
  - intros i m Cm Pm. split; [apply (H i m Cm Pm)|]. intros m1 C1 Q1. split; [exists m; auto|]. intros m2 _ Q2. apply Q2; auto.
Qed.

(** Pure pieces. *)
Lemma piece_of st st' (pre : T -> mach -> Prop) (Q : T -> mach -> mach -> Prop) :
  exted st st' ->
  (forall i m, callees m -> pre i m -> exists Hh prz Qz (v : Z),
     hspec G sym bs P (mm m) Hh st st' prz (fun v => plainq (Qz v)) /\ prz v /\ Hh m /\
     forall m', good G bs P (mm m) m' -> Qz v m' -> Q i m m') ->
  piece st st' pre Q.
Proof.
  intros [c0 [g0 [s0 E0]]] H. exists c0, g0, s0. split; [exact E0|]. intros HP HL i m Cm Pm.
  destruct (H i m Cm Pm) as [Hh [prz [Qz [v [[c [g [s [E SM]]]] [PV [HM HQ]]]]]]].
  pose proof (ext_code _ _ _ _ _ _ _ _ E0 E) as ->.
  assert (Gm : good G bs P (mm m) m) by (split; auto).
  destruct (SM HP HL v PV m Gm HM) as [j [m' [R1 [K1 [-> Q1]]]]].
  exists g, s, m'. split; [exact E|]. split; [exact R1|]. split; [apply keep_keepT; exact K1|].
  apply HQ; [|exact Q1]. eapply keep_good; eauto.
Qed.

(** Memory outside the temporaries. *)
Definition offT (m m' : mach) : Prop := forall a, a < lpv - P \/ lpv - lvar_sz G <= a -> mm m' a = mm m a.

Lemma piece_push_pop src st st1 st2 st3 preA QA preB QB r64 dest must r tail (pre : T -> mach -> Prop) (Q : T -> mach -> mach -> Prop) :
  piece st st1 preA QA -> piece (push st1) st2 preB QB ->
  pop_from G src r64 dest must st2 = Ok (r, st3) -> labels tail = [] ->
  (must = true /\ dest = AX) \/ (must = false /\ dest = DI) ->
  (forall i m, callees m -> pre i m -> preA i m /\ forall m1, callees m1 -> QA i m m1 ->
     forall m2, callees m2 -> (forall q, (forall i, q <> tmpreg i) -> rg m2 q = rg m1 q) -> offT m1 m2 ->
     preB i m2 /\ forall m3, callees m3 -> QB i m2 m3 ->
     forall m4, (must = true -> r = AX) -> (must = false -> istmp r) ->
       getr (gsize r64) r m4 = getr (gsize r64) src m1 ->
       (forall q, q <> r -> rg m4 q = rg m3 q) -> mm m4 = mm m3 ->
       exists m', run sym tail None m4 = Some (None, m') /\ calm m4 m' /\ Q i m m') ->
  piece st (emit tail st3) pre Q.
Proof.
  intros [c1 [g1 [s1 [E1 S1]]]] [c2 [g2 [s2 [E2 S2]]]] PO LT MD H.
  destruct FR as [FC [FL [FP FV]]].
  set (sz_ := gsize r64) in *.
  assert (Bs : big sz_) by apply gsize_big.
  assert (SL2 : slots st2 = mkslot SL_GP g2 s2 (length (out st1)) :: slots st1).
  { rewrite (ex_sl _ _ _ _ _ _ E2). reflexivity. }
  assert (O2 : out st2 = out st1 ++ Nop :: c2).
  { rewrite (ex_out _ _ _ _ _ _ E2). cbn [push out]. rewrite <- app_assoc. reflexivity. }
  pose proof (ex_pk _ _ _ _ _ _ E1) as PK1. pose proof (ex_pk _ _ _ _ _ _ E2) as PK2. cbn [push peak] in PK2.
  pose proof (ex_cnt _ _ _ _ _ _ E1) as CN1. pose proof (ex_cnt _ _ _ _ _ _ E2) as CN2. cbn [push cnt] in CN2.
  pose proof (ex_g _ _ _ _ _ _ E1) as LG1. pose proof (ex_g _ _ _ _ _ _ E2) as LG2.
  assert (LK2 : lok (cnt st1) (cnt st2) c2) by apply (ex_lok _ _ _ _ _ _ E2).
  (* the slots used by the second piece are determined by its result *)
  assert (UNI : forall code g s, ext (push st1) st2 code g s -> g = g2 /\ s = s2).
  { intros code g s E. pose proof (ex_sl _ _ _ _ _ _ E) as X. rewrite SL2 in X. cbn [push slots bumpm s_kind s_gp s_st s_loc Nat.max] in X.
    injection X. auto. }
  unfold pop_from, pop_tmpstack in PO. rewrite SL2 in PO. cbn [s_kind s_gp s_st s_loc] in PO.
  change (match SL_GP with SL_GP => if (GP_SLOTS <=? g2)%nat then SL_ST else SL_GP | SL_ST => SL_ST end)
    with (if (GP_SLOTS <=? g2)%nat then SL_ST else SL_GP) in PO. fold sz_ in PO.
  destruct (Nat.leb_spec GP_SLOTS g2) as [LG|LG].
  - (* spilled to memory *)
    assert (g2 = 6)%nat by (unfold GP_SLOTS in LG; lia). subst g2.
    set (bot := if reuse G then lvar_sz G + (Z.of_nat s2 + 1) * 8 else peak st2 + 8).
    set (pk := if reuse G then Z.max (peak st2) bot else bot).
    assert (exists rs, r = dest /\
       st3 = mkgst (out st1 ++ Mov None (R sz_ src) (M (BReg (lptr G)) (- bot)) :: c2 ++ rs)
              (bumpm 6 (s2 + 1) (slots st1)) pk (cnt st2) /\
       rs = [Mov None (M (BReg (lptr G)) (- bot)) (R sz_ dest)]) as [rs [-> [E3 ERS]]].
    { unfold pk, bot in *. rewrite bump_st in PO. unfold insrtln, emit in PO.
      destruct (reuse G); cbn [bind s_kind s_loc out slots peak cnt] in PO; injection PO as <- <-;
      eexists; (split; [reflexivity|]); (split; [|reflexivity]); rewrite O2, upd_mid, <- app_assoc; reflexivity. }
    assert (PKL : peak st2 <= pk) by (unfold pk, bot; destruct (reuse G); lia).
    assert (EX : forall g s, ext st st1 c1 g s ->
       ext st (emit tail st3) (c1 ++ (Mov None (R sz_ src) (M (BReg (lptr G)) (- bot)) :: c2 ++ rs) ++ tail)
               (Nat.max g 6) (Nat.max s (s2 + 1))).
    { intros g s Ea. rewrite E3. pose proof (ex_g _ _ _ _ _ _ Ea). constructor; cbn [emit out slots cnt peak]; try lia.
      - rewrite (ex_out _ _ _ _ _ _ Ea), <- !app_assoc. reflexivity.
      - rewrite (ex_sl _ _ _ _ _ _ Ea), bumpm_bumpm. reflexivity.
      - intros RU. pose proof (ex_st _ _ _ _ _ _ Ea RU). unfold pk, bot. rewrite RU. lia.
      - rewrite app_assoc. apply lok_plain; auto.
        eapply lok_app; [exact CN1| |apply (ex_lok _ _ _ _ _ _ E1)|]; [exact CN2|].
        change (?i :: c2 ++ rs) with ([i] ++ c2 ++ rs). apply lok_plain_l; [|reflexivity].
        apply lok_plain; [exact LK2|]. rewrite ERS. reflexivity. }
    eexists _, _, _. split; [exact (EX _ _ E1)|].
    intros HP HL i m Cm Pm.
    destruct (H i m Cm Pm) as [PA HQ].
    assert (HP' : pk <= P) by (rewrite E3 in HP; exact HP). clear HP.
    assert (BOT : 0 <= lpv - bot /\ bot <= P). { unfold pk, bot in *. destruct (reuse G); lia. }
    assert (BOTL : lvar_sz G + 8 <= bot). { unfold bot. destruct (reuse G); lia. }
    destruct (S1 ltac:(lia) HL i m Cm PA) as [ga [sa [m1 [Ea [R1 [K1 Q1]]]]]].
    pose proof (keepT_callees _ _ _ _ _ _ Cm K1) as C1.
    assert (EA : forall q, callees q -> ea sym (BReg (lptr G)) (- bot) q = lpv - bot).
    { intros q A. unfold ea. rewrite A by auto. fold lpv. apply Z.mod_small. lia. }
    set (m2 := setm m1 (storen (nbytes sz_) (lpv - bot) (getr sz_ src m1) (mm m1))).
    assert (X1 : exec1 sym (Mov None (R sz_ src) (M (BReg (lptr G)) (- bot))) m1 = Some m2).
    { unfold m2. rewrite <- (EA m1) by auto. destruct Bs as [-> | ->]; reflexivity. }
    assert (NBY : Z.of_nat (nbytes sz_) <= 8) by (destruct Bs as [-> | ->]; cbn; lia).
    assert (C2 : callees m2) by exact C1.
    destruct (HQ m1 C1 Q1 m2 C2) as [PB HQ2].
    { intros; reflexivity. }
    { intros a Ha. cbn [m2 setm mm]. rewrite storen_other by lia. reflexivity. }
    destruct (S2 ltac:(lia) ltac:(cbn [push peak]; lia) i m2 C2 PB) as [gb [sb [m3 [Eb [R3 [K3 Q3]]]]]].
    destruct (UNI _ _ _ Eb) as [-> ->]. pose proof (keepT_callees _ _ _ _ _ _ C2 K3) as C3.
    assert (LD : loadn (nbytes sz_) (lpv - bot) (mm m3) = getr sz_ src m1).
    { rewrite (loadn_ext _ _ _ (mm m2)).
      - cbn [m2 setm mm]. rewrite loadn_storen, <- nbits_nbytes. unfold getr. apply mod_mod_n. pose proof (nbits_pos sz_). lia.
      - intros a Ha. apply (kt_m _ _ _ _ _ _ K3); [lia|]. unfold CgInv.zhi, CgInv.zlo. cbn [push peak].
        unfold bot in *. destruct (reuse G); lia. }
    set (m4 := putr sz_ dest (getr sz_ src m1) m3).
    assert (X4 : exec1 sym (Mov None (M (BReg (lptr G)) (- bot)) (R sz_ dest)) m3 = Some m4).
    { unfold m4. rewrite <- LD, <- (EA m3) by auto. destruct Bs as [-> | ->]; reflexivity. }
    destruct (HQ2 m3 C3 Q3 m4) as [m5 [R5 [[P5 [P5t P5m]] Q5]]].
    { intros ->. destruct MD as [[_ ->]|[X _]]; [reflexivity|discriminate X]. }
    { intros ->. destruct MD as [[X _]|[_ ->]]; [discriminate X|left; reflexivity]. }
    { unfold m4, getr at 1. destruct Bs as [-> | ->]; cbn [putr setr rg]; 
      destruct MD as [[_ ->]|[_ ->]]; cbn [reg_eqb]; rewrite mod_mod_n by (cbn; lia);
      apply Z.mod_small; apply getr_range. }
    { intros q NQ. unfold m4. apply putr_other. exact NQ. }
    { unfold m4. apply putr_mm. }
    exists (Nat.max ga 6), (Nat.max sa (s2 + 1)), m5. split; [exact (EX _ _ Ea)|]. split; [|split; [|exact Q5]].
    { rewrite run_app, R1, run_app. cbn [app]. rewrite ERS. cbn [run]. rewrite X1, run_app, R3.
      cbn [run]. rewrite X4. exact R5. }
    rewrite E3. constructor.
    + intros q Cq.
      assert (q <> dest). { destruct MD as [[_ ->]|[_ ->]]; destruct Cq as [-> | [-> | ->]]; discriminate. }
      rewrite P5 by auto. unfold m4. rewrite putr_other by auto.
      rewrite (kt_c _ _ _ _ _ _ K3) by auto. cbn [m2 setm rg]. apply (kt_c _ _ _ _ _ _ K1). exact Cq.
    + intros j Hj. lia.
    + intros a RA Ha. rewrite P5m by exact RA. unfold m4. rewrite putr_mm.
      unfold CgInv.zhi, CgInv.zlo in Ha. cbn [emit peak] in Ha.
      rewrite (kt_m _ _ _ _ _ _ K3); [|exact RA|].
      * cbn [m2 setm mm]. rewrite storen_other.
        -- apply (kt_m _ _ _ _ _ _ K1); [exact RA|]. unfold CgInv.zhi, CgInv.zlo, bot, pk in *. destruct (reuse G); lia.
        -- unfold bot, pk in *. destruct (reuse G); lia.
      * unfold CgInv.zhi, CgInv.zlo. cbn [push peak]. unfold bot, pk in *. destruct (reuse G); lia.
  - (* kept in a register *)
    unfold GP_SLOTS in LG.
    cbn [bind s_kind s_loc s_gp out slots peak cnt] in PO. rewrite bump_gp in PO. unfold insrtln, emit in PO.
    cbn [out slots peak cnt] in PO. rewrite O2, upd_mid in PO.
    set (pr := tmpreg g2) in *.
    assert (exists rs, rs = (if must then [Mov None (R sz_ pr) (R sz_ dest)] else []) /\
       r = (if must then dest else pr) /\
       st3 = mkgst (out st1 ++ Mov None (R sz_ src) (R sz_ pr) :: c2 ++ rs)
              (bumpm (g2 + 1) s2 (slots st1)) (peak st2) (cnt st2)) as [rs [ERS [ER E3]]].
    { destruct must; injection PO as <- <-; eexists; (split; [reflexivity|]); (split; [reflexivity|]).
      - rewrite <- app_assoc. reflexivity.
      - rewrite app_nil_r. reflexivity. }
    assert (EX : forall g s, ext st st1 c1 g s ->
       ext st (emit tail st3) (c1 ++ (Mov None (R sz_ src) (R sz_ pr) :: c2 ++ rs) ++ tail)
               (Nat.max g (g2 + 1)) (Nat.max s s2)).
    { intros g s Ea. rewrite E3. pose proof (ex_g _ _ _ _ _ _ Ea). constructor; cbn [emit out slots cnt peak]; try lia.
      - rewrite (ex_out _ _ _ _ _ _ Ea), <- !app_assoc. reflexivity.
      - rewrite (ex_sl _ _ _ _ _ _ Ea), bumpm_bumpm. reflexivity.
      - intros RU. pose proof (ex_st _ _ _ _ _ _ Ea RU). pose proof (ex_st _ _ _ _ _ _ E2 RU). lia.
      - rewrite app_assoc. apply lok_plain; auto.
        eapply lok_app; [exact CN1| |apply (ex_lok _ _ _ _ _ _ E1)|]; [exact CN2|].
        change (?i :: c2 ++ rs) with ([i] ++ c2 ++ rs). apply lok_plain_l; [|reflexivity].
        apply lok_plain; [exact LK2|]. rewrite ERS. destruct must; reflexivity. }
    eexists _, _, _. split; [exact (EX _ _ E1)|].
    intros HP HL i m Cm Pm. rewrite E3 in HP. cbn [emit peak] in HP.
    destruct (H i m Cm Pm) as [PA HQ].
    destruct (S1 ltac:(lia) HL i m Cm PA) as [ga [sa [m1 [Ea [R1 [K1 Q1]]]]]].
    pose proof (keepT_callees _ _ _ _ _ _ Cm K1) as C1.
    set (m2 := putr sz_ pr (getr sz_ src m1) m1).
    assert (X1 : exec1 sym (Mov None (R sz_ src) (R sz_ pr)) m1 = Some m2).
    { unfold m2. destruct Bs as [-> | ->]; reflexivity. }
    assert (C2 : callees m2).
    { intros q Cq. unfold m2. rewrite putr_other; [apply C1; exact Cq|]. intros ->. eapply tmp_not_callee; [exact Cq|reflexivity]. }
    destruct (HQ m1 C1 Q1 m2 C2) as [PB HQ2].
    { intros q NQ. unfold m2. apply putr_other. apply NQ. }
    { intros a Ha. unfold m2. rewrite putr_mm. reflexivity. }
    destruct (S2 ltac:(lia) ltac:(cbn [push peak]; lia) i m2 C2 PB) as [gb [sb [m3 [Eb [R3 [K3 Q3]]]]]].
    destruct (UNI _ _ _ Eb) as [-> ->]. pose proof (keepT_callees _ _ _ _ _ _ C2 K3) as C3.
    assert (PV : getr sz_ pr m3 = getr sz_ src m1).
    { unfold getr at 1. unfold pr. rewrite (kt_t _ _ _ _ _ _ K3) by lia. fold pr. unfold m2.
      destruct Bs as [-> | ->]; cbn [putr setr rg]; replace (reg_eqb pr pr) with true by (destruct pr; reflexivity);
      rewrite mod_mod_n by (cbn; lia); apply Z.mod_small; apply getr_range. }
    set (m4 := if must then putr sz_ dest (getr sz_ pr m3) m3 else m3).
    assert (X4 : run sym rs None m3 = Some (None, m4)).
    { rewrite ERS. unfold m4. destruct must; [|reflexivity]. destruct Bs as [-> | ->]; reflexivity. }
    assert (M4 : forall q, q <> r -> rg m4 q = rg m3 q).
    { intros q NQ. unfold m4. rewrite ER in NQ. destruct must; [apply putr_other; exact NQ|reflexivity]. }
    assert (M4m : mm m4 = mm m3) by (unfold m4; destruct must; [apply putr_mm|reflexivity]).
    destruct (HQ2 m3 C3 Q3 m4) as [m5 [R5 [[P5 [P5t P5m]] Q5]]].
    { intros ->. destruct MD as [[_ ->]|[X _]]; [exact ER|discriminate X]. }
    { intros ->. rewrite ER. apply tmpreg_istmp. }
    { unfold m4. rewrite ER. destruct must; [|exact PV].
      rewrite PV. unfold getr at 1. destruct Bs as [-> | ->]; cbn [putr setr rg]; 
      destruct MD as [[_ ->]|[X _]]; try discriminate X; cbn [reg_eqb]; rewrite mod_mod_n by (cbn; lia);
      apply Z.mod_small; apply getr_range. }
    { exact M4. }
    { exact M4m. }
    exists (Nat.max ga (g2 + 1)), (Nat.max sa s2), m5. split; [exact (EX _ _ Ea)|]. split; [|split; [|exact Q5]].
    { rewrite run_app, R1, run_app. cbn [app run]. rewrite X1, run_app, R3, X4. exact R5. }
    assert (RC : forall q, callee q -> q <> r).
    { intros q Cq. rewrite ER. destruct MD as [[-> ->]|[-> _]].
      - destruct Cq as [-> | [-> | ->]]; discriminate.
      - intros ->. eapply tmp_not_callee; [exact Cq|reflexivity]. }
    rewrite E3. constructor.
    + intros q Cq. specialize (RC q Cq).
      rewrite P5, M4 by auto. rewrite (kt_c _ _ _ _ _ _ K3) by auto. unfold m2. rewrite putr_other.
      * apply (kt_c _ _ _ _ _ _ K1). exact Cq.
      * intros ->. eapply tmp_not_callee; [exact Cq|reflexivity].
    + intros j Hj. assert (NE : tmpreg j <> pr). { intros X. apply tmpreg_inj in X; lia. }
      assert (NR : tmpreg j <> r).
      { rewrite ER. destruct must; [|exact NE]. destruct MD as [[_ ->]|[X _]]; [apply tmp_not_scratch|discriminate X]. }
      rewrite P5t, M4 by auto. rewrite (kt_t _ _ _ _ _ _ K3) by lia.
      unfold m2. rewrite putr_other by exact NE. apply (kt_t _ _ _ _ _ _ K1). lia.
    + intros a RA Ha. rewrite P5m, M4m by exact RA. unfold CgInv.zhi, CgInv.zlo in Ha. cbn [emit peak] in Ha.
      rewrite (kt_m _ _ _ _ _ _ K3); [|exact RA|].
      * unfold m2. rewrite putr_mm. apply (kt_m _ _ _ _ _ _ K1); [exact RA|]. unfold CgInv.zhi, CgInv.zlo in *. destruct (reuse G); lia.
      * unfold CgInv.zhi, CgInv.zlo. cbn [push peak]. destruct (reuse G); lia.
Qed.
End Ind.
End Piece.
