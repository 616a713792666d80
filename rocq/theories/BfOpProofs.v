(** Code of assignments to bit-fields. *)
From Coq Require Import ZArith List Bool Lia.
From Verif Require Import Base BitLemmas IntSpec IntLemmas IntModel IntTyped IntProofs IntFold
  IntElab IntMain X86 CgModel CgSpec CgLemmas CgSeq CgSeq2 CgSeq3 CgInv CgTree CgGen CgMain CgHot CgPiece
  StmtSpec StmtModel StmtEff StmtVoid ValSpec ValModel ValProofs BfSpec BfModel BfProofs BfOpSpec BfOpModel BfOpVal.
Import ListNotations.
Local Open Scope Z_scope.

Lemma labels_and s op tmp v : labels (imm_and s op tmp v) = [].
Proof. unfold imm_and. destruct (v =? 0); [reflexivity|]. destruct (v =? -1); [reflexivity|]. apply labels_imm_arith2. Qed.

Lemma labels_value t w c : store_value t w = Ok c -> labels c = [].
Proof. unfold store_value. intros H. bnd H. apply ok_inj in H. subst c. cbn [labels]. apply labels_and. Qed.

Lemma labels_store3 t b o c : store3 t b o = Ok c -> labels c = [].
Proof. unfold store3. intros H. bnd H. injection H as <-. reflexivity. Qed.

Lemma labels_unit t w off p v c : store_unit t w off p v = Ok c -> labels c = [].
Proof.
  unfold store_unit. intros H. bnd H. apply ok_inj in H. subst c.
  rewrite !labels_app, (labels_load3 _ _ _ _ E), labels_and, (labels_store3 _ _ _ _ E0).
  destruct (off =? 0), v; cbn; try reflexivity; match goal with |- context [if ?b then _ else _] => destruct b end; reflexivity.
Qed.

Lemma labels_extend t c : cast_extend_eax t = Ok c -> labels c = [].
Proof. unfold cast_extend_eax. intros H. bnd H. destruct a; try discriminate H; injection H as <-; reflexivity. Qed.

Lemma keeps_bitfield t w off ofs l : gen_bitfield_load t w off ofs = Ok l -> keeps CX l = true.
Proof.
  assert (K : forall a b, keeps CX a = true -> keeps CX b = true -> keeps CX (a ++ b) = true).
  { intros a b A B. unfold keeps in *. rewrite forallb_app, A, B. reflexivity. }
  unfold gen_bitfield_load. intros H.
  assert (X : forall d, (do l <- load3 t (BReg AX) ofs;
    do s <- opsize_of (sz t);
    let shft := (if sz t =? 8 then 64 else 32) - w in
    Ok (l ++ (if shft - off =? 0 then [] else [Sh XShl (CImm (shft - off)) (R s AX)])
          ++ [Sh (if uns t then XShr else XSar) (CImm shft) (R s AX)])) = Ok d -> keeps CX d = true).
  { intros d D. bnd D. apply ok_inj in D. subst d. apply K; [eapply keeps_load; [reflexivity|eassumption]|].
    match goal with |- context [if ?b then [] else _] => destruct b end; reflexivity. }
  destruct (bitwidth_to_ty w (uns t)) as [alt|]; [|auto]. destruct (off =? off / 8 * 8); [|auto].
  eapply keeps_load; [reflexivity|exact H].
Qed.

Lemma vw_wb t : wb (mty t) = vw t. Proof. destruct t; reflexivity. Qed.
Lemma vw_w t w : width_ok t w -> 0 <= w <= vw t.
Proof. intros [A B]. destruct t; cbn in *; lia. Qed.

(** Only the low bits count. *)
Lemma set_low w off old v v' new : 0 <= w -> eqm w v v' -> field_set w off old v new -> field_set w off old v' new.
Proof.
  intros W E [A B]. split; [exact A|]. intros k K. rewrite B by exact K.
  destruct (Z.leb_spec off k), (Z.ltb_spec k (off + w)); cbn [andb]; try reflexivity.
  apply (eqm_bits w _ _ _ E). lia.
Qed.
Lemma conv_low t w v v' : eqm w v v' -> field_conv t w v = field_conv t w v'.
Proof. intros E. unfold field_conv. unfold eqm in E. rewrite E. reflexivity. Qed.

Section BfOp.
Variable G : genv.
Variable sym : nat -> Z.
Variable bs : reg -> Z.
Variable P : Z.
Variable V : list (ityp * nat).
Variable nul : nat.
Variable f : nat.
Variable t : ityp.
Variable w off : Z.
Variable x : nat.
Hypothesis FR : frame_ok G bs P.
Hypothesis CO : cfg_ok (gc G).
Hypothesis HERE : loc G nul = VHere.
Hypothesis UNK : known (gc G) nul = None.
Hypothesis NUL : forall t, ~ In (t, nul) V.
Hypothesis WO : width_ok t w.
Hypothesis INS : inside t w off.
Hypothesis VL : vloc_ok G sym x.
Hypothesis MO : 0 <= moff G x < 2 ^ 31.
Definition ua : Z := (vaddr G sym bs x + moff G x) mod 2 ^ 64.
Hypothesis OUT : outside G bs P ua (sz (mty t)).
Hypothesis DJ : forall u y, In (u, y) V ->
  vaddr G sym bs y + sz (mty u) <= ua \/ ua + sz (mty t) <= vaddr G sym bs y.

Local Notation vaddr := (vaddr G sym bs).
Local Notation good := (good G bs P).
Local Notation c := (gc G).
Local Notation callees := (callees bs).
Local Notation piece := (piece G sym bs P).
Local Notation calm := (calm G bs P).
Local Notation offT := (offT G bs P).
Local Notation idx := ((nat -> Z) * Z)%type.

Definition fvo (m : mach) : Z := field_value t w off (loadn (tysize (mty t)) ua (mm m)).

Lemma ua_range : 0 <= ua < 2 ^ 64. Proof. apply Z.mod_pos_bound. lia. Qed.
Lemma szt : Z.of_nat (tysize (mty t)) = sz (mty t). Proof. destruct t; reflexivity. Qed.
Lemma good_self m : callees m -> good (mm m) m. Proof. intros C. split; auto. Qed.
Lemma fvo_range m : fmin t w <= fvo m <= fmax t w. Proof. apply field_range. apply WO. Qed.
Lemma fvo_in m : in_range t (fvo m). Proof. eapply fld_range; [exact WO|apply fvo_range]. Qed.
Lemma fvo_off m m' : offT m m' -> fvo m' = fvo m.
Proof. intros O. unfold fvo. f_equal. apply loadn_ext. intros a Ha. apply O. rewrite szt in Ha. destruct OUT as [_ X]. lia. Qed.

Lemma labels_addr_unit : labels (gen_addr_unit G x) = [].
Proof.
  unfold gen_addr_unit. destruct (if opt c then _ else _) as [[b o]|]; [reflexivity|].
  rewrite labels_app, labels_gen_addr, labels_imm_add. reflexivity.
Qed.

Lemma addr_ok m : callees m -> slc sym (gen_addr_unit G x) m (fun m' => eqm 64 (rg m' AX) ua).
Proof.
  intros Cm. pose proof (good_self m Cm) as Gm. unfold gen_addr_unit.
  destruct (if opt c then var_memop G x (moff G x) else None) as [[b o]|] eqn:VM.
  - assert (VM' : var_memop G x (moff G x) = Some (b, o)) by (destruct (opt c); [exact VM|discriminate]).
    destruct (var_memop_ok G sym bs P (mm m) x _ b o VM' VL) as [_ EA]. specialize (EA m Gm).
    eexists. split; [cbn [run exec1]; reflexivity|]. split; [prest|]. cbn [rg putr setr reg_eqb nbits].
    rewrite EA. fold ua. apply eqm_mod. lia.
  - eapply slc_app; [apply (gen_addr_ok G sym (fun _ => 0) bs P (mm m)); eauto|]. intros m1 P1 Q1.
    eapply slc_weak; [apply (imm_add_ok sym S8 (moff G x) m1); [right; reflexivity|unfold imm_dom; cbn [size_eqb]; lia]|].
    intros m2 P2 Q2. cbn beta in Q2. cbn [nbits] in Q2. eapply eqm_trans; [exact Q2|]. rewrite Q1. unfold ua. apply eqm_sym, eqm_mod. lia.
Qed.

Lemma load_old l m : ~ bad_field t w off -> gen_bitfield_load (mty t) w off 0 = Ok l -> eqm 64 (rg m AX) ua ->
  slc sym l m (fun m' => eqm (vw t) (rg m' AX) (fvo m) /\ rg m' CX = rg m CX).
Proof.
  intros NB L EA. apply slc_keep; [eapply keeps_bitfield; eauto|].
  destruct WO as [W1 W2]. destruct INS as [O1 O2]. destruct (mty_facts t) as [T [EI [ES [E8 ET]]]].
  assert (NB' : ~ bf_bad (mty t) w off).
  { intros [B1 [B2 [B3 B4]]]. apply NB. split; [|split; [|auto]]; destruct t; cbn in *; congruence || lia. }
  eapply slc_weak; [apply (bitfield_load_ok sym (mty t) w off 0 m l ua T ltac:(rewrite EI; lia) O1 ltac:(rewrite ES; lia) NB')|].
  - unfold ea. rewrite Z.add_0_r. unfold eqm in EA. rewrite EA. apply Z.mod_small, ua_range.
  - apply OUT.
  - exact L.
  - intros m' _ Q. cbn beta in Q. rewrite EI, vw_wb in Q. exact Q.
Qed.

(** ** The value *)
Definition LF (y : nat) : vloc := if Nat.eqb y nul then VLoc (lptr G) (ua - bs (lptr G)) else loc G y.
Definition memF (mem : Z -> Z) (v : Z) : Z -> Z := storen (tysize (mty t)) ua v mem.

Lemma vaddr_LF y : CgInv.vaddr (setlocs G LF) sym bs y = if Nat.eqb y nul then ua else vaddr y.
Proof.
  unfold CgInv.vaddr. cbn [setlocs loc]. unfold LF. destruct (Nat.eqb y nul); [|reflexivity].
  replace (bs (lptr G) + (ua - bs (lptr G))) with ua by lia. apply Z.mod_small, ua_range.
Qed.

Lemma not_nul u y : In (u, y) V -> Nat.eqb y nul = false.
Proof. intros H. apply Nat.eqb_neq. intros ->. eapply NUL; eauto. Qed.

Lemma memF_load u y mem v : In (u, y) V ->
  loadn (tysize (mty u)) (vaddr y) (memF mem v) = loadn (tysize (mty u)) (vaddr y) mem.
Proof.
  intros H. apply loadn_ext. intros a Ha. unfold memF. apply storen_other. rewrite szt. pose proof (DJ u y H).
  assert (Z.of_nat (tysize (mty u)) = sz (mty u)) by (destruct u; reflexivity). lia.
Qed.

Lemma vars_F env mem v : in_range t v -> vars_ok G sym bs P V env mem ->
  vars_ok (setlocs G LF) sym bs P ((t, nul) :: V) (assign env nul v) (memF mem v).
Proof.
  intros RV A u y [Q|Hy].
  - injection Q as <- <-. rewrite assign_same. split; [exact RV|]. split.
    + split; [|split].
      * unfold vloc_ok. cbn [setlocs loc]. unfold LF. rewrite Nat.eqb_refl. apply FR.
      * rewrite vaddr_LF, Nat.eqb_refl. exact OUT.
      * rewrite vaddr_LF, Nat.eqb_refl. unfold memF. rewrite loadn_storen, szt, assign_same. reflexivity.
    + cbn [setlocs gc]. rewrite UNK. discriminate.
  - destruct (A u y Hy) as [A1 [[A2 [A3 A4]] A5]]. pose proof (not_nul u y Hy) as X. 
    assert (AY : assign env nul v y = env y) by (unfold assign; rewrite X; reflexivity). rewrite AY.
    split; [exact A1|]. split.
    + split; [|split].
      * unfold vloc_ok in *. cbn [setlocs loc pic]. unfold LF. rewrite X. exact A2.
      * rewrite vaddr_LF, X. exact A3.
      * rewrite vaddr_LF, X. rewrite (memF_load u y mem v Hy). unfold assign. rewrite X. exact A4.
    + cbn [setlocs gc]. exact A5.
Qed.

Lemma cold_F env mem v : forall u y, In (u, y) V ->
  leafv (setlocs G LF) sym env bs P (memF mem v) (mty u) y -> leafv G sym env bs P mem (mty u) y.
Proof.
  intros u y Hy [A [B C]]. pose proof (not_nul u y Hy) as X. rewrite vaddr_LF, X in B, C. split; [|split; [exact B|]].
  - unfold vloc_ok in *. cbn [setlocs loc pic] in A. unfold LF in A. rewrite X in A. exact A.
  - rewrite (memF_load u y mem v Hy) in C. exact C.
Qed.

Lemma null_code o e a st st' : uses V e -> elab c e = Ok a ->
  gen_expr_null_lhs G nul f (arith_kind t o) (mty t) a st = Ok st' ->
  piece st st'
    (fun (i : idx) m => vars_ok G sym bs P V (fst i) (mm m) /\ in_range t (fst i x) /\ eqm (vw t) (rg m AX) (fst i x) /\
       exists z, ceval (assign (fst i) nul (fst i x)) (aexp o (EVar t nul) e) = Some z /\ eqm w (conv t z) (snd i))
    (fun i m m' => good (mm m) m' /\ eqm w (rg m' AX) (snd i)).
Proof.
  intros U E H. unfold gen_expr_null_lhs in H. bnd H.
  assert (TR : elab c (ECast t (aexp o (EVar t nul) e)) = Ok a1).
  { rewrite <- (null_tree G nul t o e a E). rewrite E0. exact E1. }
  pose proof (hot_tree G V nul UNK t o e a1 U TR) as HT.
  assert (X : exted G st st').
  { destruct (hot_ok G sym (fun _ => 0) bs P (fun _ => 0) nul (mty t) VHere V FR CO HERE UNK NUL f a1 _ _ HT H) as [k [g [s [X _]]]].
    exists k, g, s. exact X. }
  eapply piece_of; [exact X|]. intros [env v] m Cm [VO [RX [HE [z [T EZ]]]]]. cbn [fst snd] in *.
  pose proof (hot_gen G sym (assign env nul (env x)) bs P (mm m) nul (mty t) LF (memF (mm m) (env x)) V FR CO HERE UNK
    (cold_F _ _ _) f a1 _ _ HT H) as SB.
  unfold hmspec in SB. eexists _, _, _, (conv t z). split; [exact SB|].
  pose proof (vars_F env (mm m) (env x) RX VO) as NV.
  assert (U' : uses ((t, nul) :: V) (ECast t (aexp o (EVar t nul) e))).
  { assert (uses ((t, nul) :: V) e) by (eapply uses_weak; [|exact U]; intros; right; auto).
    destruct o; cbn [uses aexp]; split; auto; left; reflexivity. }
  assert (TY : nty a1 = mty t) by exact (er_ty _ _ _ _ (uses_elab _ sym bs P _ _ _ NV CO _ a1 U' TR)).
  split.
  { eapply uses_pre; eauto. cbn [ceval]. rewrite T. reflexivity. }
  split.
  - unfold CgHot.HE. rewrite vw_hole, assign_same. exact HE.
  - intros m' Gm Q. split; [exact Gm|]. eapply eqm_trans; [|exact EZ]. eapply eqm_le; [|exact Q].
    pose proof (vw_node a1 t TY). pose proof (vw_w t w WO). lia.
Qed.

Lemma set_code e a r st st' : uses V e -> elab c e = Ok a -> new_cast c a (mty t) = Ok r ->
  gen G f MExpr r st = Ok st' ->
  piece st st'
    (fun (i : idx) m => vars_ok G sym bs P V (fst i) (mm m) /\ ceval (fst i) (ECast t e) = Some (snd i))
    (fun i m m' => good (mm m) m' /\ eqm w (rg m' AX) (snd i)).
Proof.
  intros U E E1 H.
  assert (TR : elab c (ECast t e) = Ok r) by (cbn [elab]; rewrite E; exact E1).
  assert (X : exted G st st').
  { destruct (gen_ok G sym (fun _ => 0) bs P (fun _ => 0) FR CO f MExpr r _ _ H) as [k [g [s [X _]]]].
    exists k, g, s. exact X. }
  eapply piece_of; [exact X|]. intros [env v] m Cm [VO T]. cbn [fst snd] in *.
  pose proof (gen_ok G sym env bs P (mm m) FR CO f MExpr r _ _ H) as SB. cbn [mspec] in SB. apply spec_h in SB.
  assert (TY : nty r = mty t) by exact (er_ty _ _ _ _ (uses_elab _ sym bs P _ _ _ VO CO (ECast t e) r U TR)).
  eexists _, _, _, v. split; [exact SB|]. split; [eapply uses_pre with (e := ECast t e); eauto|]. split; [exact Logic.I|].
  intros m' Gm Q. split; [exact Gm|]. eapply eqm_le; [|exact Q].
  pose proof (vw_node r t TY). pose proof (vw_w t w WO). lia.
Qed.

(** ** The store *)
Definition upd (m m' : mach) (v : Z) : Prop :=
  (forall a, a < lpv G bs - P \/ lpv G bs - lvar_sz G <= a -> a < ua \/ ua + sz (mty t) <= a -> mm m' a = mm m a) /\
  field_set w off (loadn (tysize (mty t)) ua (mm m)) v (loadn (tysize (mty t)) ua (mm m')).
Definition done (void : bool) (v : Z) (m m' : mach) : Prop :=
  upd m m' v /\ (void = false -> ~ bad_value t w off -> eqm (result_bits t) (rg m' AX) (field_conv t w v)).

Lemma istmp_not r : istmp r -> r <> AX /\ r <> CX /\ r <> DX /\ ~ callee r.
Proof. intros [->|[->|[->|[->|[->| ->]]]]]; repeat split; try discriminate; intros [X|[X|X]]; discriminate. Qed.

Lemma tail_fin r m0 m4 m' v z void : istmp r -> eqm 64 (rg m4 r) ua -> callees m4 -> offT m0 m4 ->
  eqm w z v ->
  (forall q, q <> AX -> q <> CX -> q <> DX -> rg m' q = rg m4 q) ->
  (forall y, y < ua \/ ua + sz (mty t) <= y -> mm m' y = mm m4 y) ->
  field_set w off (loadn (tysize (mty t)) ua (mm m4)) z (loadn (tysize (mty t)) ua (mm m')) ->
  (void = false -> ~ bad_value t w off -> eqm (result_bits t) (rg m' AX) (field_conv t w z)) ->
  calm m4 m' /\ done void v m0 m'.
Proof.
  intros IT RA C4 O EZ RG MM FS RV. split; [|split].
  - split; [|split].
    + intros q Cq. apply callee_not in Cq. apply RG; tauto.
    + intros i. pose proof (tmp_not_scratch i). apply RG; tauto.
    + intros a Ha. apply MM. destruct OUT as [_ X]. lia.
  - split.
    + intros a A1 A2. rewrite MM by exact A2. apply O. exact A1.
    + eapply set_low; [pose proof (vw_w t w WO); lia|exact EZ|].
      replace (loadn (tysize (mty t)) ua (mm m0)) with (loadn (tysize (mty t)) ua (mm m4)); [exact FS|].
      apply loadn_ext. intros a Ha. apply O. rewrite szt in Ha. destruct OUT as [_ X]. lia.
  - intros VF NB. rewrite <- (conv_low t w z v EZ). auto.
Qed.

Lemma store_piece src st stA st2 st' (preA : idx -> mach -> Prop) (B : idx -> mach -> Prop) void :
  src = AX \/ src = CX ->
  piece st stA preA (fun i m m1 => offT m m1 /\ eqm 64 (rg m1 src) ua /\ B i m1) ->
  (forall i m1 m2, B i m1 -> callees m2 -> (forall q, (forall i, q <> tmpreg i) -> rg m2 q = rg m1 q) -> offT m1 m2 -> B i m2) ->
  piece (push stA) st2 B (fun i m m' => good (mm m) m' /\ eqm w (rg m' AX) (snd i)) ->
  store_bf G (mty t) w off src void st2 = Ok st' ->
  piece st st' preA (fun i m m' => done void (snd i) m m').
Proof.
  intros SRC PA BS PB H. destruct (mty_facts t) as [T [EI [ES [E8 ET]]]].
  assert (MERGED : (do a <- store_value (mty t) w; do p <- pop_from G src true DI false (emit a st2);
      do b <- store_unit (mty t) w off (fst p) void; Ok (emit b (snd p))) = Ok st' ->
    w < nbits (if sz (mty t) =? 8 then S8 else S4) ->
    piece st st' preA (fun i m m' => done void (snd i) m m')).
  { clear H. intros H WN. bnd H. destruct a0 as [r st3]. cbn [fst snd] in *. injection H as <-.
    set (s := if sz (mty t) =? 8 then S8 else S4) in *.
    assert (PB' : piece (push stA) (emit a st2) B
       (fun i m m' => good (mm m) m' /\ eqm (nbits s) (rg m' CX) (snd i mod 2 ^ w))).
    { eapply piece_emit; [exact PB|eapply labels_value; eauto|]. intros i m Cm Bm. split; [exact Bm|].
      intros m1 C1 [G1 Q1]. destruct (value_ok sym (mty t) w s m1 a T (proj1 WO) eq_refl WN E) as [m' [R1 [P1 [Q2 _]]]].
      exists m'. split; [exact R1|]. split; [apply (pres_calm G bs P (fun _ => 0)); exact P1|]. split; [eapply pres_good; eauto|].
      unfold eqm in Q1. rewrite <- Q1. exact Q2. }
    eapply (piece_push_pop G sym bs P FR src st stA (emit a st2) st3 preA _ B _ true DI false r a1 preA);
      [exact PA|exact PB'|exact E0|eapply labels_unit; eauto|right; auto|].
    intros i m Cm Pm. split; [exact Pm|]. intros m1 C1 [O1 [A1 B1]] m2 C2 RG O2. split; [eapply BS; eauto|].
    intros m3 C3 [G3 Q3] m4 _ IT GR OT MM. specialize (IT eq_refl). destruct (istmp_not r IT) as [N1 [N2 [N3 NC]]].
    assert (RA : eqm 64 (rg m4 r) ua).
    { unfold getr in GR. cbn [gsize nbits] in GR. eapply eqm_trans; [|exact A1]. exact GR. }
    assert (EA : ea sym (BReg r) 0 m4 = ua).
    { unfold ea. rewrite Z.add_0_r. unfold eqm in RA. rewrite RA. apply Z.mod_small, ua_range. }
    assert (CX4 : rg m4 CX = rg m3 CX) by (apply OT; congruence).
    destruct INS as [I1 I2].
    destruct (unit_ok sym (mty t) w off r m4 a1 ua s void (snd i) T (proj1 WO) I1 ltac:(rewrite ES; lia) N1 N2 N3 EA eq_refl WN
      ltac:(rewrite CX4; exact Q3) E1) as [m' [R5 [[S1 [S2 S3]] RV]]].
    exists m'. split; [exact R5|].
    assert (C4 : callees m4) by (intros q Cq; rewrite OT; [apply C3; exact Cq|intros ->; contradiction]).
    assert (O4 : offT m m4).
    { intros b Hb. rewrite MM, (proj2 G3), O2, O1 by exact Hb. reflexivity. }
    eapply tail_fin; eauto using eqm_refl.
    - intros y Hy. apply S2. rewrite szt. exact Hy.
    - intros VF _. rewrite <- (set_read t w off _ _ _ (proj1 WO) I1 S3).
      rewrite <- EI at 2. eapply eqm_le; [|exact (RV VF)]. subst s. destruct t; cbn; lia. }
  unfold store_bf in H. destruct (bitwidth_to_ty w (uns (mty t))) as [alt|] eqn:BW; cycle 1.
  { apply MERGED; [exact H|]. destruct WO as [W1 W2]. unfold bitwidth_to_ty in BW.
    destruct (Z.eqb_spec w 8), (Z.eqb_spec w 16), (Z.eqb_spec w 32), (Z.eqb_spec w 64); try discriminate BW.
    destruct t; cbn in W2 |- *; lia. }
  destruct (off =? off / 8 * 8) eqn:OB; cycle 1.
  { apply MERGED; [exact H|]. apply Z.eqb_neq in OB. destruct INS as [I1 I2].
    assert (off <> 0) by (intros ->; apply OB; reflexivity). destruct t; cbn in I2 |- *; lia. }
  bnd H. destruct a as [r st3]. cbn [fst snd] in *.
  assert (CODE : exists code, gen_bitfield_store (mty t) w off r void = Ok code /\ st' = emit code st3 /\ labels code = []).
  { unfold gen_bitfield_store. rewrite BW, OB, E0. cbn [bind]. destruct (negb void && (sz alt <? 4)).
    - bnd H. injection H as <-. exists (a0 ++ a). split; [reflexivity|]. split; [reflexivity|].
      rewrite labels_app, (labels_store3 _ _ _ _ E0), (labels_extend _ _ E1). reflexivity.
    - injection H as <-. exists a0. split; [reflexivity|]. split; [reflexivity|]. eapply labels_store3; eauto. }
  destruct CODE as [code [GC [-> LC]]].
  eapply (piece_push_pop G sym bs P FR src st stA st2 st3 preA _ B _ true DI false r code preA);
      [exact PA|exact PB|exact E|exact LC|right; auto|].
  intros i m Cm Pm. split; [exact Pm|]. intros m1 C1 [O1 [A1 B1]] m2 C2 RG O2. split; [eapply BS; eauto|].
  intros m3 C3 [G3 Q3] m4 _ IT GR OT MM. specialize (IT eq_refl). destruct (istmp_not r IT) as [N1 [N2 [N3 NC]]].
  assert (RA : eqm 64 (rg m4 r) ua).
  { unfold getr in GR. cbn [gsize nbits] in GR. eapply eqm_trans; [|exact A1]. exact GR. }
  assert (AX4 : rg m4 AX = rg m3 AX) by (apply OT; congruence).
  destruct (bf_store sym t w off r m4 ua void code WO INS N1 N2 N3) as [m' [R5 [S1 [S2 [S3 RV]]]]].
  { unfold eqm in RA. rewrite RA. apply Z.mod_small, ua_range. }
  { rewrite <- ES. apply OUT. }
  { exact GC. }
  exists m'. split; [exact R5|].
  assert (C4 : callees m4) by (intros q Cq; rewrite OT; [apply C3; exact Cq|intros ->; contradiction]).
  assert (O4 : offT m m4).
  { intros b Hb. rewrite MM, (proj2 G3), O2, O1 by exact Hb. reflexivity. }
  eapply tail_fin with (z := rg m4 AX); eauto.
  - rewrite AX4. exact Q3.
  - rewrite ES. exact S2.
  - rewrite ET. exact S3.
Qed.

(** ** The expressions *)
Lemma vars_off env m m' : vars_ok G sym bs P V env (mm m) -> offT m m' -> vars_ok G sym bs P V env (mm m').
Proof.
  intros A O u y Hy. destruct (A u y Hy) as [A1 [[A2 [A3 A4]] A5]]. split; [exact A1|]. split; [|exact A5].
  split; [exact A2|]. split; [exact A3|]. rewrite <- A4. apply loadn_ext. intros a Ha. apply O.
  assert (Z.of_nat (tysize (mty u)) = sz (mty u)) by (destruct u; reflexivity). destruct A3 as [_ X]. lia.
Qed.

Lemma pres_off m m' : pres m m' -> offT m m'.
Proof. intros [_ E] a _. rewrite E. reflexivity. Qed.

Lemma ax_not_tmp q : q = AX \/ q = CX -> forall j, q <> tmpreg j.
Proof. intros Hq j. pose proof (tmp_not_scratch j). destruct Hq as [-> | ->]; intuition congruence. Qed.

Lemma set_piece e n void st st' : uses V e -> parse_beff c t w off x (BSet e) = Ok n -> gen_bf G nul f void n st = Ok st' ->
  piece st st' (fun (i : idx) m => vars_ok G sym bs P V (fst i) (mm m) /\ ceval (fst i) (ECast t e) = Some (snd i))
    (fun i m m' => done void (snd i) m m').
Proof.
  intros U PB H. cbn [parse_beff] in PB. bnd PB. injection PB as <-. cbn [gen_bf] in H. bnd H.
  eapply (store_piece AX st (emit (gen_addr_unit G x) st)); [auto| | |eapply set_code; eauto|exact H].
  - apply piece_code; [apply labels_addr_unit|]. intros i m Cm [VO CE]. destruct (addr_ok m Cm) as [m' [R1 [P1 Q1]]].
    exists m'. split; [exact R1|]. split; [apply (pres_calm G bs P (fun _ => 0)); exact P1|].
    split; [apply pres_off; exact P1|]. split; [exact Q1|]. split; [|exact CE]. eapply vars_off; [exact VO|apply pres_off; exact P1].
  - intros i m1 m2 [VO CE] C2 RG O. split; [eapply vars_off; eauto|exact CE].
Qed.

(** The value computed in the type that follows from the declared type. *)
Definition wide_value (o : aop) (e : exp) (env : nat -> Z) (v : Z) : Prop :=
  exists z, ceval (assign env nul (env x)) (aexp o (EVar t nul) e) = Some z /\ eqm w (conv t z) v.

Definition arith_pre (o : aop) (e : exp) (i : idx) (m : mach) : Prop :=
  vars_ok G sym bs P V (fst i) (mm m) /\ fst i x = fvo m /\ wide_value o e (fst i) (snd i).

Lemma pre_off o e i m m' : arith_pre o e i m -> offT m m' -> arith_pre o e i m'.
Proof.
  intros [A [B C]] O. split; [eapply vars_off; eauto|]. split; [|exact C]. rewrite (fvo_off m m' O). exact B.
Qed.

Lemma arith_piece o e a l void st st2 st' : uses V e -> elab c e = Ok a -> ~ bad_field t w off ->
  gen_bitfield_load (mty t) w off 0 = Ok l ->
  gen_expr_null_lhs G nul f (arith_kind t o) (mty t) a (emit l (push (emit (gen_addr_unit G x) st))) = Ok st2 ->
  store_bf G (mty t) w off AX void st2 = Ok st' ->
  piece st st' (arith_pre o e) (fun i m m' => done void (snd i) m m').
Proof.
  intros U E NB L HN H.
  eapply (store_piece AX st (emit (gen_addr_unit G x) st) st2 st' _ (fun i m => arith_pre o e i m /\ eqm 64 (rg m AX) ua));
    [auto| | | |exact H].
  - apply piece_code; [apply labels_addr_unit|]. intros i m Cm Pm. destruct (addr_ok m Cm) as [m' [R1 [P1 Q1]]].
    exists m'. split; [exact R1|]. split; [apply (pres_calm G bs P (fun _ => 0)); exact P1|].
    split; [apply pres_off; exact P1|]. split; [exact Q1|]. split; [|exact Q1]. eapply pre_off; [exact Pm|apply pres_off; exact P1].
  - intros i m1 m2 [A B] C2 RG O. split; [eapply pre_off; eauto|]. rewrite RG by (apply ax_not_tmp; auto). exact B.
  - eapply piece_seq; [|eapply null_code; eauto|].
    + apply (piece_code G sym bs P _ l (fun i m => arith_pre o e i m /\ eqm 64 (rg m AX) ua)
        (fun (i : idx) m m' => pres m m' /\ eqm (vw t) (rg m' AX) (fst i x))); [eapply labels_bitfield; eauto|].
      intros i m Cm [[A [B C]] EA]. destruct (load_old l m NB L EA) as [m' [R1 [P1 [Q1 _]]]].
      exists m'. split; [exact R1|]. split; [apply (pres_calm G bs P (fun _ => 0)); exact P1|]. split; [exact P1|]. rewrite B. exact Q1.
    + intros i m Cm Pm. cbn beta in Pm. destruct Pm as [[A [B C]] EA]. split; [split; [split; [exact A|split; [exact B|exact C]]|exact EA]|]. intros m1 C1 [P1 Q1]. split.
      * split; [eapply vars_off; [exact A|apply pres_off; exact P1]|]. split; [rewrite B; apply fvo_in|]. split; [exact Q1|exact C].
      * intros m2 C2 [G2 Q2]. split; [|exact Q2]. destruct P1 as [_ ME]. rewrite <- ME. exact G2.
Qed.

Definition post_done (v : Z) (env : nat -> Z) (m m' : mach) : Prop :=
  upd m m' v /\ eqm (vw t) (rg m' AX) (env x).

Lemma post_piece_bf z l st st2 st3 q : let e := ENum TInt z in uses V e -> elab c e = Ok (NNum ty_int z) -> ~ bad_field t w off ->
  gen_bitfield_load (mty t) w off 0 = Ok l ->
  let st1 := push (emit (gen_addr_unit G x ++ [Mov None (R S8 AX) (R S8 CX)] ++ l) st) in
  gen_expr_null_lhs G nul f (KArith BAdd) (mty t) (NNum ty_int z) (push st1) = Ok st2 ->
  store_bf G (mty t) w off CX true st2 = Ok st3 ->
  pop_gp G true AX true st3 = Ok q ->
  piece st (snd q) (arith_pre (ABin BAdd) e) (fun i m m' => post_done (snd i) (fst i) m m').
Proof.
  intros e U E NB L st1 HN HS PO. destruct q as [r st4]. cbn [snd].
  set (stX := emit (gen_addr_unit G x ++ [Mov None (R S8 AX) (R S8 CX)] ++ l) st) in *.
  set (at2 := fun (i : idx) m => arith_pre (ABin BAdd) e i m /\ eqm 64 (rg m CX) ua /\ eqm (vw t) (rg m AX) (fst i x)).
  assert (AT : forall i m1 m2, at2 i m1 -> callees m2 -> (forall q, (forall i, q <> tmpreg i) -> rg m2 q = rg m1 q) -> offT m1 m2 -> at2 i m2).
  { intros i m1 m2 [A [B C]] C2 RG O. split; [eapply pre_off; eauto|]. rewrite !RG by (apply ax_not_tmp; auto). auto. }
  assert (PA : piece st stX (arith_pre (ABin BAdd) e) (fun i m m' => offT m m' /\ at2 i m')).
  { apply piece_code.
    - rewrite !labels_app, labels_addr_unit, (labels_bitfield _ _ _ _ _ L). reflexivity.
    - intros i m Cm Pm. destruct (addr_ok m Cm) as [m1 [R1 [P1 Q1]]].
      set (m1' := putr S8 CX (getr S8 AX m1) m1).
      assert (P1' : pres m m1').
      { eapply pres_trans; [exact P1|]. split; [|apply putr_mm]. intros q ? ? ?. apply CgSeq3.putr_other. auto. }
      assert (CX1 : eqm 64 (rg m1' CX) ua).
      { change (rg m1' CX) with (getr S8 AX m1 mod 2 ^ 64). eapply eqm_trans; [apply eqm_mod; lia|].
        unfold getr. cbn [nbits]. eapply eqm_trans; [apply eqm_mod; lia|exact Q1]. }
      destruct (load_old l m1' NB L) as [m2 [R2 [P2 [Q2 K2]]]].
      { exact Q1. }
      assert (P02 : pres m m2) by (eapply pres_trans; eauto).
      exists m2. split; [rewrite run_app, R1; exact R2|]. split; [apply (pres_calm G bs P (fun _ => 0)); exact P02|].
      split; [apply pres_off; exact P02|]. split; [eapply pre_off; [exact Pm|apply pres_off; exact P02]|]. rewrite K2. split; [exact CX1|].
      destruct Pm as [_ [B _]]. rewrite B. replace (fvo m) with (fvo m1'); [exact Q2|]. apply fvo_off, pres_off. exact P1'. }
  assert (PS : piece st1 st3 at2 (fun i m m' => done true (snd i) m m')).
  { eapply (store_piece CX st1 st1 st2 st3 at2 at2 true); [auto| |exact AT| |exact HS].
    - eapply piece_weak; [apply piece_nop with (pre := at2)|]. intros i m Cm Am. split; [exact Am|]. intros m' _ ->.
      split; [intros b _; reflexivity|]. split; [apply Am|exact Am].
    - eapply piece_weak; [eapply (null_code (ABin BAdd) e); eauto|]. intros i m Cm [[A [B C]] [EA EV]]. split; [|auto].
      split; [exact A|]. split; [rewrite B; apply fvo_in|]. split; [exact EV|exact C]. }
  rewrite <- (emit_nil st4).
  eapply (piece_push_pop G sym bs P FR AX st stX st3 st4 (arith_pre (ABin BAdd) e) _ at2 _ true AX true r []);
    [exact PA|exact PS|exact PO|reflexivity|left; auto|].
  intros i m Cm Pm. split; [exact Pm|]. intros m1 C1 [O1 A1] m2 C2 RG O2. split; [eapply AT; eauto|].
  intros m3 C3 [[D1 D2] _] m4 RA _ GR OT MM. specialize (RA eq_refl). exists m4. split; [reflexivity|].
  split; [split; [|split]; auto|]. split; [split|].
  - intros b B1 B2. rewrite MM, D1, O2, O1 by auto. reflexivity.
  - rewrite MM. replace (loadn (tysize (mty t)) ua (mm m)) with (loadn (tysize (mty t)) ua (mm m2)); [exact D2|].
    apply loadn_ext. intros b Hb. rewrite szt in Hb. destruct OUT as [_ X]. rewrite O2, O1 by lia. reflexivity.
  - destruct A1 as [_ [_ AV]]. eapply eqm_trans; [|exact AV]. rewrite RA in GR. unfold getr in GR. cbn [gsize nbits] in GR.
    eapply eqm_le; [|exact GR]. destruct t; cbn; lia.
Qed.
End BfOp.
