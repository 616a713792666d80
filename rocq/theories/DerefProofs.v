(** Proofs about folded offsets. *)
From Coq Require Import ZArith List Bool Lia.
From Verif Require Import Base BitLemmas IntSpec IntLemmas IntModel IntTyped IntProofs IntFold
  IntElab IntMain X86 CgModel CgSpec CgLemmas CgSeq CgSeq2 CgSeq3 CgInv CgTree CgGen CgMain CgTotal DerefSpec DerefModel.
Import ListNotations.
Local Open Scope Z_scope.

Scheme ptr_mut := Induction for ptr Sort Prop with lval_mut := Induction for lval Sort Prop.

Definition in64 (z : Z) := - 2 ^ 63 <= z < 2 ^ 63.
Lemma i64_in z : in64 (i64 z).
Proof. unfold in64, i64, sext. pose proof (Z.mod_pos_bound z (2 ^ 64) ltac:(lia)). change (2 ^ (64 - 1)) with (2 ^ 63). destruct (z mod 2 ^ 64 <? 2 ^ 63) eqn:E; lia. Qed.
Lemma i64_eqm z : eqm 64 (i64 z) z.
Proof. apply eqm_sext. lia. Qed.
Lemma i64_small z : in64 z -> i64 z = z.
Proof.
  intros H. pose proof (i64_in z) as R. pose proof (i64_eqm z) as E. unfold eqm, in64 in *.
  assert (D : (i64 z - z) mod 2 ^ 64 = 0) by (rewrite Zminus_mod, E, Z.sub_diag; reflexivity).
  pose proof (Z.div_mod (i64 z - z) (2 ^ 64) ltac:(lia)). rewrite D in H0. assert ((i64 z - z) / 2 ^ 64 = 0); nia.
Qed.
Lemma sext32_small z : - 2 ^ 31 <= z < 2 ^ 31 -> sext 32 z = z.
Proof.
  intros H. pose proof (eqm_sext 32 z ltac:(lia)) as E. unfold eqm in E.
  assert (R : - 2 ^ 31 <= sext 32 z < 2 ^ 31).
  { unfold sext. change (2 ^ (32 - 1)) with (2 ^ 31). pose proof (Z.mod_pos_bound z (2 ^ 32) ltac:(lia)). destruct (z mod 2 ^ 32 <? 2 ^ 31) eqn:X; lia. }
  assert (D : (sext 32 z - z) mod 2 ^ 32 = 0) by (rewrite Zminus_mod, E, Z.sub_diag; reflexivity).
  pose proof (Z.div_mod (sext 32 z - z) (2 ^ 32) ltac:(lia)) as Q. rewrite D in Q. assert ((sext 32 z - z) / 2 ^ 32 = 0); nia.
Qed.

Lemma some_inj {A} (a b : A) : Some a = Some b -> a = b.
Proof. congruence. Qed.

Section Deref.
Variable G : genv.
Variable sym : nat -> Z.
Variable env : nat -> Z.
Variable bs : reg -> Z.
Variable P : Z.
Variable mem0 : Z -> Z.
Hypothesis FR : frame_ok G bs P.
Hypothesis CO : cfg_ok (gc G).
Variable f : nat.

Local Notation good := (good G bs P mem0).
Local Notation spec := (spec G sym bs P mem0).
Local Notation slc := (slc sym).
Local Notation pre := (pre G sym env bs P mem0).
Local Notation lo := (bs (lptr G) - P).
Local Notation hi := (bs (lptr G) - lvar_sz G).
Local Notation pgood := (pgood G sym bs mem0 lo hi env).
Local Notation lgood := (lgood G sym bs mem0 lo hi env).
Local Notation pval := (pval env mem0).
Local Notation laddr := (laddr env mem0).
Local Notation pweight := (pweight env).
Local Notation lweight := (lweight env).

Lemma leaf_pre e n v : wf env e -> known_ok (known (gc G)) env e -> plain_casts e ->
  stored G sym bs mem0 lo hi env e -> elab (gc G) e = Ok n -> ceval env e = Some v -> pre n v.
Proof.
  intros W K C S E V. pose proof (elab_ok _ env CO e W K C n E) as R. split.
  - constructor; [apply (er_wt _ _ _ _ R)|apply (er_v _ _ _ _ R)|apply (er_k _ _ _ _ R)|].
    eapply stored_place; eauto.
  - apply (er_ev _ _ _ _ R). exact V.
Qed.

(** Passing over constants. *)
Lemma strip_ok n : forall ofs n' ofs' v, strip G n ofs = Ok (n', ofs') -> pre n v -> sz (nty n) = 8 -> in64 ofs ->
  in64 ofs' /\ sz (nty n') = 8 /\ exists v', pre n' v' /\ eqm 64 (v' + ofs') (v + ofs).
Proof.
  induction n; intros ofs n' ofs' v0 H Pn SZ IO; cbn [strip] in H;
    try (injection H as <- <-; split; [exact IO|]; split; [exact SZ|]; exists v0; split; [exact Pn|apply eqm_refl]).
  destruct (nbin_pre _ _ _ _ _ _ _ _ _ _ _ Pn) as [P2 [A [Na [x [y [X [Y CB]]]]]]].
  destruct P2 as [_ [_ [[W1 V1 K1 L1] [[W2 V2 K2 L2] _]]]].
  assert (NBI : ity t <> TBool). { apply bool_ity; [apply A|apply arith_nobool; exact A]. }
  cbn [nty] in SZ. assert (WI : iwidth (ity t) = 64). { rewrite width_sz by (first [apply A|apply arith_nobool; exact A]). lia. }
  destruct o; try (injection H as <- <-; split; [exact IO|]; split; [exact SZ|]; exists v0; split; [exact Pn|apply eqm_refl]).
  - bnd H. destruct a as [k|]; [|injection H as <- <-; split; [exact IO|]; split; [exact SZ|]; exists v0; split; [exact Pn|apply eqm_refl]].
    pose proof (const_val G env n2 k W2 V2 K2 E y Y) as ->.
    destruct (IHn1 _ _ _ x H ltac:(split; [constructor; assumption|exact X]) ltac:(rewrite Na; exact SZ) (i64_in _)) as [I1 [I2 [v' [I3 I4]]]].
    split; [exact I1|]. split; [exact I2|]. exists v'. split; [exact I3|]. eapply eqm_trans; [exact I4|].
    pose proof (c_bin_alu BAdd (ity t) x y v0 ltac:(split; discriminate) NBI CB) as Q. rewrite WI in Q. cbn [alu_fun] in Q.
    eapply eqm_trans; [apply eqm_add; [apply eqm_refl|apply i64_eqm]|].
    replace (x + (ofs + rep64 y)) with ((x + rep64 y) + ofs) by lia. apply eqm_add; [|apply eqm_refl].
    eapply eqm_trans; [apply eqm_add; [apply eqm_refl|apply (eqm_rep64 y 64); lia]|exact Q].
  - bnd H. destruct a as [k|]; [|injection H as <- <-; split; [exact IO|]; split; [exact SZ|]; exists v0; split; [exact Pn|apply eqm_refl]].
    pose proof (const_val G env n2 k W2 V2 K2 E y Y) as ->.
    destruct (IHn1 _ _ _ x H ltac:(split; [constructor; assumption|exact X]) ltac:(rewrite Na; exact SZ) (i64_in _)) as [I1 [I2 [v' [I3 I4]]]].
    split; [exact I1|]. split; [exact I2|]. exists v'. split; [exact I3|]. eapply eqm_trans; [exact I4|].
    pose proof (c_bin_alu BSub (ity t) x y v0 ltac:(split; discriminate) NBI CB) as Q. rewrite WI in Q. cbn [alu_fun] in Q.
    eapply eqm_trans; [apply eqm_add; [apply eqm_refl|apply i64_eqm]|].
    replace (x + (ofs - rep64 y)) with ((x - rep64 y) + ofs) by lia. apply eqm_add; [|apply eqm_refl].
    eapply eqm_trans; [apply eqm_sub; [apply eqm_refl|apply (eqm_rep64 y 64); lia]|exact Q].
Qed.

Definition nobin (n : node) : Prop := match n with NBin BAdd _ _ _ | NBin BSub _ _ _ => False | _ => True end.
Lemma nobin_strip n ofs n' ofs' : nobin n -> strip G n ofs = Ok (n', ofs') -> n' = n /\ ofs' = ofs.
Proof. destruct n; cbn [nobin strip]; intros N H; try (injection H as <- <-; auto). destruct o; try contradiction; injection H as <- <-; auto. Qed.
Lemma new_cast_shape c n t n' : new_cast c n t = Ok n' -> n' = n \/ nobin n'.
Proof.
  unfold new_cast. destruct (opt c); [|intros H; injection H as <-; right; exact Logic.I].
  destruct (eval2 c (NCast t n)); try discriminate; intros H; try (injection H as <-; right; exact Logic.I).
  destruct (negb (is_bitfield n) && same c (nty n) t); [injection H as <-; left; reflexivity|].
  destruct (is_redundant_cast n t) eqn:R; injection H as <-; [|right; exact Logic.I].
  right. destruct n; try discriminate R; exact Logic.I.
Qed.
Lemma promo_shape c n n' : int_promotion c n = Ok n' -> n' = n \/ nobin n'.
Proof.
  unfold int_promotion. intros H.
  repeat match type of H with
  | (match ?x with _ => _ end) = _ => destruct x
  | (if ?x then _ else _) = _ => destruct x
  | bind _ _ = _ => bnd H
  end; try (injection H as <-; left; reflexivity); eapply new_cast_shape; exact H.
Qed.
Lemma conv_shape c a b a2 b2 : usual_arith_conv c a b = Ok (a2, b2) -> a2 = a \/ nobin a2.
Proof.
  unfold usual_arith_conv. intros H. bnd H. injection H as <- <-.
  destruct (new_cast_shape _ _ _ _ E2) as [->|]; [|auto]. eapply promo_shape; exact E.
Qed.

Lemma spine_nonneg e : 0 <= spine_weight env e.
Proof. induction e; cbn [spine_weight]; try lia. destruct o; try lia; destruct (ceval env e2); lia. Qed.

Lemma strip_bound e : forall n v ofs n' ofs', wf env e -> known_ok (known (gc G)) env e -> plain_casts e ->
  elab (gc G) e = Ok n -> ceval env e = Some v -> strip G n ofs = Ok (n', ofs') ->
  Z.abs ofs + spine_weight env e < 2 ^ 63 -> Z.abs ofs' <= Z.abs ofs + spine_weight env e.
Proof.
  induction e; intros n v ofs n' ofs' W K C E V H B; cbn [elab] in E;
    try (assert (NB : nobin n) by (repeat (match type of E with (match ?x with _ => _ end) = _ => destruct x end); bnd E; injection E as <-; try exact Logic.I; destruct (uns _); exact Logic.I);
         destruct (nobin_strip _ _ _ _ NB H) as [_ ->]; pose proof (spine_nonneg (ENum TInt 0)); cbn [spine_weight]; lia).
  - (* EBin *)
    bnd E. destruct a1 as [l r]. cbn [fst snd] in E. injection E as <-. rename E0 into EA. rename E1 into EB. rename E2 into EC.
    cbn [wf known_ok plain_casts] in W, K, C. destruct W as [Wa Wb], K as [Ka Kb], C as [Ca Cb].
    pose proof (elab_ok _ env CO e1 Wa Ka Ca _ EA) as RA. pose proof (elab_ok _ env CO e2 Wb Kb Cb _ EB) as RB.
    cbn [ceval] in V. destruct (ceval env e1) as [x|] eqn:X; [|discriminate]. destruct (ceval env e2) as [y|] eqn:Y; [|discriminate].
    pose proof (usual_arith_conv_ok _ _ _ _ _ CO (er_wt _ _ _ _ RA) (er_wt _ _ _ _ RB) EC) as U. cbv zeta in U.
    pose proof (er_promoted _ _ _ _ RA) as PA. pose proof (er_promoted _ _ _ _ RB) as PB.
    pose proof (promote_value env _ (er_wt _ _ _ _ RB) (er_v _ _ _ _ RB) y (er_ev _ _ _ _ RB _ Y)) as PV.
    rewrite PA, PB in U. rewrite PB in PV. destruct U as [Wl [Wr [Tl [Tr [_ [_ [_ [_ Vr]]]]]]]].
    destruct (Vr env (er_v _ _ _ _ RB) (er_k _ _ _ _ RB)) as [V2 [K2 EV]]. specialize (EV y (er_ev _ _ _ _ RB _ Y)).
    rewrite (conv_id _ y PV) in EV.
    assert (KV : forall k, const_of G r = Ok (Some k) -> Z.abs k = Z.abs (rep64 (conv (ctype (EBin o e1 e2)) y))).
    { intros k Hk. rewrite (const_val G env r k Wr V2 K2 Hk _ EV). reflexivity. }
    pose proof (spine_nonneg e1) as N1. 
    assert (GO : forall k o2, Z.abs o2 <= Z.abs ofs + Z.abs k -> o2 = i64 o2 -> const_of G r = Ok (Some k) -> strip G l o2 = Ok (n', ofs') ->
       Z.abs ofs + (spine_weight env e1 + Z.abs (rep64 (conv (ctype (EBin o e1 e2)) y))) < 2 ^ 63 ->
       Z.abs ofs' <= Z.abs ofs + (spine_weight env e1 + Z.abs (rep64 (conv (ctype (EBin o e1 e2)) y)))).
    { intros k o2 B2 _ Hk Hs B3. rewrite <- (KV k Hk) in B3 |- *. destruct (conv_shape _ _ _ _ _ EC) as [->|NB].
      - specialize (IHe1 _ _ _ _ _ Wa Ka Ca eq_refl eq_refl Hs ltac:(lia)). lia.
      - destruct (nobin_strip _ _ _ _ NB Hs) as [_ ->]. lia. }
    assert (RK : forall k, const_of G r = Ok (Some k) -> in64 k).
    { intros k Hk. rewrite (const_val G env r k Wr V2 K2 Hk _ EV). pose proof (rep64_range (conv (usual (promoted e1 (ctype e1)) (promoted e2 (ctype e2))) y)). unfold in64, two63 in *. lia. }
    cbn [strip] in H. destruct o; try (injection H as <- <-; cbn [spine_weight]; lia).
    + cbn [spine_weight] in B |- *. rewrite Y in B |- *. destruct (const_of G r) as [[k|]| |] eqn:CK; try discriminate; cbn [bind] in H; [|injection H as <- <-; lia].
      specialize (KV k eq_refl). assert (I64 : i64 (ofs + k) = ofs + k) by (apply i64_small; unfold in64; lia).
      rewrite I64 in H. apply (GO k (ofs + k)); [lia|symmetry; exact I64|reflexivity|exact H|exact B].
    + cbn [spine_weight] in B |- *. rewrite Y in B |- *. destruct (const_of G r) as [[k|]| |] eqn:CK; try discriminate; cbn [bind] in H; [|injection H as <- <-; lia].
      specialize (KV k eq_refl). assert (I64 : i64 (ofs - k) = ofs - k) by (apply i64_small; unfold in64; lia).
      rewrite I64 in H. apply (GO k (ofs - k)); [lia|symmetry; exact I64|reflexivity|exact H|exact B].
  - (* ECast *)
    bnd E. cbn [wf known_ok plain_casts] in W, K, C. cbn [spine_weight] in *. cbn [ceval] in V. destruct (ceval env e) as [x|] eqn:X; [|discriminate].
    destruct (new_cast_shape _ _ _ _ E) as [->|NB].
    + eapply IHe; eauto. tauto.
    + destruct (nobin_strip _ _ _ _ NB H) as [_ ->]. pose proof (spine_nonneg e). lia.
Qed.

(** ** Chains *)
Definition dspec (l : outcome (Z * gst)) (ofs : Z) (st : gst) (ok : Prop) (val : option Z) (w : Z) : Prop :=
  forall ofs' st1, l = Ok (ofs', st1) -> in64 ofs ->
  spec st st1 (fun v => ok /\ val = Some v) (fun v => plainq (fun m => eqm 64 (rg m AX + ofs') (v + ofs))) /\
  (ok -> val <> None -> in64 ofs' /\ (Z.abs ofs + w < 2 ^ 63 -> Z.abs ofs' <= Z.abs ofs + w)).

Definition aspec (l : outcome gst) (st : gst) (ok : Prop) (val : option Z) : Prop :=
  forall st1, l = Ok st1 -> spec st st1 (fun v => ok /\ val = Some v) (fun v => plainq (fun m => eqm 64 (rg m AX) v)).

Definition ldpre (t : ty) (l : lval) (v : Z) : Prop :=
  is_ty t /\ lgood l /\ lweight l < 2 ^ 31 /\ in_range (ity t) v /\
  exists a, laddr l = Some a /\ outside G bs P a (sz t) /\ loadn (tysize t) a mem0 = v mod 2 ^ (8 * sz t).

Definition Pp (p : ptr) : Prop := forall ofs st, dspec (gen_deref_opt G f p ofs st) ofs st (pgood p) (pval p) (pweight p).
Definition Pl (l : lval) : Prop :=
  (forall ofs st, dspec (gen_member_opt G f l ofs st) ofs st (lgood l) (laddr l) (lweight l)) /\
  (forall ofs st, dspec (gen_deref_opt G f (QDecay l) ofs st) ofs st (lgood l) (laddr l) (lweight l)) /\
  (forall st, aspec (gen_addr_opt G f l st) st (lgood l) (laddr l)) /\
  (forall t st st1, gen_load G f t l st = Ok st1 ->
     spec st st1 (ldpre t l) (fun v => plainq (fun m => eqm 32 (rg m AX) v /\ (sz t = 8 \/ uns t = true -> eqm 64 (rg m AX) v)))).

Lemma weight_nonneg : (forall p, 0 <= pweight p) /\ (forall l, 0 <= lweight l).
Proof.
  assert (H : forall p, 0 <= pweight p).
  { apply (ptr_mut (fun p => 0 <= pweight p) (fun l => 0 <= lweight l)); intros; cbn [DerefSpec.pweight DerefSpec.lweight]; try lia; apply spine_nonneg. }
  split; [exact H|]. induction l; cbn [DerefSpec.lweight]; [apply H|lia].
Qed.

Lemma val_range : (forall p v, pval p = Some v -> 0 <= v < 2 ^ 64) /\ (forall l v, laddr l = Some v -> 0 <= v < 2 ^ 64).
Proof.
  assert (M : forall z, 0 <= z mod 2 ^ 64 < 2 ^ 64) by (intros; apply Z.mod_pos_bound; lia).
  assert (OM : forall g o v, (forall z, 0 <= g z < 2 ^ 64) -> omap g o = Some v -> 0 <= v < 2 ^ 64).
  { intros g o v Hg E. unfold omap in E. destruct o; [|discriminate]. apply (f_equal (fun o => match o with Some z => z | None => 0 end)) in E. cbn beta iota in E. rewrite <- E. apply Hg. }
  assert (H : forall p v, pval p = Some v -> 0 <= v < 2 ^ 64).
  { apply (ptr_mut (fun p => forall v, pval p = Some v -> 0 <= v < 2 ^ 64) (fun l => forall v, laddr l = Some v -> 0 <= v < 2 ^ 64));
    intros; cbn [DerefSpec.pval DerefSpec.laddr] in *; eauto; eapply OM; try eassumption; intros; try apply M.
    pose proof (loadn_range 8 z mem0). change (2 ^ (8 * Z.of_nat 8)) with (2 ^ 64) in *. assumption. }
  split; [exact H|]. induction l; cbn [DerefSpec.laddr]; [apply H|]. intros v E. eapply OM; [|exact E]. intros; apply M.
Qed.

(** The offset is added to the address. *)
Lemma add_after st st1 ofs' ofs ok val w l : dspec l ofs st ok val w -> l = Ok (ofs', st1) -> ofs = 0 ->
  spec st (emit (imm_add S8 AX DX ofs') st1) (fun v => ok /\ val = Some v) (fun v => plainq (fun m => eqm 64 (rg m AX) v)).
Proof.
  intros D E ->. destruct (D _ _ E ltac:(unfold in64; lia)) as [SP BD].
  eapply spec_emit; [exact SP|apply labels_imm_add|]. intros v [Ok_ Hv]. exists v. split; [auto|].
  intros j m Gm [-> Q]. split; [reflexivity|]. apply slc_run. destruct (BD Ok_ ltac:(congruence)) as [I64 _].
  eapply slc_weak; [apply (imm_add_ok sym S8 ofs' m); [right; reflexivity|unfold imm_dom; cbn [size_eqb]; exact I64]|].
  intros m' _ Q'. cbn [nbits] in Q'. eapply eqm_trans; [exact Q'|]. rewrite Z.add_0_r in Q. exact Q.
Qed.

(** A load with the offset as displacement. *)
Lemma load_after t st st1 ofs' l0 l c : (forall w, w = lweight l -> dspec l0 0 st (lgood l) (laddr l) w) -> l0 = Ok (ofs', st1) ->
  load3 t (BReg AX) (sext 32 ofs') = Ok c ->
  spec st (emit c st1) (ldpre t l) (fun v => plainq (fun m => eqm 32 (rg m AX) v /\ (sz t = 8 \/ uns t = true -> eqm 64 (rg m AX) v))).
Proof.
  intros D E L. destruct (D _ eq_refl _ _ E ltac:(unfold in64; lia)) as [SP BD].
  eapply spec_emit; [exact SP|eapply labels_load3; exact L|].
  intros v [T [LG [LW [RV [a [LA [OU LD]]]]]]]. exists a. split; [auto|]. intros j m Gm [-> Q]. split; [reflexivity|]. apply slc_run.
  destruct (BD LG ltac:(congruence)) as [_ B]. pose proof (proj2 weight_nonneg l). specialize (B ltac:(cbn; lia)).
  rewrite sext32_small in L by (cbn in B; lia).
  apply (load3_ok sym t (BReg AX) ofs' v m c T RV); [|exact L].
  unfold holds. replace (ea sym (BReg AX) ofs' m) with a.
  - pose proof (is_ty_size t T). unfold tysize in *. rewrite (mem_outside G bs P mem0 FR) by (auto; lia). rewrite LD. rewrite Z2Nat.id by lia. reflexivity.
  - unfold ea. unfold eqm in Q. rewrite Z.add_0_r in Q. rewrite Q. symmetry. apply Z.mod_small. exact (proj2 val_range l a LA).
Qed.

Lemma eqm_mod64 z : eqm 64 (z mod 2 ^ 64) z.
Proof. unfold eqm. apply Z.mod_mod. lia. Qed.

Lemma deref_leaf e : forall ofs st, dspec (gen_deref_opt G f (QLeaf e) ofs st) ofs st (pgood (QLeaf e)) (pval (QLeaf e)) (pweight (QLeaf e)).
Proof.
  intros ofs st ofs' st1 H IO. cbn [gen_deref_opt DerefSpec.pgood DerefSpec.pval DerefSpec.pweight] in *. destruct (elab (gc G) e) as [n| |] eqn:E; try discriminate. cbn [bind] in H.
  destruct (strip G n ofs) as [[n' o']| |] eqn:HS; try discriminate. cbn [bind fst snd] in H.
  destruct (gen G f MExpr n' st) as [st2| |] eqn:E1; try discriminate. cbn [bind] in H. injection H as <- <-. rename st2 into st1.
  assert (FACT : forall v, (isize (ctype e) = 8 /\ wf env e /\ known_ok (known (gc G)) env e /\ plain_casts e /\ stored G sym bs mem0 lo hi env e) ->
    ceval env e = Some v -> in64 o' /\ sz (nty n') = 8 /\ exists v', pre n' v' /\ eqm 64 (v' + o') (v + ofs)).
  { intros v [S8_ [W [K [C ST]]]] V. eapply strip_ok; [exact HS|eapply leaf_pre; eauto| |exact IO].
    rewrite (er_ty _ _ _ _ (elab_ok _ env CO e W K C n E)). destruct (ctype e); cbn in S8_ |- *; lia. }
  split.
  - eapply spec_weak; [exact (gen_ok G sym env bs P mem0 FR CO f MExpr n' st st1 E1)|].
    intros v [PG PV]. unfold omap in PV. destruct (ceval env e) as [x|] eqn:X; [|discriminate]. apply some_inj in PV.
    destruct (FACT x PG eq_refl) as [_ [SZ [v' [PN EQ]]]]. exists v'. split; [exact PN|]. intros j m Gm [-> Q]. split; [reflexivity|].
    assert (WB : wbits n' = 64). { unfold wbits. rewrite SZ. reflexivity. }
    rewrite WB in Q. eapply eqm_trans; [apply eqm_add; [exact Q|apply eqm_refl]|]. eapply eqm_trans; [exact EQ|]. rewrite <- PV.
    apply eqm_add; [apply eqm_sym, eqm_mod64|apply eqm_refl].
  - intros PG PV. unfold omap in PV. destruct (ceval env e) as [x|] eqn:X; [|congruence]. split; [apply (FACT x PG eq_refl)|].
    destruct PG as [S8_ [W [K [C ST]]]]. intros B. eapply strip_bound; eauto.
Qed.



Lemma deref_shift p k st ofs (sg : bool) r : r = gen_deref_opt G f p (i64 (if sg then ofs - k else ofs + k)) st ->
  Pp p ->
  dspec r ofs st (pgood p) (omap (fun a => (if sg then a - k else a + k) mod 2 ^ 64) (pval p)) (pweight p + Z.abs k).
Proof.
  intros -> IH ofs' st1 H IO. destruct (IH _ _ _ _ H (i64_in _)) as [SP BD]. pose proof (proj1 weight_nonneg p). split.
  - eapply spec_weak; [exact SP|]. intros v [PG PV]. unfold omap in PV. destruct (pval p) as [a|] eqn:X; [|discriminate]. apply some_inj in PV.
    exists a. split; [auto|]. intros j m _ [-> Q]. split; [reflexivity|]. eapply eqm_trans; [exact Q|]. rewrite <- PV.
    eapply eqm_trans; [apply eqm_add; [apply eqm_refl|apply i64_eqm]|].
    eapply eqm_trans; [|apply eqm_add; [apply eqm_sym, eqm_mod64|apply eqm_refl]].
    destruct sg; [replace (a + (ofs - k)) with (a - k + ofs) by lia|replace (a + (ofs + k)) with (a + k + ofs) by lia]; apply eqm_refl.
  - intros PG PV. unfold omap in PV. destruct (pval p) as [a|] eqn:X; [|congruence]. destruct (BD PG ltac:(discriminate)) as [B1 B2].
    split; [exact B1|]. intros B. rewrite i64_small in B2; unfold in64 in *; destruct sg; lia.
Qed.

Lemma dspec_keep (r : outcome gst) ofs st ok val w : (forall st1, r = Ok st1 -> spec st st1 (fun v => ok /\ val = Some v) (fun v => plainq (fun m => eqm 64 (rg m AX) v))) ->
  0 <= w -> dspec (do st1 <- r; Ok (ofs, st1)) ofs st ok val w.
Proof.
  intros A W ofs' st1 H IO. destruct r as [s| |]; try discriminate. cbn [bind] in H. injection H as <- <-. split.
  - eapply spec_weak; [exact (A s eq_refl)|]. intros v Hv. exists v. split; [exact Hv|]. intros j m _ [-> Q]. split; [reflexivity|].
    apply eqm_add; [exact Q|apply eqm_refl].
  - intros _ _. split; [exact IO|lia].
Qed.

Lemma dspec_imp r ofs st (ok ok' : Prop) val w : (ok' -> ok) -> dspec r ofs st ok val w -> dspec r ofs st ok' val w.
Proof.
  intros IM D ofs' st1 H IO. destruct (D _ _ H IO) as [SP BD]. split.
  - eapply spec_weak; [exact SP|]. intros v [A B]. exists v. split; [auto|]. auto.
  - auto.
Qed.

Lemma ptr_load l : Pl l -> forall st st1, gen_load G f ty_ulong l st = Ok st1 ->
  spec st st1 (fun v => pgood (QLoad l) /\ pval (QLoad l) = Some v) (fun v => plainq (fun m => eqm 64 (rg m AX) v)).
Proof.
  intros IH st st1 H. cbn [DerefSpec.pgood DerefSpec.pval]. eapply spec_weak; [eapply (proj2 (proj2 (proj2 IH))); exact H|].
  intros v [[LG [LW CL]] V]. unfold omap in V. destruct (laddr l) as [a|] eqn:LA; [|discriminate]. apply some_inj in V.
  exists v. split.
  - assert (RV : 0 <= v < 2 ^ 64) by (rewrite <- V; apply (loadn_range 8 a mem0)).
    split; [reflexivity|]. split; [exact LG|]. split; [exact LW|]. split.
    + change (in_range TULong v). unfold in_range. change (imin TULong) with 0. change (imax TULong) with (2 ^ 64 - 1). lia.
    + exists a. split; [exact LA|]. split; [exact (CL a eq_refl)|]. change (tysize ty_ulong) with 8%nat. rewrite V.
      change (8 * sz ty_ulong) with 64. symmetry. apply Z.mod_small. exact RV.
  - intros j m _ [-> [_ Q]]. split; [reflexivity|]. apply Q. left. reflexivity.
Qed.

Lemma member_shift l o ofs st : (forall ofs st, dspec (gen_member_opt G f l ofs st) ofs st (lgood l) (laddr l) (lweight l)) ->
  dspec (gen_member_opt G f l (i64 (ofs + o)) st) ofs st (lgood (LMem l o)) (laddr (LMem l o)) (lweight (LMem l o)).
Proof.
  intros IH ofs' st1 H IO. destruct (IH _ _ _ _ H (i64_in _)) as [SP BD]. pose proof (proj2 weight_nonneg l).
  cbn [DerefSpec.lgood DerefSpec.laddr DerefSpec.lweight]. split.
  - eapply spec_weak; [exact SP|]. intros v [[PO PG] PV]. unfold omap in PV. destruct (laddr l) as [a|] eqn:X; [|discriminate]. apply some_inj in PV.
    exists a. split; [auto|]. intros j m _ [-> Q]. split; [reflexivity|]. eapply eqm_trans; [exact Q|]. rewrite <- PV.
    eapply eqm_trans; [apply eqm_add; [apply eqm_refl|apply i64_eqm]|].
    eapply eqm_trans; [|apply eqm_add; [apply eqm_sym, eqm_mod64|apply eqm_refl]].
    replace (a + (ofs + o)) with (a + o + ofs) by lia. apply eqm_refl.
  - intros [PO PG] PV. unfold omap in PV. destruct (laddr l) as [a|] eqn:X; [|congruence]. destruct (BD PG ltac:(discriminate)) as [B1 B2].
    split; [exact B1|]. intros B. rewrite i64_small in B2; unfold in64 in *; lia.
Qed.

Lemma lderef_ok p : Pp p -> Pl (LDeref p).
Proof.
  intros IH.
  assert (AD : forall st st1, gen_addr_opt G f (LDeref p) st = Ok st1 -> spec st st1 (fun v => pgood p /\ pval p = Some v) (fun v => plainq (fun m => eqm 64 (rg m AX) v))).
  { intros st st1 H. cbn [gen_addr_opt] in H. destruct (gen_deref_opt G f p 0 st) as [[o s]| |] eqn:E; try discriminate. cbn [bind fst snd] in H. injection H as <-.
    eapply add_after; [apply IH|exact E|reflexivity]. }
  split; [|split; [|split]].
  - intros ofs st. cbn [gen_member_opt].
    replace (do q <- gen_deref_opt G f p 0 st; Ok (ofs, emit (imm_add S8 AX DX (fst q)) (snd q)))
      with (do st1 <- gen_addr_opt G f (LDeref p) st; Ok (ofs, st1)) by (cbn [gen_addr_opt]; destruct (gen_deref_opt G f p 0 st) as [[o s]| |]; reflexivity).
    apply (dspec_keep (gen_addr_opt G f (LDeref p) st) ofs st (lgood (LDeref p)) (laddr (LDeref p)) (lweight (LDeref p))); [|apply weight_nonneg].
    intros st1 H. exact (AD st st1 H).
  - intros ofs st. exact (IH ofs st).
  - intros st st1 H. exact (AD st st1 H).
  - intros t st st1 H. cbn [gen_load] in H. destruct (gen_deref_opt G f p 0 st) as [[o s]| |] eqn:E; try discriminate. cbn [bind fst snd] in H.
    destruct (load3 t (BReg AX) (sext 32 o)) as [c| |] eqn:L; try discriminate. cbn [bind] in H. injection H as <-.
    eapply (load_after t st s o _ (LDeref p)); [|exact E|exact L]. intros w ->. apply IH.
Qed.

Lemma lmem_ok l o : Pl l -> Pl (LMem l o).
Proof.
  intros [IH _].
  assert (M0 : forall st, dspec (gen_member_opt G f l (i64 o) st) 0 st (lgood (LMem l o)) (laddr (LMem l o)) (lweight (LMem l o))).
  { intros st. exact (member_shift l o 0 st IH). }
  assert (AD : forall st st1, gen_addr_opt G f (LMem l o) st = Ok st1 -> spec st st1 (fun v => lgood (LMem l o) /\ laddr (LMem l o) = Some v) (fun v => plainq (fun m => eqm 64 (rg m AX) v))).
  { intros st st1 H. cbn [gen_addr_opt] in H. destruct (gen_member_opt G f l (i64 o) st) as [[o' s]| |] eqn:E; try discriminate. cbn [bind fst snd] in H. injection H as <-.
    eapply add_after; [apply M0|exact E|reflexivity]. }
  split; [|split; [|split]].
  - intros ofs st. cbn [gen_member_opt]. apply member_shift. exact IH.
  - intros ofs st. cbn [gen_deref_opt].
    replace (do q <- gen_member_opt G f l (i64 o) st; Ok (ofs, emit (imm_add S8 AX DX (fst q)) (snd q)))
      with (do st1 <- gen_addr_opt G f (LMem l o) st; Ok (ofs, st1)) by (cbn [gen_addr_opt]; destruct (gen_member_opt G f l (i64 o) st) as [[x s]| |]; reflexivity).
    apply (dspec_keep (gen_addr_opt G f (LMem l o) st) ofs st (lgood (LMem l o)) (laddr (LMem l o)) (lweight (LMem l o))); [|apply weight_nonneg].
    intros st1 H. exact (AD st st1 H).
  - intros st st1 H. exact (AD st st1 H).
  - intros t st st1 H. cbn [gen_load] in H. destruct (gen_member_opt G f l (i64 o) st) as [[o' s]| |] eqn:E; try discriminate. cbn [bind fst snd] in H.
    destruct (load3 t (BReg AX) (sext 32 o')) as [c| |] eqn:L; try discriminate. cbn [bind] in H. injection H as <-.
    eapply (load_after t st s o' _ (LMem l o)); [|exact E|exact L]. intros w ->. apply M0.
Qed.

Lemma deref_ok : forall p, Pp p.
Proof.
  apply (ptr_mut Pp Pl).
  - exact deref_leaf.
  - exact deref_leaf.
  - intros p IH ofs st. exact (IH ofs st).
  - intros p IH k ofs st. apply (dspec_imp _ _ _ (pgood p)); [intros [_ H]; exact H|]. exact (deref_shift p k st ofs false _ eq_refl IH).
  - intros p IH k ofs st. apply (dspec_imp _ _ _ (pgood p)); [intros [_ H]; exact H|]. exact (deref_shift p k st ofs true _ eq_refl IH).
  - intros l IH ofs st. apply (dspec_keep (gen_load G f ty_ulong l st)); [|cbn [DerefSpec.pweight]; lia]. intros st1. apply (ptr_load l IH).
  - intros l IH ofs st. apply (dspec_keep (gen_addr_opt G f l st) ofs st (lgood l) (laddr l)); [|apply weight_nonneg].
    exact (proj1 (proj2 (proj2 IH)) st).
  - intros l IH. exact (proj1 (proj2 IH)).
  - exact lderef_ok.
  - intros l IH o. apply lmem_ok. exact IH.
Qed.
Lemma lval_ok : forall l, Pl l.
Proof. induction l; [apply lderef_ok, deref_ok|apply lmem_ok; assumption]. Qed.
End Deref.

(** ** Whole machine *)
Section Main.
Variable G : genv.
Variable sym env : nat -> Z.
Variable f : nat.
Variable st st' : gst.
Variable m : mach.
Hypothesis CO : forall a b, same (gc G) a b = true -> a = b.
Hypothesis FS : saved (lptr G).
Hypothesis FL : 0 <= lvar_sz G <= peak st.
Hypothesis FP : peak st' <= rg m (lptr G) < 2 ^ 64.
Local Notation lo := (rg m (lptr G) - peak st').
Local Notation hi := (rg m (lptr G) - lvar_sz G).

Lemma spec_peak bs P mem0 pre Q : spec G sym bs P mem0 st st' pre Q -> peak st <= peak st'.
Proof. intros [c [g [s [X _]]]]. apply (ex_pk _ _ _ _ _ _ X). Qed.

Lemma spec_run pre Q v post :
  (forall bs P mem0, frame_ok G bs P -> spec G sym bs P mem0 st st' (pre bs P mem0) (fun v => plainq (Q v))) ->
  pre (rg m) (peak st') (mm m) v ->
  fresh_labels (out st ++ post) (cnt st) (cnt st') ->
  exists m', steps sym (out st' ++ post) (length (out st), m) (length (out st'), m') /\ Q v m' /\ kept G (peak st') m m'.
Proof.
  intros SP Hv FR.
  assert (PK : peak st <= peak st').
  { set (bs := fun _ : reg => 0).
    assert (F0 : frame_ok G bs (- 1)) by (unfold frame_ok, lpv, bs; repeat split; try lia; exact FS).
    exact (spec_peak _ _ _ _ _ (SP bs (-1) (mm m) F0)). }
  assert (F : frame_ok G (rg m) (peak st')) by (unfold frame_ok, lpv; split; [exact FS|lia]).
  destruct (SP (rg m) (peak st') (mm m) F) as [c [g [s [X SM]]]].
  destruct (SM (Z.le_refl _) ltac:(lia) v Hv m (good0 G st' m)) as [j [m' [R [KP [-> Qv]]]]].
  exists m'. rewrite (ex_out _ _ _ _ _ _ X). rewrite <- app_assoc. split; [|split].
  - apply (run_steps sym c (out st) post None m m'); [|exact R]. eapply lok_fresh; [apply (ex_lok _ _ _ _ _ _ X)|exact FR].
  - exact Qv.
  - eapply keep_kept; eauto. lia.
Qed.

Theorem addr_code l a post : gen_addr_opt G f l st = Ok st' ->
  lgood G sym (rg m) (mm m) lo hi env l -> laddr env (mm m) l = Some a ->
  fresh_labels (out st ++ post) (cnt st) (cnt st') ->
  exists m', steps sym (out st' ++ post) (length (out st), m) (length (out st'), m') /\
    rg m' AX mod 2 ^ 64 = a /\ kept G (peak st') m m'.
Proof.
  intros H LG LA FR.
  destruct (spec_run (fun bs P mem0 v => lgood G sym bs mem0 (bs (lptr G) - P) (bs (lptr G) - lvar_sz G) env l /\ laddr env mem0 l = Some v)
    (fun v m => eqm 64 (rg m AX) v) a post) as [m' [ST [Q KP]]]; auto.
  - intros bs P mem0 F. exact (proj1 (proj2 (proj2 (lval_ok G sym env bs P mem0 F CO f l))) st st' H).
  - exists m'. split; [exact ST|]. split; [|exact KP]. unfold eqm in Q. rewrite Q. apply Z.mod_small. eapply val_range; exact LA.
Qed.

Theorem load_code t l a v post : gen_load G f (mty t) l st = Ok st' ->
  lgood G sym (rg m) (mm m) lo hi env l -> lweight env l < 2 ^ 31 -> laddr env (mm m) l = Some a ->
  clear a (isize t) lo hi -> in_range t v -> loadn (Z.to_nat (isize t)) a (mm m) = v mod 2 ^ (8 * isize t) ->
  fresh_labels (out st ++ post) (cnt st) (cnt st') ->
  exists m', steps sym (out st' ++ post) (length (out st), m) (length (out st'), m') /\
    rg m' AX mod 2 ^ result_bits t = v mod 2 ^ result_bits t /\ kept G (peak st') m m'.
Proof.
  intros H LG LW LA CL RV LD FR.
  assert (IT : ity (mty t) = t) by (destruct t; reflexivity).
  assert (SZ : sz (mty t) = isize t) by (destruct t; reflexivity).
  destruct (spec_run (fun bs P mem0 => ldpre G sym env bs P mem0 (mty t) l)
    (fun v m => eqm 32 (rg m AX) v /\ (sz (mty t) = 8 \/ uns (mty t) = true -> eqm 64 (rg m AX) v)) v post) as [m' [ST [[Q1 Q2] KP]]]; auto.
  - intros bs P mem0 F. exact (proj2 (proj2 (proj2 (lval_ok G sym env bs P mem0 F CO f l))) (mty t) st st' H).
  - split; [unfold is_ty; rewrite IT; reflexivity|]. split; [exact LG|]. split; [exact LW|]. split; [rewrite IT; exact RV|].
    exists a. split; [exact LA|]. unfold tysize. rewrite SZ. split; [exact CL|exact LD].
  - exists m'. split; [exact ST|]. split; [|exact KP]. rewrite SZ in Q2. destruct t; first [exact Q1|apply Q2; left; reflexivity].
Qed.
End Main.

(** ** The code exists *)
Section Total.
Variable G : genv.
Variable env : nat -> Z.
Hypothesis CO : forall a b, same (gc G) a b = true -> a = b.
Hypothesis LX : strict (gc G) = false.
Hypothesis FS : saved (lptr G).
Hypothesis FL : 0 <= lvar_sz G.

Lemma strip_total n : wtn n -> counts_ok (gc G) n -> forall ofs, exists n' o, strip G n ofs = Ok (n', o) /\
  wtn n' /\ counts_ok (gc G) n' /\ (wgt n' <= wgt n)%nat.
Proof.
  induction n; intros W K ofs; cbn [strip]; try (do 2 eexists; split; [reflexivity|]; auto; fail).
  cbn [wtn counts_ok] in W, K.
  assert (W1 : wtn n1) by tauto. assert (K1 : counts_ok (gc G) n1) by tauto. assert (B : (wgt n1 <= wgt (NBin o t n1 n2))%nat) by (cbn [wgt]; lia).
  destruct o; try (do 2 eexists; split; [reflexivity|]; auto; fail);
  destruct (const_total G LX n2) as [[k|] ->]; cbn [bind]; try (do 2 eexists; split; [reflexivity|]; auto; fail);
  (match goal with |- context [strip G n1 ?o] => destruct (IHn1 W1 K1 o) as [n' [o' [-> [A1 [A2 A3]]]]] end;
   exists n', o'; split; [reflexivity|]; split; [exact A1|]; split; [exact A2|lia]).
Qed.


Definition Tl (l : lval) : Prop := locals_ok G env l -> exists N, forall f, (N < f)%nat ->
  (forall ofs st, exists o s, gen_member_opt G f l ofs st = Ok (o, s)) /\
  (forall ofs st, exists o s, gen_deref_opt G f (QDecay l) ofs st = Ok (o, s)) /\
  (forall st, exists s, gen_addr_opt G f l st = Ok s) /\
  (forall t st, exists s, gen_load G f (mty t) l st = Ok s).
Definition Tp (p : ptr) : Prop := leaves_ok G env p -> exists N, forall f, (N < f)%nat -> forall ofs st, exists o s, gen_deref_opt G f p ofs st = Ok (o, s).

Lemma load3_ty t b o : exists c, load3 (mty t) b o = Ok c.
Proof. apply load3_total. unfold is_ty. rewrite ity_mty. reflexivity. Qed.

Lemma leaf_total e : Tp (QLeaf e).
Proof.
  intros [W [K [C CN]]]. destruct (elab_total (gc G) env e CO LX W K C) as [n E]. exists (meas MExpr n). intros f L ofs st. cbn [gen_deref_opt]. rewrite E. cbn [bind].
  pose proof (elab_ok _ env CO e W K C n E) as R.
  destruct (strip_total n (er_wt _ _ _ _ R) (CN n E) ofs) as [n' [o [-> [A1 [A2 A3]]]]]. cbn [bind fst snd].
  destruct (gen_total G CO LX FS FL f MExpr n' st ltac:(unfold meas in *; lia) A1 A2) as [s ->]. cbn [bind]. eauto.
Qed.

Lemma chain_total : (forall p, Tp p) /\ (forall l, Tl l).
Proof.
  assert (LD : forall p, Tp p -> Tl (LDeref p)).
  { intros p IH L. destruct (IH L) as [N H]. exists N. intros f Lt. specialize (H f Lt).
    split; [|split; [|split]]; intros; cbn [gen_member_opt gen_deref_opt gen_addr_opt gen_load]; try apply H;
    (match goal with |- context [gen_deref_opt G f p 0 ?s] => destruct (H 0 s) as [o [s' ->]] end); cbn [bind fst snd]; eauto.
    destruct (load3_ty t (BReg AX) (sext 32 o)) as [c ->]. cbn [bind]. eauto. }
  assert (LM : forall l o, Tl l -> Tl (LMem l o)).
  { intros l o IH L. destruct (IH L) as [N H]. exists N. intros f Lt. destruct (H f Lt) as [H1 _].
    split; [|split; [|split]]; intros; cbn [gen_member_opt gen_deref_opt gen_addr_opt gen_load]; try apply H1;
    (match goal with |- context [gen_member_opt G f l ?x ?s] => destruct (H1 x s) as [o' [s' ->]] end); cbn [bind fst snd]; eauto.
    destruct (load3_ty t (BReg AX) (sext 32 o')) as [c ->]. cbn [bind]. eauto. }
  assert (PP : forall p, Tp p).
  { apply (ptr_mut Tp Tl).
    - exact leaf_total.
    - exact leaf_total.
    - intros p IH. exact IH.
    - intros p IH k L. destruct (IH L) as [N H]. exists N. intros f Lt ofs st. exact (H f Lt _ st).
    - intros p IH k L. destruct (IH L) as [N H]. exists N. intros f Lt ofs st. exact (H f Lt _ st).
    - intros l IH L. destruct (IH L) as [N H]. exists N. intros f Lt ofs st. destruct (H f Lt) as [_ [_ [_ H4]]].
      cbn [gen_deref_opt]. destruct (H4 TULong st) as [s Hs]. change (mty TULong) with ty_ulong in Hs. rewrite Hs. cbn [bind]. eauto.
    - intros l IH L. destruct (IH L) as [N H]. exists N. intros f Lt ofs st. destruct (H f Lt) as [_ [_ [H3 _]]].
      cbn [gen_deref_opt]. destruct (H3 st) as [s ->]. cbn [bind]. eauto.
    - intros l IH L. destruct (IH L) as [N H]. exists N. intros f Lt. apply (H f Lt).
    - exact LD.
    - intros l IH o. exact (LM l o IH). }
  split; [exact PP|]. induction l; auto.
Qed.

Theorem deref_total l : locals_ok G env l -> exists N, forall f, (N < f)%nat -> forall st,
  (exists st', gen_addr_opt G f l st = Ok st') /\ forall t, exists st', gen_load G f (mty t) l st = Ok st'.
Proof. intros L. destruct (proj2 chain_total l L) as [N H]. exists N. intros f Lt st. destruct (H f Lt) as [_ [_ [A B]]]. auto. Qed.
End Total.
