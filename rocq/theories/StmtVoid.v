(** Code of assignments, compound assignments and increments evaluated for their effects. *)
From Coq Require Import ZArith List Bool Lia.
From Verif Require Import Base BitLemmas IntSpec IntLemmas IntModel IntTyped IntProofs IntFold
  IntElab IntMain X86 CgModel CgSpec CgLemmas CgSeq CgSeq2 CgSeq3 CgInv CgTree CgGen CgMain CgHot
  StmtSpec StmtModel StmtEff.
Import ListNotations.
Local Open Scope Z_scope.

Lemma nonul_elab G V e : forall n, uses V e -> elab (gc G) e = Ok n -> nonul V n.
Proof.
  induction e; intros n U H; cbn [uses] in U; cbn [elab] in H; try contradiction.
  - injection H as <-. exact Logic.I.
  - injection H as <-. cbn [nonul]. exists t. auto.
  - destruct o; bnd H; injection H as <-; cbn [nonul];
      first [eapply nonul_promotion; eauto; fail | eapply nonul_cond; eauto].
  - destruct U. bnd H. injection H as <-. destruct a1 as [p q]. cbn [nonul fst snd]. eapply nonul_usual; eauto.
  - destruct U. bnd H. injection H as <-. cbn [nonul]. split; [eapply nonul_promotion; eauto|eauto].
  - destruct U. bnd H. injection H as <-. assert (nonul V a1 /\ nonul V a0) by (split; [eapply nonul_promotion; eauto|eauto]).
    destruct (uns (nty a)); exact H.
  - destruct U. bnd H. injection H as <-. destruct a1 as [p q]. cbn [nonul fst snd]. eapply nonul_usual; eauto.
  - destruct U. bnd H. injection H as <-. cbn [nonul]. split; eapply nonul_cond; eauto.
  - destruct U. bnd H. injection H as <-. cbn [nonul]. split; eapply nonul_cond; eauto.
  - destruct U as [U0 [U1 U2]]. bnd H. injection H as <-. destruct a3 as [p q]. cbn [nonul fst snd].
    split; [eapply nonul_cond; eauto|]. eapply nonul_usual; eauto.
  - destruct U. bnd H. injection H as <-. cbn [nonul]. eauto.
  - bnd H. eapply nonul_cast; eauto.
Qed.


(** Decrement adds -1. *)
Lemma wrap_dec u x : u <> TBool -> wrap_or_undef u (conv u x + conv u (-1)) = wrap_or_undef u (conv u x - conv u 1).
Proof.
  intros NB. unfold wrap_or_undef. destruct (isigned u) eqn:S.
  - replace (conv u (-1)) with (-1) by (destruct u; try discriminate; reflexivity).
    replace (conv u 1) with 1 by (destruct u; try discriminate; reflexivity). reflexivity.
  - f_equal. apply conv_cong; [exact NB|]. pose proof (iwidth_pos u).
    assert (X : forall k a b c d, 0 <= k -> eqm k a b -> eqm k c d -> eqm k (a + c) (b - (- d))).
    { intros k a b c' d Hk E1 E2. replace (b - - d) with (b + d) by lia. apply eqm_add; auto. }
    change (eqm (iwidth u) (conv u x + conv u (-1)) (conv u x - conv u 1)).
    replace (conv u 1) with (- - conv u 1) by lia. apply X; [lia|apply eqm_refl|].
    eapply eqm_trans; [apply eqm_conv; exact NB|]. replace (-1) with (- (1)) by lia.
    apply eqm_opp. apply eqm_sym, eqm_conv. exact NB.
Qed.

Lemma dec_inc env t x :
  ceval env (EBin BAdd (EVar t x) (ENum TInt (-1))) = ceval env (EBin BSub (EVar t x) (ENum TInt 1)).
Proof. cbn [ceval c_bin ctype]. apply wrap_dec. destruct t; discriminate. Qed.

Lemma getr_put s r v m : getr s r (putr s r v m) = v mod 2 ^ nbits s.
Proof.
  assert (E : reg_eqb r r = true) by (destruct r; reflexivity).
  unfold getr, putr. destruct s; cbn [setr rg]; rewrite E.
  - rewrite Z.add_comm, Z.mod_add by (cbn; lia). apply Z.mod_mod. cbn; lia.
  - rewrite Z.add_comm, Z.mod_add by (cbn; lia). apply Z.mod_mod. cbn; lia.
  - apply Z.mod_mod. cbn; lia.
  - apply Z.mod_mod. cbn; lia.
Qed.

Section Void.
Variable G : genv.
Variable sym : nat -> Z.
Variable bs : reg -> Z.
Variable P : Z.
Variable V : list (ityp * nat).
Variable M0 : Z -> Z.
Variable nul : nat.
Hypothesis FR : frame_ok G bs P.
Hypothesis CO : cfg_ok (gc G).
Hypothesis HERE : loc G nul = VHere.
Hypothesis UNK : known (gc G) nul = None.
Hypothesis NUL : forall t, ~ In (t, nul) V.
Hypothesis DIS : forall t x u y, In (t, x) V -> In (u, y) V -> (t = u /\ x = y) \/
  (x <> y /\ (vaddr G sym bs x + sz (mty t) <= vaddr G sym bs y \/ vaddr G sym bs y + sz (mty u) <= vaddr G sym bs x)).

Local Notation vaddr := (vaddr G sym bs).
Local Notation good := (good G bs P).
Local Notation c := (gc G).
Local Notation inv := (inv G sym bs P V M0).
Local Notation vspec := (vspec G sym bs P V M0).
Local Notation set_rel := (set_rel).

Lemma inv_pre env m e n v : inv env m -> uses V e -> elab c e = Ok n -> ceval env e = Some v ->
  pre G sym env bs P (mm m) n v.
Proof. intros [_ A _] U E T. eapply uses_pre; eauto. Qed.

Lemma void_pure f e n st st' : uses V e -> elab c e = Ok n -> gen G f MVoid n st = Ok st' ->
  vspec st st' (fun env env' => (exists v, ceval env e = Some v) /\ env' = env).
Proof.
  intros U E H. rewrite <- (emit_nil st'). eapply vspec_store; [eapply gvoid; eauto|reflexivity|].
  intros env env' m [[v T] ->] I. exists v. split; [eapply inv_pre; eauto|]. intros m1 Gm _.
  exists m1. split; [reflexivity|]. eapply inv_keep; eauto.
Qed.

Section One.
Variable t : ityp.
Variable x : nat.
Hypothesis SLOT : has_slot V t x.
Hypothesis KN : known c x = None.
Local Notation set_rel := (set_rel t x).

Lemma elab_cast_ty e n : uses V e -> elab c (ECast t e) = Ok n ->
  (exists env m, inv env m) -> nty n = mty t.
Proof. intros U E [env [m [_ A _]]]. exact (er_ty _ _ _ _ (uses_elab G sym bs P V env (mm m) A CO (ECast t e) n U E)). Qed.

(** ** Assignment *)
Lemma mem_copy_ok sb so db dof l env m m1 (v : Z) k : gen_mem_copy2 sb so db dof (mty t) = Ok l ->
  inv env m -> good (mm m) m1 -> sb <> BReg DX -> db <> BReg DX ->
  ea sym db dof m1 = vaddr x -> (tysize (mty t) <= k)%nat ->
  holds sym sb so k v m1 -> forall z, in_range t z -> eqm (8 * sz (mty t)) v z ->
  exists m2, run sym l None m1 = Some (None, m2) /\ inv (assign env x z) m2.
Proof.
  intros H I Gm NS ND EA LE HH z RZ EZ. unfold gen_mem_copy2 in H. bnd H. injection H as <-.
  destruct (size_mty t a E) as [NB NBT].
  set (y := loadn (nbytes a) (ea sym sb so m1) (mm m1)).
  assert (exists m2, run sym [Mov None (M sb so) (R a DX)] None m1 = Some (None, m2) /\ (forall r, r <> DX -> rg m2 r = rg m1 r) /\
    mm m2 = mm m1 /\ getr a DX m2 = y mod 2 ^ nbits a) as [m3 [R3 [G3 [M3 D3]]]].
  { exists (putr a DX y m1). split; [destruct a; reflexivity|]. split; [|split].
    - intros r Hr. destruct a; cbn [putr setr rg]; destruct r; try reflexivity; congruence.
    - destruct a; reflexivity.
    - apply getr_put. }
  exists (setm m3 (storen (nbytes a) (ea sym db dof m3) (getr a DX m3) (mm m3))). split.
  - change [Mov None (M sb so) (R a DX); Mov None (R a DX) (M db dof)] with
      ([Mov None (M sb so) (R a DX)] ++ [Mov None (R a DX) (M db dof)]).
    rewrite run_app, R3. destruct a; reflexivity.
  - eapply inv_store with (z' := getr a DX m3) (x := x) (t := t) (m := m) (m1 := m1); eauto.
    + intros r Hr. cbn [setm rg]. apply G3. destruct Hr as [->|[->| ->]]; discriminate.
    + cbn [setm mm]. rewrite M3, NB. replace (ea sym db dof m3) with (vaddr x); [reflexivity|].
      rewrite <- EA. unfold ea. destruct db as [r|]; [|reflexivity]. rewrite G3; [reflexivity|congruence].
    + rewrite D3. rewrite <- NBT. eapply eqm_trans; [apply eqm_mod; destruct a; cbn; lia|]. unfold y. rewrite NB, NBT.
      rewrite (loadn_low k _ _ _ LE), HH, tysize_z. eapply eqm_trans; [apply eqm_mod; destruct t; cbn; lia|].
      eapply eqm_trans; [|exact EZ]. unfold eqm. apply mod_mod_le.
      pose proof (tysize_z t). lia.
Qed.

Lemma labels_addr y : labels (gen_addr G y) = [].
Proof.
  unfold gen_addr, gen_addr_var. destruct (if opt c then var_memop G y 0 else None) as [[b o]|]; [reflexivity|].
  destruct (loc G y) as [?|? rip|]; try reflexivity. destruct (pic G), rip; reflexivity.
Qed.

Definition exp_rel (e : exp) (env env' : nat -> Z) : Prop :=
  exists v, ceval env e = Some v /\ env' = assign env x (conv t v).

Lemma exp_set e env env' : exp_rel e env env' ->
  set_rel (fun env v => ceval env (ECast t e) = Some v) env env'.
Proof.
  intros [v [E ->]]. exists (conv t v). split; [cbn [ceval]; rewrite E; reflexivity|].
  split; [apply conv_range|reflexivity].
Qed.

Lemma nop_gspec st : gspec G sym bs P st st (fun _ _ _ => True) (fun _ _ _ => plainq (fun _ => True)).
Proof.
  exists []. split; [apply wext_refl|]. intros _ _ env mem v _ m Gm. exists None, m.
  split; [reflexivity|]. split; [exact Gm|split; auto].
Qed.


Lemma cast_wbits e n : uses V e -> elab c (ECast t e) = Ok n ->
  forall env m, inv env m -> 8 * sz (mty t) <= wbits n.
Proof.
  intros U E env m I. apply (wbits_sz n t). eapply elab_cast_ty; eauto.
Qed.

Lemma gen_void_assign_ok f e n st st' : uses V e -> elab c (ECast t e) = Ok n ->
  gen_void_assign G f (mty t) x n st = Ok st' -> vspec st st' (exp_rel e).
Proof.
  intros U E H. pose proof (cast_wbits e n U E) as WB.
  assert (HP : forall env m v, ceval env (ECast t e) = Some v -> inv env m -> pre G sym env bs P (mm m) n v).
  { intros env m v T I. exact (inv_pre env m (ECast t e) n v I U E T). }
  unfold gen_void_assign in H. bnd H. destruct a as [k|].
  - eapply vspec_weak; [eapply (memop_arith_ok G sym bs P V M0 FR CO DIS t x SLOT KN (fun s => Mov (Some s)) (fun _ y => y));
      [apply memmk_mov|exact WB|exact HP|exact H]|].
    intros env env' m I [v [Ev ->]]. exists (conv t v), (conv t v). split; [cbn [ceval]; rewrite Ev; reflexivity|].
    split; [apply conv_range|]. split; [apply eqm_refl|reflexivity].
  - destruct (copy_source G (mty t) n) as [[sb so]|] eqn:CS.
    + assert (SRC : forall env m v m1, ceval env (ECast t e) = Some v -> inv env m -> good (mm m) m1 ->
         stable sb /\ exists k y, (tysize (mty t) <= k)%nat /\ holds sym sb so k y m1 /\ eqm (8 * sz (mty t)) y v).
      { intros env m v m1 T I Gm. destruct (HP env m v T I) as [Cn Tn]. unfold copy_source in CS.
        pose proof (elab_cast_ty e n U E (ex_intro _ env (ex_intro _ m I))) as TY.
        destruct (is_memop G n) as [[sb' so']|] eqn:MN.
        - injection CS as <- <-. destruct (memop_ok G sym env bs P (mm m) FR n _ _ v m1 MN Cn Tn Gm) as [ST HH].
          split; [exact ST|]. exists (tysize (nty n)), v. rewrite TY in *. split; [lia|]. split; [exact HH|apply eqm_refl].
        - destruct n as [| | | | | | | | | | | | | | | |u a]; try discriminate. 
          destruct ((sz (mty t) <=? sz (nty a)) && negb (is_bool (mty t))) eqn:CC; [|discriminate].
          apply andb_true_iff in CC as [LE NB]. apply Z.leb_le in LE. apply negb_true_iff in NB.
          destruct Cn as [Wn Vn Kn Pn]. cbn [wtn venv kenv place nty] in *. destruct Wn as [_ Wa].
          cbn [teval] in Tn. destruct (teval env a) as [va|] eqn:Ta; [|discriminate]. injection Tn as <-.
          destruct (memop_ok G sym env bs P (mm m) FR a _ _ va m1 CS (mkcgok _ _ _ _ _ _ _ Wa Vn Kn Pn) Ta Gm) as [ST HH].
          split; [exact ST|]. exists (tysize (nty a)), va. split; [unfold tysize; apply Z2Nat.inj_le; destruct t; cbn in *; lia|].
          split; [exact HH|]. rewrite TY, ity_mty. apply eqm_sym.
          replace (8 * sz (mty t)) with (iwidth t) by (destruct t; reflexivity || discriminate NB).
          apply eqm_conv. destruct t; discriminate. }
      assert (NDX : forall b, stable b -> b <> BReg DX).
      { intros b ST ->. destruct ST as [X|[X|X]]; discriminate. }
      destruct (var_memop G x 0) as [[b o]|] eqn:MO; bnd H; injection H as <-.
      * eapply vspec_store; [apply nop_gspec|unfold gen_mem_copy2 in E1; bnd E1; injection E1 as <-; reflexivity|].
        intros env env' m [v [Ev ->]] I. exists 0. split; [exact Logic.I|]. intros m1 Gm _.
        destruct (SRC env m (conv t v) m1 ltac:(cbn [ceval]; rewrite Ev; reflexivity) I Gm) as [ST [k [y [LE [HH EY]]]]].
        destruct (ea_memop G sym bs P V M0 env m m1 t x b o I SLOT MO Gm) as [EA [ND _]].
        eapply mem_copy_ok; eauto using conv_range.
      * eapply vspec_store; [apply nop_gspec|rewrite labels_app, labels_addr; unfold gen_mem_copy2 in E1; bnd E1; injection E1 as <-; reflexivity|].
        intros env env' m [v [Ev ->]] I. exists 0. split; [exact Logic.I|]. intros m1 Gm _.
        destruct (var_loc G sym bs P V M0 env m t x I SLOT) as [VL _].
        destruct (gen_addr_ok G sym env bs P (mm m) x m1 VL Gm) as [m3 [R3 [P3 Q3]]].
        pose proof (pres_good G bs P (mm m) _ _ Gm P3) as G3.
        destruct (SRC env m (conv t v) m3 ltac:(cbn [ceval]; rewrite Ev; reflexivity) I G3) as [ST [k [y [LE [HH EY]]]]].
        assert (EA : ea sym (BReg AX) 0 m3 = vaddr x) by (eapply ea_tmp; eauto; rewrite Q3; apply eqm_refl).
        destruct (mem_copy_ok sb so (BReg AX) 0 a env m m3 y k E1 I G3 (NDX _ ST) ltac:(discriminate) EA LE HH (conv t v) (conv_range _ _) EY)
          as [m2 [R2 I2]].
        exists m2. split; [rewrite run_app, R3; exact R2|exact I2].
    + eapply vspec_weak; [eapply gen_assign_ok with (Pr := fun env v => ceval env (ECast t e) = Some v); eauto|].
      intros env env' m I X. apply exp_set. exact X.
Qed.

Hypothesis INV : In (t, x) V.
(** ** Compound assignment *)
Definition arith_kind (o : aop) : akind :=
  match o with ABin b => KArith b | AShl => KShl | AShr => if uns (mty t) then KShr else KSar end.

Lemma null_tree o e a : elab c e = Ok a ->
  (do n <- null_op G nul (arith_kind o) (mty t) a; new_cast c n (mty t)) = elab c (ECast t (aexp o (EVar t nul) e)).
Proof.
  intros E. destruct o as [o| |]; cbn [arith_kind aexp elab null_op bind]; rewrite E; cbn [bind].
  - destruct (usual_arith_conv c (NVar (mty t) nul) a) as [p| |]; reflexivity.
  - destruct (int_promotion c (NVar (mty t) nul)) as [p| |]; reflexivity.
  - cbn [nty]. destruct (uns (mty t)); cbn [null_op]; destruct (int_promotion c (NVar (mty t) nul)) as [p| |]; reflexivity.
Qed.

Lemma hot_tree o e n : uses V e -> elab c (ECast t (aexp o (EVar t nul) e)) = Ok n -> Hot nul (mty t) V n.
Proof.
  intros U H. assert (HV : Hot nul (mty t) V (NVar (mty t) nul)) by (split; reflexivity).
  cbn [elab] in H. bnd H. eapply hot_cast; eauto.
  destruct o as [o| |]; cbn [aexp elab] in E.
  - change ((do m <- elab c e; do p <- usual_arith_conv c (NVar (mty t) nul) m; Ok (NBin o (nty (fst p)) (fst p) (snd p))) = Ok a) in E.
    bnd E. pose proof (nonul_elab _ _ _ _ U E0) as N.
    injection E as <-. destruct a1 as [p q]. cbn [Hot fst snd]. eapply hot_usual; eauto.
  - change ((do m <- elab c e; do k <- int_promotion c (NVar (mty t) nul); Ok (NShl (nty k) k m)) = Ok a) in E.
    bnd E. pose proof (nonul_elab _ _ _ _ U E0) as N.
    injection E as <-. cbn [Hot]. split; [eapply hot_promotion; eauto|exact N].
  - change ((do m <- elab c e; do k <- int_promotion c (NVar (mty t) nul);
      Ok (if uns (mty t) then NShr (nty k) k m else NSar (nty k) k m)) = Ok a) in E.
    bnd E. pose proof (nonul_elab _ _ _ _ U E0) as N.
    injection E as <-. assert (Hot nul (mty t) V a1) by (eapply hot_promotion; eauto).
    destruct (uns (mty t)); split; auto.
Qed.

Lemma ceval_null env o e : uses V e ->
  ceval (assign env nul (env x)) (aexp o (EVar t nul) e) = ceval env (aexp o (EVar t x) e).
Proof.
  intros U. assert (A : ceval (assign env nul (env x)) e = ceval env e).
  { eapply ceval_agree; eauto. intros u y Hy. unfold assign. destruct (Nat.eqb_spec y nul); [|reflexivity].
    subst y. exfalso. eapply NUL; eauto. }
  destruct o; cbn [aexp ceval]; rewrite A; unfold assign; rewrite Nat.eqb_refl; reflexivity.
Qed.

Lemma null_vars env m : inv env m ->
  vars_ok (setloc G nul (loc G x)) sym bs P ((t, nul) :: V) (assign env nul (env x)) (mm m).
Proof.
  intros [_ A _] u y [Q|Hy].
  - injection Q as <- <-. destruct (A t x INV) as [A1 [[A2 [A3 A4]] A5]].
    assert (VA : CgInv.vaddr (setloc G nul (loc G x)) sym bs nul = vaddr x).
    { unfold CgInv.vaddr. cbn [setloc loc]. rewrite Nat.eqb_refl. reflexivity. }
    unfold assign. rewrite Nat.eqb_refl. split; [exact A1|]. split.
    + split; [|split].
      * unfold vloc_ok in *. cbn [setloc loc pic]. rewrite Nat.eqb_refl. exact A2.
      * rewrite VA. exact A3.
      * rewrite VA, Nat.eqb_refl. exact A4.
    + cbn [setloc gc]. rewrite UNK. discriminate.
  - destruct (A u y Hy) as [A1 [[A2 [A3 A4]] A5]].
    assert (X : Nat.eqb y nul = false) by (apply Nat.eqb_neq; intros ->; eapply NUL; eauto).
    assert (VA : CgInv.vaddr (setloc G nul (loc G x)) sym bs y = vaddr y).
    { unfold CgInv.vaddr. cbn [setloc loc]. rewrite X. reflexivity. }
    unfold assign. rewrite X. split; [exact A1|]. split.
    + split; [|split].
      * unfold vloc_ok in *. cbn [setloc loc pic]. rewrite X. exact A2.
      * rewrite VA. exact A3.
      * rewrite VA, X. exact A4.
    + cbn [setloc gc]. exact A5.
Qed.

Lemma null_pre env m o e n v : inv env m -> uses V e -> elab c (ECast t (aexp o (EVar t nul) e)) = Ok n ->
  ceval env (aexp o (EVar t x) e) = Some v ->
  pre (setloc G nul (loc G x)) sym (assign env nul (env x)) bs P (mm m) n (conv t v) /\ nty n = mty t.
Proof.
  intros I U E T. pose proof (null_vars env m I) as NV.
  assert (U' : uses ((t, nul) :: V) (ECast t (aexp o (EVar t nul) e))).
  { assert (uses ((t, nul) :: V) e) by (eapply uses_weak; [|exact U]; intros; right; auto).
    destruct o; cbn [uses aexp]; split; auto; left; reflexivity. }
  split.
  - eapply uses_pre; eauto. cbn [ceval]. rewrite ceval_null by exact U. rewrite T. reflexivity.
  - exact (er_ty _ _ _ _ (uses_elab _ sym bs P _ _ (mm m) NV CO _ n U' E)).
Qed.


Lemma gen_arith_assign_ok f o e a st st' : uses V e -> elab c e = Ok a ->
  gen_arith_assign G nul f (arith_kind o) (mty t) x a st = Ok st' ->
  vspec st st' (exp_rel (aexp o (EVar t x) e)).
Proof.
  intros U E H. unfold gen_arith_assign in H. bnd H. unfold gen_expr_null_lhs in E1. bnd E1.
  assert (TR : elab c (ECast t (aexp o (EVar t nul) e)) = Ok a3).
  { rewrite <- (null_tree o e a E). rewrite E2. exact E3. }
  pose proof (hot_tree o e a3 U TR) as HT.
  eapply vspec_weak; [eapply (store_ok G sym bs P V M0 DIS t x SLOT KN st a1 st' a3
     (fun env mem v => leafv G sym env bs P mem (mty t) x /\ in_range (ity (mty t)) (env x) /\
        pre (setloc G nul (loc G x)) sym (assign env nul (env x)) bs P mem a3 v)
     (fun env v => exists w, ceval env (aexp o (EVar t x) e) = Some w /\ v = conv t w)); [| | |exact H]|].
  - intros r st3 PO. eapply gpush_hot; eauto using is_ty_mty.
  - intros env m I. apply (wbits_sz a3 t).
    destruct (ceval env (aexp o (EVar t x) e)) as [w|] eqn:T.
    + apply (null_pre env m o e a3 w I U TR T).
    + pose proof (null_vars env m I) as NV.
      assert (U' : uses ((t, nul) :: V) (ECast t (aexp o (EVar t nul) e))).
      { assert (uses ((t, nul) :: V) e) by (eapply uses_weak; [|exact U]; intros; right; auto).
        destruct o; cbn [uses aexp]; split; auto; left; reflexivity. }
      exact (er_ty _ _ _ _ (uses_elab _ sym bs P _ _ (mm m) NV CO _ a3 U' TR)).
  - intros env m v [w [T ->]] I. pose proof I as [_ A _]. destruct (A t x INV) as [A1 [A2 _]].
    split; [exact A2|]. split; [rewrite ity_mty; exact A1|]. apply (null_pre env m o e a3 w I U TR T).
  - intros env env' m I [w [T ->]]. exists (conv t w). split; [exists w; auto|]. split; [apply conv_range|reflexivity].
Qed.

Lemma usual_width pb : t <> TBool -> 8 * sz (mty t) <= iwidth (usual (promoted_m None t) pb).
Proof. intros N. destruct t; try congruence; destruct pb; vm_compute; discriminate. Qed.

Lemma gen_void_arith_ok f o e a st st' : uses V e -> elab c e = Ok a ->
  gen_void_arith_assign G nul f (arith_kind o) (mty t) x a st = Ok st' ->
  vspec st st' (exp_rel (aexp o (EVar t x) e)).
Proof.
  intros U E H. unfold gen_void_arith_assign in H.
  destruct (opt c && negb (is_bool (mty t))) eqn:OB; [|eapply gen_arith_assign_ok; eauto].
  apply andb_true_iff in OB as [_ NB]. apply negb_true_iff in NB.
  assert (NT : t <> TBool) by (intros ->; discriminate).
  destruct o as [o| |]; cbn [arith_kind] in H.
  2: { exact (gen_arith_assign_ok f AShl e a st st' U E H). }
  2: { apply (gen_arith_assign_ok f AShr e a st st' U E). cbn [arith_kind]. destruct (uns (mty t)); exact H. }
  bnd H. destruct a0 as [p n2].
  assert (SH : forall i, arith_ins o = Ok i -> o <> BMul -> simple o ->
    memop_arith G f (fun s => Alu i (Some s)) (mty t) x n2 st = Ok st' -> vspec st st' (exp_rel (aexp (ABin o) (EVar t x) e))).
  { intros i AI NM SM HM.
    assert (W2 : forall env m, inv env m -> exists u, nty n2 = mty u /\ 3 <= irank u /\ 8 * sz (mty t) <= iwidth u /\ u <> TBool /\
       forall v, ceval env e = Some v -> u = usual (promoted (EVar t x) t) (promoted e (ctype e)) /\
         pre G sym env bs P (mm m) n2 (conv u v)).
    { intros env m I. pose proof I as [_ A _]. pose proof (uses_elab G sym bs P V env (mm m) A CO e a U E) as ER.
      pose proof (er_promoted _ _ _ _ ER) as PR. pose proof (promote_value env a (er_wt _ _ _ _ ER) (er_v _ _ _ _ ER)) as PV.
      destruct (usual_arith_conv_ok c (NVar (mty t) nul) a p n2 CO (is_ty_mty t) (er_wt _ _ _ _ ER) E0)
        as [_ [Wn [_ [Tn [Ru [_ [_ [_ Vr]]]]]]]].
      cbn [is_bitfield2 nty] in Tn, Ru, Vr. rewrite ity_mty, PR in *.
      set (u := usual (promoted_m None t) (promoted e (ctype e))) in *. exists u.
      split; [exact Tn|]. split; [exact Ru|]. split; [apply usual_width; exact NT|].
      split; [intros X; rewrite X in Ru; cbn in Ru; lia|]. intros v Ev. split; [reflexivity|].
      destruct (Vr env (er_v _ _ _ _ ER) (er_k _ _ _ _ ER)) as [Vn [Kn EV]].
      assert (Ta : teval env a = Some v) by (apply (er_ev _ _ _ _ ER); exact Ev).
      split.
      - constructor; auto. unfold usual_arith_conv in E0. bnd E0. injection E0 as _ <-.
        eapply new_cast_place; [exact E5|]. eapply int_promotion_place; [exact E2|].
        apply (ck_p _ _ _ _ _ _ _ (uses_cgok G sym bs P V env (mm m) A CO e a U E)).
      - rewrite (EV v Ta). f_equal. f_equal. apply conv_id. apply PV. exact Ta. }
    eapply vspec_weak; [eapply (memop_arith_ok G sym bs P V M0 FR CO DIS t x SLOT KN (fun s => Alu i (Some s)) (alu_fun o) f n2
      (fun env v => exists w, ceval env e = Some w /\ v = conv (usual (promoted (EVar t x) t) (promoted e (ctype e))) w));
      [apply memmk_alu; auto| | |exact HM]|].
    - intros env m I. destruct (W2 env m I) as [u [Tn [Ru [WU [NU _]]]]]. unfold wbits. rewrite Tn.
      destruct u; try congruence; cbn in Ru; try lia; cbn in WU |- *; try lia; destruct (boolish n2); cbn; lia.
    - intros env m v [w [Ew ->]] I. destruct (W2 env m I) as [u [_ [_ [_ [_ X]]]]]. destruct (X w Ew) as [<- Y]. exact Y.
    - intros env env' m I [w [Ew ->]]. destruct (W2 env m I) as [u [_ [_ [WU [NU X]]]]].
      cbn [aexp ceval] in Ew. destruct (ceval env e) as [v|] eqn:Ev; [|discriminate]. destruct (X v eq_refl) as [UU _].
      cbn [ctype] in Ew. rewrite <- UU in Ew. pose proof (c_bin_alu o u _ _ w SM NU Ew) as CB.
      exists (conv u v), (conv t w). split; [exists v; rewrite UU; auto|]. split; [apply conv_range|]. split; [|reflexivity].
      assert (WT : iwidth t = 8 * sz (mty t)) by (destruct t; congruence || reflexivity).
      eapply eqm_trans; [|rewrite <- WT; apply eqm_sym, eqm_conv; exact NT].
      eapply eqm_trans; [|eapply eqm_le; [|exact CB]; destruct t; cbn in *; lia].
      apply alu_fun_eqm; auto; [destruct t; cbn; lia| |apply eqm_refl].
      apply eqm_sym. eapply eqm_le; [|apply eqm_conv; exact NU]. destruct t; cbn in *; lia. }
  cbn [snd] in H.
  destruct o; try (exact (gen_arith_assign_ok f (ABin _) e a st st' U E H));
    bnd H; apply (SH a0); auto; try discriminate; split; discriminate.
Qed.
End One.

(** ** Effects *)
Theorem eff_ok f a : uses_eff V (fun x => known c x = None) a -> forall n st st', parse_eff c a = Ok n ->
  gen_void G nul f n st = Ok st' -> vspec st st' (fun env env' => effect env a = Some env').
Proof.
  induction a; cbn [uses_eff]; intros U n st st' PE H; cbn [parse_eff] in PE.
  - injection PE as <-. cbn [gen_void] in H. injection H as <-.
    eapply vspec_weak; [apply vspec_nop|]. cbn [effect]. intros env env' _ _ X. injection X as <-. reflexivity.
  - bnd PE. injection PE as <-. cbn [gen_void] in H. eapply vspec_weak; [eapply void_pure; eauto|].
    cbn [effect]. intros env env' _ _ X. destruct (ceval env e) as [v|]; [|discriminate]. injection X as <-. eauto.
  - destruct U as [IV [KN U]]. bnd PE. injection PE as <-. cbn [gen_void] in H.
    assert (E' : elab c (ECast t e) = Ok a0) by (cbn [elab]; rewrite E; exact E0).
    eapply vspec_weak; [eapply (gen_void_assign_ok t x (own_slot V t x IV) KN f e a0 st st'); eauto|].
    cbn [effect]. intros env env' _ _ X. unfold set_to in X. destruct (ceval env e) as [v|] eqn:Ev; [|discriminate].
    injection X as <-. exists v. auto.
  - destruct U as [IV [KN U]]. bnd PE. injection PE as <-. cbn [gen_void] in H.
    eapply vspec_weak; [eapply (gen_void_arith_ok t x (own_slot V t x IV) KN IV f o e a st st'); eauto|].
    cbn [effect]. intros env env' _ _ X. unfold set_to in X. destruct (ceval env (aexp o (EVar t x) e)) as [v|] eqn:Ev; [|discriminate].
    injection X as <-. exists v. auto.
  - destruct U as [IV KN]. injection PE as <-. cbn [gen_void] in H.
    eapply vspec_weak; [eapply (gen_void_arith_ok t x (own_slot V t x IV) KN IV f (ABin (if inc then BAdd else BSub)) (ENum TInt 1) _ st st');
      [split; vm_compute; discriminate|reflexivity|destruct inc; exact H]|].
    cbn [effect aexp]. intros env env' _ _ X. unfold set_to in X.
    destruct (ceval env (EBin (if inc then BAdd else BSub) (EVar t x) (ENum TInt 1))) as [v|] eqn:Ev; [|discriminate].
    injection X as <-. exists v. auto.
  - destruct U as [IV KN].
    assert (SP : forall st st', gen_void_arith_assign G nul f (KArith BAdd) (mty t) x (NNum ty_int (if inc then 1 else -1)) st = Ok st' ->
       vspec st st' (fun env env' => effect env (XPost inc t x) = Some env')).
    { intros s1 s2 H1. eapply vspec_weak; [eapply (gen_void_arith_ok t x (own_slot V t x IV) KN IV f (ABin BAdd) (ENum TInt (if inc then 1 else -1)) _ s1 s2);
        [destruct inc; split; vm_compute; discriminate| |exact H1]|].
      - destruct inc; reflexivity.
      - cbn [effect aexp]. intros env env' _ _ X. unfold set_to in X.
        destruct (ceval env (EBin (if inc then BAdd else BSub) (EVar t x) (ENum TInt 1))) as [v|] eqn:Ev; [|discriminate].
        injection X as <-. exists v. split; [|reflexivity]. rewrite <- Ev. destruct inc; [reflexivity|apply dec_inc]. }
    unfold new_inc_dec in PE. destruct (opt c && negb (is_bool (mty t))); injection PE as <-.
    + cbn [gen_void] in H. bnd H. eapply vspec_seq; [apply SP; exact E| |].
      * eapply (void_pure f (ENum TInt (if inc then -1 else 1))); [destruct inc; split; vm_compute; discriminate| |exact H].
        destruct inc; reflexivity.
      * intros e1 e3 X. exists e3. split; [exact X|]. split; [|reflexivity]. eexists. reflexivity.
    + apply SP. exact H.
  - destruct U as [U1 U2]. bnd PE. injection PE as <-. cbn [gen_void] in H. bnd H.
    eapply vspec_seq; [eapply IHa1; eauto|eapply IHa2; eauto|].
    cbn [effect]. intros e1 e3 X. destruct (effect e1 a1) as [e2|]; [|discriminate]. exists e2. auto.
Qed.
End Void.
