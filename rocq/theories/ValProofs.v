(** Code of assignments, compound assignments, ++ and -- whose value is used. *)
From Coq Require Import ZArith List Bool Lia.
From Verif Require Import Base BitLemmas IntSpec IntLemmas IntModel IntTyped IntProofs IntFold
  IntElab IntMain X86 CgModel CgSpec CgLemmas CgSeq CgSeq2 CgSeq3 CgInv CgTree CgGen CgMain CgHot CgPiece
  StmtSpec StmtModel StmtEff StmtVoid ValSpec ValModel.
Import ListNotations.
Local Open Scope Z_scope.

(** Bits of %rax that hold a value of type [t]. *)
Definition vw (t : ityp) : Z := wbits (NVar (mty t) 0).
Lemma vw_hole t x : wbits (NVar (mty t) x) = vw t. Proof. reflexivity. Qed.
Lemma vw_node n t : nty n = mty t -> 0 <= vw t <= wbits n.
Proof. unfold vw, wbits. intros E. rewrite E. cbn [nty]. destruct t; cbn [mty sz]; destruct n; cbn [boolish nty] in *; rewrite ?E; cbn; lia. Qed.
Lemma vw_result t : 0 <= result_bits t <= vw t.
Proof. destruct t; vm_compute; split; discriminate. Qed.

Lemma assign_same env x v : assign env x v x = v.
Proof. unfold assign. rewrite Nat.eqb_refl. reflexivity. Qed.

(** Undoing an increment. *)
Lemma undo env env' inc t x : t <> TBool -> in_range t (env x) -> effect env (XPost inc t x) = Some env' ->
  exists w, ceval env' (EBin BAdd (EVar t x) (ENum TInt (if inc then -1 else 1))) = Some w /\ conv t w = env x.
Proof.
  intros NB RX EF. cbn [effect] in EF. unfold set_to in EF.
  destruct (ceval env (EBin (if inc then BAdd else BSub) (EVar t x) (ENum TInt 1))) as [z|] eqn:EZ; [|discriminate].
  injection EF as <-. 
  assert (X : ceval (assign env x (conv t z)) (EBin BAdd (EVar t x) (ENum TInt (if inc then -1 else 1))) =
     c_bin BAdd (usual (promoted (EVar t x) t) TInt) (conv (usual (promoted (EVar t x) t) TInt) (conv t z))
       (conv (usual (promoted (EVar t x) t) TInt) (if inc then -1 else 1))).
  { cbn [ceval ctype]. unfold assign. rewrite Nat.eqb_refl. reflexivity. }
  rewrite X. clear X. revert EZ.
  replace (ceval env (EBin (if inc then BAdd else BSub) (EVar t x) (ENum TInt 1))) with
    (c_bin BAdd (usual (promoted (EVar t x) t) TInt) (conv (usual (promoted (EVar t x) t) TInt) (env x))
       (conv (usual (promoted (EVar t x) t) TInt) (if inc then 1 else -1))).
  2: { destruct inc; [reflexivity|]. rewrite <- dec_inc. reflexivity. }
  set (u := usual (promoted (EVar t x) t) TInt). set (n := if inc then 1 else -1).
  replace (if inc then -1 else 1) with (- n) by (destruct inc; reflexivity).
  assert (UB : u <> TBool) by (unfold u; destruct t; discriminate).
  assert (UW : 0 <= iwidth t <= iwidth u) by (unfold u; destruct t; try congruence; vm_compute; split; discriminate).
  assert (CN : forall k, 0 <= k <= iwidth u -> forall a b, eqm k a b -> eqm k (conv u a) b).
  { intros k Hk a b Hab. eapply eqm_trans; [|exact Hab]. eapply eqm_le; [exact Hk|apply eqm_conv; exact UB]. }
  assert (Z1 : eqm (iwidth t) (conv t z) z) by (apply eqm_conv; exact NB).
  unfold c_bin. intros EZ.
  assert (Z2 : eqm (iwidth t) z (env x + n)).
  { unfold wrap_or_undef in EZ. assert (X : eqm (iwidth t) (conv u (env x) + conv u n) (env x + n)).
    { apply eqm_add; [apply CN; [lia|apply eqm_refl]|apply CN; [lia|apply eqm_refl]]. }
    destruct (isigned u).
    - destruct (in_rangeb u (conv u (env x) + conv u n)); [|discriminate]. injection EZ as <-. exact X.
    - injection EZ as <-. apply CN; [lia|exact X]. }
  assert (FIN : forall w, eqm (iwidth t) w (conv u (conv t z) + conv u (- n)) -> conv t w = env x).
  { intros w Hw. rewrite <- (conv_id t (env x) RX). apply conv_cong; [exact NB|].
    change (eqm (iwidth t) w (env x)). eapply eqm_trans; [exact Hw|].
    replace (env x) with (env x + n + - n) by lia. apply eqm_add; [|apply CN; [lia|apply eqm_refl]].
    apply CN; [lia|]. eapply eqm_trans; eauto. }
  unfold wrap_or_undef in *. destruct (isigned u) eqn:SU.
  - assert (IR : in_rangeb u (conv u (conv t z) + conv u (- n)) = true).
    { destruct (in_rangeb u (conv u (env x) + conv u n)) eqn:IZ; [|discriminate]. injection EZ as EZ.
      pose proof (conv_range t z) as RZ. apply in_rangeb_spec. apply in_rangeb_spec in IZ.
      assert (CN1 : conv u n = n /\ conv u (- n) = - n).
      { unfold u, n. destruct t, inc; try discriminate SU; split; reflexivity. }
      destruct CN1 as [CN1 CN2]. rewrite CN1, CN2 in *.
      assert (CS : u = t \/ (imin u + 1 <= imin t /\ imax t <= imax u - 1)).
      { unfold u. destruct t; try congruence; first [left; reflexivity|right; vm_compute; split; discriminate]. }
      assert (NN : -1 <= - n <= 1) by (unfold n; destruct inc; lia).
      destruct CS as [UE|CS].
      + rewrite UE in *. rewrite (conv_id t (env x) RX) in *. rewrite EZ in IZ. rewrite (conv_id t z IZ).
        rewrite (conv_id t z IZ). replace (z + - n) with (env x) by lia. exact RX.
      + assert (RU : in_range u (conv t z)) by (unfold in_range in *; lia). rewrite (conv_id u _ RU).
        unfold in_range in *. lia. }
    rewrite IR. eexists. split; [reflexivity|]. apply FIN. apply eqm_refl.
  - eexists. split; [reflexivity|]. apply FIN. eapply eqm_le; [exact UW|]. apply eqm_conv. exact UB.
Qed.

Section Val.
Variable G : genv.
Variable sym : nat -> Z.
Variable bs : reg -> Z.
Variable P : Z.
Variable V : list (ityp * nat).
Variable M0 : Z -> Z.
Variable nul : nat.
Hypothesis FR : frame_ok G bs P.
Hypothesis CO : cfg_ok (gc G).
Hypothesis HERE : loc G nul = VHere.
Hypothesis UNK : known (gc G) nul = None.
Hypothesis NUL : forall t, ~ In (t, nul) V.
Hypothesis DIS : forall t x u y, In (t, x) V -> In (u, y) V -> (t = u /\ x = y) \/
  (x <> y /\ (vaddr G sym bs x + sz (mty t) <= vaddr G sym bs y \/ vaddr G sym bs y + sz (mty u) <= vaddr G sym bs x)).

Local Notation vaddr := (vaddr G sym bs).
Local Notation good := (good G bs P).
Local Notation c := (gc G).
Local Notation inv := (inv G sym bs P V M0).
Local Notation vspec := (vspec G sym bs P V M0).
Local Notation gspec := (gspec G sym bs P).

Definition wspec (w : Z) (st st' : gst) (Re : (nat -> Z) -> (nat -> Z) -> Z -> Prop) : Prop :=
  exists code, wext st st' code /\
  (peak st' <= P -> lvar_sz G <= peak st -> forall env env' v m, Re env env' v -> inv env m ->
   exists m', run sym code None m = Some (None, m') /\ inv env' m' /\ eqm w (rg m' AX) v).

Lemma wspec_weak w w' st st' (A B : (nat -> Z) -> (nat -> Z) -> Z -> Prop) : 0 <= w' <= w ->
  wspec w st st' A -> (forall env env' v m, inv env m -> B env env' v -> A env env' v) -> wspec w' st st' B.
Proof.
  intros LE [code [E S]] H. exists code. split; [exact E|]. intros HP HL env env' v m HB I.
  destruct (S HP HL env env' v m) as [m' [R1 [I1 Q1]]]; eauto. exists m'. split; [exact R1|]. split; [exact I1|].
  eapply eqm_le; eauto.
Qed.

Lemma wspec_seq w st st1 st2 (A : (nat -> Z) -> (nat -> Z) -> Prop) (B C : (nat -> Z) -> (nat -> Z) -> Z -> Prop) :
  vspec st st1 A -> wspec w st1 st2 B ->
  (forall e1 e3 v, C e1 e3 v -> exists e2, A e1 e2 /\ B e2 e3 v) -> wspec w st st2 C.
Proof.
  intros [c1 [E1 S1]] [c2 [E2 S2]] H. exists (c1 ++ c2). split; [eapply wext_trans; eauto|].
  intros HP HL env env' v m HC I. destruct (H _ _ _ HC) as [e2 [HA HB]].
  pose proof (we_pk _ _ _ E1). pose proof (we_pk _ _ _ E2).
  destruct (S1 ltac:(lia) HL env e2 m HA I) as [m1 [R1 I1]].
  destruct (S2 HP ltac:(lia) e2 env' v m1 HB I1) as [m2 [R2 I2]].
  exists m2. split; [|exact I2]. rewrite run_app, R1. exact R2.
Qed.

Lemma wspec_store w st st1 prE Q code2 (Re : (nat -> Z) -> (nat -> Z) -> Z -> Prop) :
  gspec st st1 prE (fun env mem v => plainq (Q env mem v)) -> labels code2 = [] ->
  (forall env env' u m, Re env env' u -> inv env m -> exists v, prE env (mm m) v /\
     forall m1, good (mm m) m1 -> Q env (mm m) v m1 ->
     exists m2, run sym code2 None m1 = Some (None, m2) /\ inv env' m2 /\ eqm w (rg m2 AX) u) ->
  wspec w st (emit code2 st1) Re.
Proof.
  intros [c1 [E1 S1]] L H. exists (c1 ++ code2).
  split; [eapply wext_trans; [exact E1|apply wext_emit; exact L]|].
  intros HP HL env env' u m HR I. destruct (H env env' u m HR I) as [v [PV HQ]].
  destruct (S1 HP HL env (mm m) v PV m (inv_good _ _ _ _ _ _ _ _ I)) as [j [m1 [R1 [G1 [-> Q1]]]]].
  destruct (HQ m1 G1 Q1) as [m2 [R2 I2]]. exists m2. split; [|exact I2]. rewrite run_app, R1. exact R2.
Qed.

Lemma pure_ok f e n st st' : uses V e -> elab c e = Ok n -> gen G f MExpr n st = Ok st' ->
  wspec (vw (ctype e)) st st' (fun env env' v => ceval env e = Some v /\ env' = env).
Proof.
  intros U E H. rewrite <- (emit_nil st'). eapply wspec_store; [eapply gexpr; eauto|reflexivity|].
  intros env env' v m [T ->] I. exists v. split; [eapply inv_pre; eauto|]. intros m1 Gm Q.
  exists m1. split; [reflexivity|]. split; [eapply inv_keep; eauto|]. eapply eqm_le; [|exact Q].
  apply vw_node. destruct I as [_ A _]. exact (er_ty _ _ _ _ (uses_elab G sym bs P V env (mm m) A CO e n U E)).
Qed.

Section One.
Variable t : ityp.
Variable x : nat.
Hypothesis INV : In (t, x) V.
Hypothesis KN : known c x = None.

(** The value stored is in %rax. *)
Definition setv_rel (Pr : (nat -> Z) -> Z -> Prop) (env env' : nat -> Z) (v : Z) : Prop :=
  Pr env v /\ in_range t v /\ env' = assign env x v.

Lemma store_val st st1 st2 n prE (Pr : (nat -> Z) -> Z -> Prop) :
  (forall r st3, pop_gp G true DI false st1 = Ok (r, st3) ->
     gspec st st3 prE (fun _ _ v => plainq (addrq G sym bs r n x v))) ->
  (forall env m, inv env m -> nty n = mty t) ->
  (forall env m v, Pr env v -> inv env m -> prE env (mm m) v) ->
  store G (mty t) st1 = Ok st2 -> wspec (vw t) st st2 (setv_rel Pr).
Proof.
  intros HG WB HP H. unfold store in H. bnd H. destruct a0 as [r st3]. injection H as <-. cbn [fst snd].
  eapply wspec_store; [apply HG; reflexivity|reflexivity|].
  intros env env' v m [PV [RV ->]] I. exists v. split; [apply HP; auto|]. intros m1 Gm [IT [EA Q1]].
  destruct (var_loc _ _ _ _ _ _ _ _ _ _ I (own_slot _ _ _ INV)) as [VL _]. destruct (mov_ax sym a (BReg r) 0 m1) as [m2 [R2 [RG MM]]].
  exists m2. split; [exact R2|]. rewrite (ea_tmp G sym bs P M0 r x m1 VL EA) in MM. split.
  - eapply store_fin; eauto using own_slot. apply wbits_sz. eauto.
  - rewrite RG. eapply eqm_le; [|exact Q1]. apply vw_node. eauto.
Qed.

Lemma assign_val f n (Pr : (nat -> Z) -> Z -> Prop) st st' : (forall env m, inv env m -> nty n = mty t) ->
  (forall env m v, Pr env v -> inv env m -> pre G sym env bs P (mm m) n v) ->
  gen_assign G f (mty t) x n st = Ok st' -> wspec (vw t) st st' (setv_rel Pr).
Proof.
  intros WB HP H. unfold gen_assign in H.
  assert (PL : (do st1 <- gen G f MExpr n (push (emit (gen_addr G x) st)); store G (mty t) st1) = Ok st' -> wspec (vw t) st st' (setv_rel Pr)).
  { intros H'. bnd H'.
    eapply (store_val st a st' n (fun env mem v => vloc_ok G sym x /\ pre G sym env bs P mem n v)); eauto.
    - intros r st3 PO. eapply gpush; eauto.
    - intros env m v PV I. split; [apply (var_loc _ _ _ _ _ _ _ _ _ _ I (own_slot _ _ _ INV))|apply HP; auto]. }
  destruct (opt c); [|auto]. destruct (var_memop G x 0) as [[b o]|] eqn:MO; [|auto].
  bnd H. injection H as <-. eapply wspec_store; [eapply gexpr; eauto|reflexivity|].
  intros env env' v m [PV [RV ->]] I. exists v. split; [apply HP; auto|]. intros m1 Gm Q1.
  destruct (ea_memop _ _ _ _ _ _ _ _ m1 _ _ _ _ I (own_slot _ _ _ INV) MO Gm) as [EA _].
  destruct (mov_ax sym a b o m1) as [m2 [R2 [RG MM]]]. rewrite EA in MM.
  exists m2. split; [exact R2|]. split.
  - eapply store_fin; eauto using own_slot. apply wbits_sz. eauto.
  - rewrite RG. eapply eqm_le; [|exact Q1]. apply vw_node. eauto.
Qed.

Definition expv_rel (e : exp) (env env' : nat -> Z) (v : Z) : Prop :=
  exists w, ceval env e = Some w /\ v = conv t w /\ env' = assign env x v.

Lemma null_nty o e n env m : inv env m -> uses V e -> elab c (ECast t (aexp o (EVar t nul) e)) = Ok n -> nty n = mty t.
Proof.
  intros I U TR. pose proof (null_vars G sym bs P V M0 nul UNK NUL t x INV env m I) as NV.
  assert (U' : uses ((t, nul) :: V) (ECast t (aexp o (EVar t nul) e))).
  { assert (uses ((t, nul) :: V) e) by (eapply uses_weak; [|exact U]; intros; right; auto).
    destruct o; cbn [uses aexp]; split; auto; left; reflexivity. }
  exact (er_ty _ _ _ _ (uses_elab _ sym bs P _ _ (mm m) NV CO _ n U' TR)).
Qed.

Lemma arith_val f o e a st st' : uses V e -> elab c e = Ok a ->
  gen_arith_assign G nul f (arith_kind t o) (mty t) x a st = Ok st' ->
  wspec (vw t) st st' (expv_rel (aexp o (EVar t x) e)).
Proof.
  intros U E H. unfold gen_arith_assign in H. bnd H. unfold gen_expr_null_lhs in E1. bnd E1.
  assert (TR : elab c (ECast t (aexp o (EVar t nul) e)) = Ok a3).
  { rewrite <- (null_tree G nul t o e a E). rewrite E2. exact E3. }
  pose proof (hot_tree G V nul UNK t o e a3 U TR) as HT.
  eapply (wspec_weak (vw t)); [pose proof (vw_node (NVar (mty t) 0) t eq_refl); unfold vw in *; lia| eapply (store_val st a1 st' a3
     (fun env mem v => leafv G sym env bs P mem (mty t) x /\ in_range (ity (mty t)) (env x) /\
        pre (setloc G nul (loc G x)) sym (assign env nul (env x)) bs P mem a3 v)
     (fun env v => exists w, ceval env (aexp o (EVar t x) e) = Some w /\ v = conv t w)); [| | |exact H]|].
  - intros r st3 PO. eapply gpush_hot; eauto using is_ty_mty.
  - intros env m I. eapply null_nty; eauto.
  - intros env m v [w [T ->]] I. pose proof I as [_ A _]. destruct (A t x INV) as [A1 [A2 _]].
    split; [exact A2|]. split; [rewrite ity_mty; exact A1|].
    apply (null_pre G sym bs P V M0 nul CO UNK NUL t x INV env m o e a3 w I U TR T).
  - intros env env' v m I [w [T [-> ->]]]. split; [exists w; auto|]. split; [apply conv_range|reflexivity].
Qed.

(** Code after the value of [x] is in %rax, as after ND_NULL_EXPR. *)
Definition after_rel (e : exp) (env : nat -> Z) (v : Z) : Prop :=
  exists w, ceval env e = Some w /\ v = conv t w.

Lemma null_exted f e a st st' : uses V e -> elab c e = Ok a ->
  gen_expr_null_lhs G nul f (KArith BAdd) (mty t) a st = Ok st' -> exted G st st'.
Proof.
  intros U E H. unfold gen_expr_null_lhs in H. bnd H.
  assert (TR : elab c (ECast t (aexp (ABin BAdd) (EVar t nul) e)) = Ok a1).
  { rewrite <- (null_tree G nul t (ABin BAdd) e a E). cbn [arith_kind]. rewrite E0. exact E1. }
  pose proof (hot_tree G V nul UNK t (ABin BAdd) e a1 U TR) as HT.
  destruct (hot_ok G sym (fun _ => 0) bs P (fun _ => 0) nul (mty t) VHere V FR CO HERE UNK NUL f a1 _ _ HT H) as [k [g [s [X _]]]].
  exists k, g, s. exact X.
Qed.

Lemma null_piece f e a st st' : uses V e -> elab c e = Ok a ->
  gen_expr_null_lhs G nul f (KArith BAdd) (mty t) a st = Ok st' ->
  piece G sym bs P st st'
    (fun (i : (nat -> Z) * Z) m => inv (fst i) m /\ eqm (vw t) (rg m AX) (fst i x) /\
       after_rel (EBin BAdd (EVar t x) e) (fst i) (snd i))
    (fun i m m' => good (mm m) m' /\ eqm (vw t) (rg m' AX) (snd i)).
Proof.
  intros U E H. pose proof (null_exted f e a st st' U E H) as X. unfold gen_expr_null_lhs in H. bnd H.
  assert (TR : elab c (ECast t (aexp (ABin BAdd) (EVar t nul) e)) = Ok a1).
  { rewrite <- (null_tree G nul t (ABin BAdd) e a E). cbn [arith_kind]. rewrite E0. exact E1. }
  pose proof (hot_tree G V nul UNK t (ABin BAdd) e a1 U TR) as HT.
  eapply piece_of; [exact X|]. intros [env v] m Cm [I [HE [w [T ->]]]]. cbn [fst snd] in *.
  pose proof (hot_ok G sym (assign env nul (env x)) bs P (mm m) nul (mty t) (loc G x) V FR CO HERE UNK NUL f a1 _ _ HT H) as SB.
  unfold hmspec in SB. eexists _, _, _, (conv t w). split; [exact SB|].
  destruct (null_pre G sym bs P V M0 nul CO UNK NUL t x INV env m (ABin BAdd) e a1 w I U TR T) as [PR TY].
  split; [exact PR|]. split.
  - unfold CgHot.HE. rewrite vw_hole. unfold assign. rewrite Nat.eqb_refl. exact HE.
  - intros m' Gm Q. split; [exact Gm|]. eapply eqm_le; [|exact Q]. apply vw_node. exact TY.
Qed.

Definition post_rel (inc : bool) (env env' : nat -> Z) (v : Z) : Prop :=
  v = env x /\ effect env (XPost inc t x) = Some env'.

Definition addend (inc : bool) : Z := if inc then 1 else -1.
Lemma uses_addend b inc : uses V (ENum TInt (if b : bool then addend inc else - addend inc)).
Proof. destruct b, inc; split; vm_compute; discriminate. Qed.

Lemma elab_addend b inc : let z := if b : bool then addend inc else - addend inc in
  elab c (ENum TInt z) = Ok (NNum ty_int z).
Proof. destruct b, inc; reflexivity. Qed.

Lemma post_sum inc env env' : effect env (XPost inc t x) = Some env' ->
  exists w, ceval env (EBin BAdd (EVar t x) (ENum TInt (addend inc))) = Some w /\ env' = assign env x (conv t w).
Proof.
  cbn [effect]. intros X. unfold set_to in X.
  destruct (ceval env (EBin (if inc then BAdd else BSub) (EVar t x) (ENum TInt 1))) as [w|] eqn:Ev; [|discriminate].
  injection X as <-. exists w. split; [|reflexivity]. rewrite <- Ev. destruct inc; [reflexivity|apply dec_inc].
Qed.

(** With optimisation: (T)((x += n) + -n). *)
Lemma opt_val inc f st st1 st' : t <> TBool ->
  gen_arith_assign G nul f (KArith BAdd) (mty t) x (NNum ty_int (addend inc)) st = Ok st1 ->
  gen_expr_null_lhs G nul f (KArith BAdd) (mty t) (NNum ty_int (- addend inc)) st1 = Ok st' ->
  wspec (vw t) st st' (post_rel inc).
Proof.
  intros NB H1 H2.
  pose proof (arith_val f (ABin BAdd) (ENum TInt (addend inc)) _ st st1 (uses_addend true inc) (elab_addend true inc) H1) as W1.
  pose proof (null_piece f (ENum TInt (- addend inc)) _ st1 st' (uses_addend false inc) (elab_addend false inc) H2) as W2.
  destruct W1 as [c1 [E1 S1]]. destruct W2 as [c2 [g2 [s2 [E2 S2]]]].
  exists (c1 ++ c2). split; [eapply wext_trans; [exact E1|eapply wext_ext; exact E2]|].
  intros HP HL env env' v m [-> EF] I. destruct (post_sum _ _ _ EF) as [w [Ew ->]].
  pose proof (we_pk _ _ _ E1). pose proof (ex_pk _ _ _ _ _ _ E2).
  pose proof I as [_ A _]. destruct (A t x INV) as [RX _].
  destruct (undo env _ inc t x NB RX EF) as [u [Eu Cu]].
  destruct (S1 ltac:(lia) HL env (assign env x (conv t w)) (conv t w) m) as [m1 [R1 [I1 Q1]]]; [|exact I|].
  { exists w. auto. }
  destruct (S2 HP ltac:(lia) (assign env x (conv t w), env x) m1) as [g [s [m2 [_ [R2 [_ [G2 Q2]]]]]]].
  { exact (iv_r _ _ _ _ _ _ _ _ I1). }
  { cbn [fst snd]. split; [exact I1|]. split; [unfold assign; rewrite Nat.eqb_refl; exact Q1|].
    exists u. split; [destruct inc; exact Eu|auto]. }
  exists m2. split; [rewrite run_app, R1; exact R2|]. split; [|exact Q2]. eapply inv_keep; eauto.
Qed.

Lemma labels_addr' y : labels (gen_addr G y) = [].
Proof. eapply labels_addr. Qed.

Lemma load_cx l m m' : load3 (mty t) (BReg AX) 0 = Ok l -> run sym l None m = Some (None, m') ->
  rg m' CX = rg m CX.
Proof. destruct t; intros [= <-] [= <-]; reflexivity. Qed.

Lemma load_labels l : load3 (mty t) (BReg AX) 0 = Ok l -> labels l = [].
Proof. destruct t; intros [= <-]; reflexivity. Qed.

Lemma pres_calm m m' : pres m m' -> calm G bs P m m'.
Proof.
  intros [A B]. split; [|split].
  - intros r C. apply callee_not in C. apply A; tauto.
  - intros i. pose proof (tmp_not_scratch i). apply A; tauto.
  - intros. rewrite B. reflexivity.
Qed.

Lemma inv_off env m m' : inv env m -> callees bs m' -> offT G bs P m m' -> inv env m'.
Proof. intros I C O. eapply inv_keep; [exact I|]. split; [exact C|exact O]. Qed.

Local Notation idx := ((nat -> Z) * (nat -> Z) * Z)%type.
Definition i_pre (inc : bool) (i : idx) (m : mach) : Prop :=
  inv (fst (fst i)) m /\ post_rel inc (fst (fst i)) (snd (fst i)) (snd i).

(** Without: ND_POST_INCDEC. *)
Lemma post_piece inc f st st' : gen_post G nul f (mty t) x (NNum ty_int (addend inc)) st = Ok st' ->
  piece G sym bs P st st' (i_pre inc) (fun i m m' => inv (snd (fst i)) m' /\ eqm (vw t) (rg m' AX) (snd i)).
Proof.
  unfold gen_post. intros H.
  destruct (load3 (mty t) (BReg AX) 0) as [l| |] eqn:LD; cbn [bind] in H; try discriminate.
  set (stA := emit (gen_addr G x ++ [Mov None (R S8 AX) (R S8 CX)] ++ l) st) in *.
  destruct (gen_expr_null_lhs G nul f (KArith BAdd) (mty t) (NNum ty_int (addend inc)) (push (push stA))) as [st2| |] eqn:HN;
    cbn [bind] in H; try discriminate.
  destruct (size_of (sz (mty t))) as [s| |] eqn:SZ; cbn [bind] in H; try discriminate.
  destruct (pop_from G CX true DI false st2) as [[r st3]| |] eqn:PO; cbn [bind fst snd] in H; try discriminate.
  destruct (pop_gp G true AX true (emit [Mov None (R s AX) (M (BReg r) 0)] st3)) as [[r' st4]| |] eqn:PA; cbn [bind fst snd] in H; try discriminate.
  injection H as <-.
  pose proof (null_piece f (ENum TInt (addend inc)) _ _ _ (uses_addend true inc) (elab_addend true inc) HN) as HB.
  set (atx := fun (i : idx) m => i_pre inc i m /\ rg m CX = vaddr x /\ eqm (vw t) (rg m AX) (fst (fst i) x)).
  (* address in %rcx, old value in %rax *)
  assert (PA1 : piece G sym bs P st stA (i_pre inc) (fun i m m' => atx i m')).
  { apply piece_code.
    - rewrite !labels_app, labels_addr', (load_labels l LD). reflexivity.
    - intros i m Cm [I PR]. pose proof I as [_ A _]. destruct (A t x INV) as [RX [LV _]].
      destruct (gen_addr_ok G sym (fst (fst i)) bs P (mm m) x m (proj1 LV) (inv_good _ _ _ _ _ _ _ _ I)) as [m1 [R1 [P1 Q1]]].
      set (m1' := putr S8 CX (getr S8 AX m1) m1).
      assert (P1' : pres m m1').
      { eapply pres_trans; [exact P1|]. split; [|apply putr_mm]. intros q ? ? ?. apply putr_other. auto. }
      assert (AX1 : rg m1' AX = vaddr x) by exact Q1.
      assert (CX1 : rg m1' CX = vaddr x).
      { change (rg m1' CX) with (getr S8 AX m1 mod 2 ^ 64). unfold getr. rewrite Q1.
        rewrite (Z.mod_small (vaddr x)) by (eapply vaddr_range; eauto; apply LV).
        apply Z.mod_small. eapply vaddr_range; eauto. apply LV. }
      assert (G1 : good (mm m) m1').
      { eapply pres_good; [|exact P1']. eapply inv_good; eauto. }
      assert (HH : holds sym (BReg AX) 0 (tysize (mty t)) (fst (fst i) x) m1').
      { eapply leaf_holds; [exact FR|apply is_ty_mty|exact LV|exact G1|]. unfold ea. rewrite AX1, Z.add_0_r. apply Z.mod_small.
        eapply vaddr_range; eauto. apply LV. }
      destruct (load3_ok sym (mty t) (BReg AX) 0 (fst (fst i) x) m1' l (is_ty_mty t)) as [m2 [R2 [P2 [Q2 Q3]]]];
        [rewrite ity_mty; exact RX|exact HH|exact LD|].
      exists m2. split; [|split].
      + rewrite run_app, R1. exact R2.
      + apply pres_calm. eapply pres_trans; eauto.
      + assert (P02 : pres m m2) by (eapply pres_trans; eauto).
        split; [|split].
        * split; [|exact PR]. eapply inv_keep; [exact I|]. eapply pres_good; [|exact P02]. eapply inv_good; eauto.
        * rewrite (load_cx l m1' m2 LD R2). exact CX1.
        * unfold vw, wbits. destruct t; cbn [mty sz nty boolish is_bool kd Z.eqb Pos.eqb orb]; cbn; try exact Q2; apply Q3; cbn; auto. }
  (* the store *)
  assert (PB : piece G sym bs P (push stA) (emit [Mov None (R s AX) (M (BReg r) 0)] st3) atx
                 (fun i m m' => inv (snd (fst i)) m')).
  { eapply (piece_push_pop G sym bs P FR CX (push stA) (push stA) st2 st3 atx (fun i m m' => m' = m)
      (fun (i : idx) m => atx i m) (fun (i : idx) m m' => good (mm m) m' /\ eqm (vw t) (rg m' AX) (snd (fst i) x))
      true DI false r); [apply piece_nop| |exact PO|reflexivity|right; auto|].
    - destruct HB as [k [g [q [X SM]]]]. exists k, g, q. split; [exact X|]. intros HP HL i m Cm [[I [VX EF]] [_ HE]].
      destruct (post_sum _ _ _ EF) as [w [Ew E']].
      destruct (SM HP HL (fst (fst i), conv t w) m Cm) as [g' [q' [m' [X' [R1 [K1 [Q1 Q2]]]]]]].
      { cbn [fst snd]. split; [exact I|]. split; [exact HE|]. exists w. auto. }
      exists g', q', m'. split; [exact X'|]. split; [exact R1|]. split; [exact K1|]. split; [exact Q1|].
      rewrite E'. unfold assign. rewrite Nat.eqb_refl. exact Q2.
    - intros i m Cm Pm. split; [exact Pm|]. intros m1 _ -> m2 C2 RG OF.
      destruct Pm as [[I PR] [CXV HE]]. assert (I2 : inv (fst (fst i)) m2) by (eapply inv_off; eauto).
      assert (NT : forall q, q = AX \/ q = CX -> forall j, q <> tmpreg j).
      { intros q Hq j. pose proof (tmp_not_scratch j). destruct Hq as [-> | ->]; intuition congruence. }
      split.
      { split; [split; auto|]. rewrite !RG by auto. auto. }
      intros m3 C3 [G3 Q3] m4 _ IT GR OT MM. specialize (IT eq_refl).
      destruct PR as [VX EF]. destruct (post_sum _ _ _ EF) as [w [Ew E']].
      assert (AX4 : rg m4 AX = rg m3 AX).
      { apply OT. destruct IT as [->|[->|[->|[->|[->| ->]]]]]; discriminate. }
      assert (EA : eqm 64 (rg m4 r) (vaddr x)).
      { unfold getr in GR. cbn [gsize nbits] in GR. rewrite CXV in GR. exact GR. }
      destruct (var_loc _ _ _ _ _ _ _ _ _ _ I (own_slot _ _ _ INV)) as [VL _].
      destruct (mov_ax sym s (BReg r) 0 m4) as [m5 [R5 [RG5 MM5]]]. exists m5. split; [exact R5|].
      rewrite (ea_tmp G sym bs P M0 r x m4 VL EA) in MM5.
      assert (G4 : good (mm m2) m4).
      { destruct G3 as [G31 G32]. split; [|rewrite MM; exact G32]. intros q Cq. rewrite OT; [auto|].
        intros ->. destruct IT as [->|[->|[->|[->|[->| ->]]]]]; destruct Cq as [X|[X|X]]; discriminate X. }
      assert (I5 : inv (snd (fst i)) m5).
      { rewrite E'. apply (store_fin G sym bs P V M0 DIS t x (own_slot V t x INV) KN (fst (fst i)) m2 m4 m5 (NVar (mty t) 0) (conv t w) s I2 G4 SZ);
          [apply wbits_sz; reflexivity| |apply conv_range|exact RG5|exact MM5].
        fold (vw t). rewrite AX4. rewrite E' in Q3. unfold assign in Q3. rewrite Nat.eqb_refl in Q3. exact Q3. }
      split; [|exact I5]. split; [|split].
      + intros q Cq. rewrite RG5. reflexivity.
      + intros j. rewrite RG5. reflexivity.
      + intros b Hb. rewrite MM5. apply storen_other. destruct (size_mty t s SZ) as [NB _]. rewrite NB, tysize_z.
        pose proof (var_loc _ _ _ _ _ _ _ _ _ _ I (own_slot _ _ _ INV)) as [_ [_ O]]. lia. }
  rewrite <- (emit_nil st4).
  eapply (piece_push_pop G sym bs P FR AX st stA _ st4 (i_pre inc) (fun i m m' => atx i m') atx (fun i m m' => inv (snd (fst i)) m')
    true AX true r'); [exact PA1|exact PB|exact PA|reflexivity|left; auto|].
  intros i m Cm Pm. split; [exact Pm|]. intros m1 C1 [[I1 PR] [CXV HE]] m2 C2 RG OF.
  assert (NT : forall q, q = AX \/ q = CX -> forall j, q <> tmpreg j).
  { intros q Hq j. pose proof (tmp_not_scratch j). destruct Hq as [-> | ->]; intuition congruence. }
  split.
  { split; [split; [eapply inv_off; eauto|exact PR]|]. rewrite !RG by auto. auto. }
  intros m3 C3 I3 m4 RA _ GR OT MM. specialize (RA eq_refl). exists m4. split; [reflexivity|].
  split; [split; [|split]; auto|]. split.
  - eapply inv_keep; [exact I3|]. split; [|rewrite MM; auto]. intros q Cq. rewrite OT; [apply C3; exact Cq|].
    rewrite RA. destruct Cq as [-> | [-> | ->]]; discriminate.
  - destruct PR as [-> _]. eapply eqm_trans; [|exact HE]. rewrite RA in GR. unfold getr in GR. cbn [gsize nbits] in GR.
    eapply (eqm_le 64); [|exact GR]. pose proof (wbits_sz (NVar (mty t) 0) t eq_refl) as [_ X]. fold (vw t) in X.
    pose proof (vw_node (NVar (mty t) 0) t eq_refl). lia.
Qed.

Lemma post_val inc f st st' : gen_post G nul f (mty t) x (NNum ty_int (addend inc)) st = Ok st' ->
  wspec (vw t) st st' (post_rel inc).
Proof.
  intros H. destruct (post_piece inc f st st' H) as [k [g [s [X SM]]]]. exists k.
  split; [eapply wext_ext; exact X|]. intros HP HL env env' v m PR I.
  destruct (SM HP HL (env, env', v) m) as [g' [s' [m' [_ [R1 [_ Q1]]]]]]; [exact (iv_r _ _ _ _ _ _ _ _ I)|split; auto|].
  exists m'. auto.
Qed.
End One.

(** ** Values *)
Theorem val_ok f a : uses_eff V (fun x => known c x = None) a -> forall n st st', parse_eff c a = Ok n ->
  gen_val G nul f n st = Ok st' -> wspec (vw (etype a)) st st' (fun env env' v => evalue env a = Some (v, env')).
Proof.
  assert (VW : forall t, 0 <= vw t <= vw t) by (intros t; pose proof (vw_result t); unfold result_bits in *; lia).
  induction a; cbn [uses_eff]; intros U n st st' PE H; cbn [parse_eff] in PE; cbn [etype].
  - injection PE as <-. discriminate.
  - bnd PE. injection PE as <-. cbn [gen_val] in H. eapply wspec_weak; [apply VW|eapply pure_ok; eauto|].
    cbn [evalue]. intros env env' v _ _ X. destruct (ceval env e) as [w|]; [|discriminate]. injection X as <- <-. auto.
  - destruct U as [IV [KN U]]. bnd PE. injection PE as <-. cbn [gen_val] in H.
    assert (E' : elab c (ECast t e) = Ok a0) by (cbn [elab]; rewrite E; exact E0).
    eapply (wspec_weak (vw t)); [apply VW|eapply (assign_val t x IV KN f a0 (fun env v => ceval env (ECast t e) = Some v)); [| |exact H]|].
    + intros env m [_ A _]. exact (er_ty _ _ _ _ (uses_elab G sym bs P V env (mm m) A CO (ECast t e) a0 U E')).
    + intros env m v T I. eapply inv_pre; [exact CO|exact I| |exact E'|exact T]. exact U.
    + cbn [evalue effect]. intros env env' v m _ X. unfold set_to in X. cbn [ceval].
      destruct (ceval env e) as [w|] eqn:Ev; [|discriminate].
      injection X as <- <-. rewrite assign_same. split; [cbn [ceval]; rewrite Ev; reflexivity|].
      split; [apply conv_range|reflexivity].
  - destruct U as [IV [KN U]]. bnd PE. injection PE as <-. cbn [gen_val] in H.
    eapply (wspec_weak (vw t)); [apply VW|eapply (arith_val t x IV KN f o e a st st'); eauto|].
    cbn [evalue effect]. intros env env' v _ _ X. unfold set_to in X. destruct (ceval env (aexp o (EVar t x) e)) as [w|] eqn:Ev; [|discriminate].
    injection X as <- <-. exists w. rewrite assign_same. auto.
  - destruct U as [IV KN]. injection PE as <-. cbn [gen_val] in H.
    eapply (wspec_weak (vw t)); [apply VW|eapply (arith_val t x IV KN f (ABin (if inc then BAdd else BSub)) (ENum TInt 1) _ st st');
      [split; vm_compute; discriminate|reflexivity|destruct inc; exact H]|].
    cbn [evalue effect aexp]. intros env env' v _ _ X. unfold set_to in X.
    destruct (ceval env (EBin (if inc then BAdd else BSub) (EVar t x) (ENum TInt 1))) as [w|] eqn:Ev; [|discriminate].
    injection X as <- <-. exists w. rewrite assign_same. auto.
  - destruct U as [IV KN].
    assert (RL : forall env env' v, evalue env (XPost inc t x) = Some (v, env') -> post_rel t x inc env env' v).
    { intros env env' v X. cbn [evalue] in X. destruct (effect env (XPost inc t x)) as [e1|] eqn:EF; [|discriminate].
      injection X as <- <-. split; [reflexivity|exact EF]. }
    unfold new_inc_dec in PE. destruct (opt c && negb (is_bool (mty t))) eqn:OB; injection PE as <-.
    + apply andb_true_iff in OB as [_ NB]. apply negb_true_iff in NB.
      cbn [gen_val] in H. bnd H. eapply (wspec_weak (vw t)); [apply VW|eapply (opt_val t x IV KN inc f st a st')|auto].
      * intros ->. discriminate NB.
      * exact E.
      * destruct inc; exact H.
    + eapply (wspec_weak (vw t)); [apply VW|eapply (post_val t x IV KN inc f st st')|auto]. exact H.
  - destruct U as [U1 U2]. bnd PE. injection PE as <-. cbn [gen_val] in H. bnd H.
    eapply wspec_seq; [eapply (eff_ok G sym bs P V M0 nul FR CO HERE UNK NUL DIS f a1 U1); eauto|eapply IHa2; eauto|].
    cbn [evalue]. intros e1 e3 v X. destruct (effect e1 a1) as [e2|]; [|discriminate]. exists e2. auto.
Qed.
End Val.
