(** Code of expressions evaluated for their effects. *)
From Coq Require Import ZArith List Bool Lia.
From Verif Require Import Base BitLemmas IntSpec IntLemmas IntModel IntTyped IntProofs IntFold
  IntElab IntMain X86 CgModel CgSpec CgLemmas CgSeq CgSeq2 CgSeq3 CgInv CgTree CgGen CgMain CgHot
  StmtSpec StmtModel.
Import ListNotations.
Local Open Scope Z_scope.

Lemma emit_nil st : emit [] st = st.
Proof. destruct st. unfold emit. cbn. rewrite app_nil_r. reflexivity. Qed.

Lemma uses_nofield V e : uses V e -> field_width e = None.
Proof. induction e; cbn [uses field_width]; try reflexivity; tauto. Qed.

Lemma uses_plain V e : uses V e -> plain_casts e.
Proof.
  induction e; cbn [uses plain_casts]; try tauto. intros H. split; [auto|].
  destruct e; auto. exact (uses_nofield V _ H).
Qed.

Lemma uses_weak V V' e : (forall t x, In (t, x) V -> In (t, x) V') -> uses V e -> uses V' e.
Proof. intros H. induction e; cbn [uses]; auto; tauto. Qed.

Lemma ceval_agree V env env2 e : uses V e -> (forall t x, In (t, x) V -> env2 x = env x) ->
  ceval env2 e = ceval env e.
Proof.
  intros U H. induction e; cbn [uses] in U; cbn [ceval]; try contradiction; try reflexivity;
  repeat match goal with H : _ /\ _ |- _ => destruct H end;
  repeat match goal with IH : uses V ?a -> _, U : uses V ?a |- _ => rewrite (IH U); clear IH end; try reflexivity.
  f_equal. eapply H. exact U.
Qed.

(** ** What an expression needs *)
Definition vars_ok (G : genv) (sym : nat -> Z) (bs : reg -> Z) (P : Z) (V : list (ityp * nat))
  (env : nat -> Z) (mem : Z -> Z) : Prop :=
  forall t x, In (t, x) V ->
    in_range t (env x) /\ leafv G sym env bs P mem (mty t) x /\
    forall raw, known (gc G) x = Some raw ->
      0 <= raw < 2 ^ Z.max 8 (iwidth t) /\ env x = obj_value t raw /\ (t = TBool -> raw <= 1).

Section Need.
Variable G : genv.
Variable sym : nat -> Z.
Variable bs : reg -> Z.
Variable P : Z.
Variable V : list (ityp * nat).
Variable env : nat -> Z.
Variable mem : Z -> Z.
Hypothesis VO : vars_ok G sym bs P V env mem.
Hypothesis CO : cfg_ok (gc G).

Lemma uses_wf e : uses V e -> wf env e.
Proof. induction e; cbn [uses wf]; auto; try tauto. intros H. apply (VO t x H). Qed.

Lemma uses_known e : uses V e -> known_ok (known (gc G)) env e.
Proof. induction e; cbn [uses known_ok]; auto; try tauto. intros H. apply (VO t x H). Qed.

Lemma uses_stored e : uses V e -> stored G sym bs mem (bs (lptr G) - P) (bs (lptr G) - lvar_sz G) env e.
Proof.
  induction e; cbn [uses stored]; auto; try tauto. intros H. destruct (VO t x H) as [_ [[A [B C]] _]].
  unfold outside, lpv in B. unfold tysize in C. rewrite isize_sz. split; [exact A|]. split; [exact B|exact C].
Qed.

Lemma uses_elab e n : uses V e -> elab (gc G) e = Ok n -> elab_rel (gc G) e n env.
Proof. intros U H. eapply elab_ok; eauto using uses_wf, uses_known, uses_plain. Qed.

Lemma uses_cgok e n : uses V e -> elab (gc G) e = Ok n -> cgok G sym env bs P mem n.
Proof.
  intros U H. pose proof (uses_elab e n U H) as []. constructor; auto.
  eapply stored_place; eauto using uses_wf, uses_known, uses_plain, uses_stored.
Qed.

Lemma uses_pre e n v : uses V e -> elab (gc G) e = Ok n -> ceval env e = Some v ->
  pre G sym env bs P mem n v.
Proof. intros U H E. split; [eapply uses_cgok; eauto|]. apply (er_ev _ _ _ _ (uses_elab e n U H)). exact E. Qed.
End Need.

Ltac vmpow := repeat match goal with
  | |- context [2 ^ ?k] => let v := eval vm_compute in (2 ^ k) in change (2 ^ k) with v
  | H : context [2 ^ ?k] |- _ => let v := eval vm_compute in (2 ^ k) in change (2 ^ k) with v in H
  end.

(** ** Storing to memory *)
Section Store.
Variable sym : nat -> Z.

(** An instruction that combines its source with the memory at its target. *)
Definition memmk (mk : size -> X86.opnd -> X86.opnd -> instr) (F : Z -> Z -> Z) : Prop :=
  (forall s a b, labels [mk s a b] = []) /\
  (forall s src y b o m, rd sym s src m = Some y -> is_mem src = false ->
     osize (Some s) [src; M b o] = Some s ->
     exists m', run sym [mk s src (M b o)] None m = Some (None, m') /\ rg m' = rg m /\
       mm m' = storen (nbytes s) (ea sym b o m)
                 (F (loadn (nbytes s) (ea sym b o m) (mm m)) y) (mm m)) /\
  (forall n a b c d, 0 <= n -> eqm n a b -> eqm n c d -> eqm n (F a c) (F b d)).

Lemma memmk_mov : memmk (fun s => Mov (Some s)) (fun _ y => y).
Proof.
  split; [reflexivity|]. split; [|auto]. intros s src y b o m RD IM OS.
  exists (setm m (storen (nbytes s) (ea sym b o m) y (mm m))). split; [|split; reflexivity].
  cbn [run exec1]. rewrite IM, OS. cbn [andb]. destruct src; rewrite RD; reflexivity.
Qed.

Lemma memmk_alu o i : arith_ins o = Ok i -> o <> BMul -> memmk (fun s => Alu i (Some s)) (alu_fun o).
Proof.
  intros A NM. split; [reflexivity|]. split.
  - intros s src y b o' m RD IM OS. cbn [run exec1]. rewrite IM, OS. cbn [andb].
    cbn [rd] in RD |- *. rewrite RD. destruct o; try discriminate A; try congruence; injection A as <-;
    (eexists; split; [reflexivity|split; reflexivity]).
  - intros n a b c d H E1 E2. apply alu_fun_eqm; auto. split; intros ->; discriminate.
Qed.

Lemma rd_ax s m : rd sym s (R s AX) m = Some (getr s AX m). Proof. reflexivity. Qed.
Lemma osize_ax s b o : osize (Some s) [R s AX; M b o] = Some s. Proof. destruct s; reflexivity. Qed.

Lemma mov_ax s b o m : exists m', run sym [Mov None (R s AX) (M b o)] None m = Some (None, m') /\ rg m' = rg m /\
  mm m' = storen (nbytes s) (ea sym b o m) (getr s AX m) (mm m).
Proof. eexists. destruct s; (split; [reflexivity|split; reflexivity]). Qed.

(** The base of the operand is not the scratch register. *)
Lemma ea_dx b o m z : b <> BReg DX -> ea sym b o (setr m DX z) = ea sym b o m.
Proof. destruct b as [r|s]; [|reflexivity]. intros N. unfold ea. destruct r; try reflexivity. congruence. Qed.

Lemma imm_tmpl_ok mk F s b o v m : memmk mk F -> b <> BReg DX ->
  (s = S8 -> - 2 ^ 63 <= v < 2 ^ 63) -> (s <> S8 -> - 2 ^ (nbits s - 1) <= v < 2 ^ (nbits s - 1)) ->
  exists m' y, run sym (imm_tmpl (mk s) b o v) None m = Some (None, m') /\
    (forall r, r <> DX -> rg m' r = rg m r) /\ eqm (nbits s) y v /\
    mm m' = storen (nbytes s) (ea sym b o m) (F (loadn (nbytes s) (ea sym b o m) (mm m)) y) (mm m).
Proof.
  intros [L [X _]] ND B8 BS. unfold imm_tmpl. pose proof (nbits_pos s) as NP.
  destruct (Z.eqb_spec v (sext 32 v)) as [E|E].
  - assert (IO : imm_ok s v = true).
    { assert (RG : - 2 ^ 31 <= v < 2 ^ 31).
      { rewrite E. rewrite sx_sext by lia. exact (sx_range 32 v ltac:(lia)). }
      destruct s; cbn [imm_ok nbits] in *; try specialize (BS ltac:(discriminate)); apply andb_true_iff;
        (split; [apply Z.leb_le|apply Z.ltb_lt]); vmpow; lia. }
    assert (RD : rd sym s (I v) m = Some (v mod 2 ^ nbits s)) by (cbn [rd]; rewrite IO; reflexivity).
    destruct (X s (I v) _ b o m RD eq_refl ltac:(destruct s; reflexivity)) as [m' [R' [G' M']]].
    exists m', (v mod 2 ^ nbits s). split; [exact R'|]. split; [intros; rewrite G'; reflexivity|].
    split; [apply eqm_mod; lia|exact M'].
  - assert (s = S8).
    { destruct s; auto; exfalso; apply E; rewrite sx_sext by lia; symmetry; apply sx_id; try lia;
      specialize (BS ltac:(discriminate)); cbn [nbits] in BS; vmpow; lia. }
    subst s. specialize (B8 eq_refl).
    assert (D : exists z, run sym (if v =? trunc 32 v then [Mov (Some S4) (I v) (R S4 DX)] else [Mov (Some S8) (I v) (R S8 DX)]) None m
                = Some (None, setr m DX z) /\ eqm 64 z v).
    { destruct (Z.eqb_spec v (trunc 32 v)) as [T|T].
      - assert (RV : 0 <= v < 2 ^ 32) by (rewrite T; apply mod_bound; lia).
        exists (v mod 2 ^ 32). split.
        + cbn [run exec1 is_mem andb osize osizes app flat_map forallb size_eqb imm_ok nbits].
          replace (- 2 ^ (32 - 1) <=? v) with true by (symmetry; apply Z.leb_le; change (2 ^ (32 - 1)) with 2147483648; lia).
          replace (v <? 2 ^ 32) with true by (symmetry; apply Z.ltb_lt; lia). reflexivity.
        + rewrite Z.mod_small by lia. apply eqm_refl.
      - exists (v mod 2 ^ 64). split.
        + cbn [run exec1 is_mem andb osize osizes app flat_map forallb size_eqb imm_ok nbits].
          replace (- 2 ^ 63 <=? v) with true by (symmetry; apply Z.leb_le; lia).
          replace (v <? 2 ^ 64) with true by (symmetry; apply Z.ltb_lt; change (2 ^ 63) with 9223372036854775808 in B8; change (2 ^ 64) with 18446744073709551616; lia). reflexivity.
        + apply eqm_mod. lia. }
    destruct D as [z [RZ EZ]].
    destruct (X S8 (R S8 DX) _ b o (setr m DX z) eq_refl eq_refl eq_refl) as [m' [R' [G' M']]].
    exists m', (z mod 2 ^ 64). split; [rewrite run_app, RZ; exact R'|]. split; [|split].
    + intros r Hr. rewrite G'. cbn [setr rg]. destruct r; try reflexivity. congruence.
    + eapply eqm_trans; [apply eqm_mod; lia|exact EZ].
    + rewrite M', ea_dx by auto. reflexivity.
Qed.

Lemma imm_tmpl_labels mk F s b o v : memmk mk F -> labels (imm_tmpl (mk s) b o v) = [].
Proof.
  intros [L _]. unfold imm_tmpl. destruct (v =? sext 32 v); [apply L|]. rewrite labels_app, L.
  destruct (v =? trunc 32 v); reflexivity.
Qed.
End Store.

Lemma tysize_z t : Z.of_nat (tysize (mty t)) = sz (mty t).
Proof. destruct t; reflexivity. Qed.

Lemma size_mty t s : size_of (sz (mty t)) = Ok s -> nbytes s = tysize (mty t) /\ nbits s = 8 * sz (mty t).
Proof. destruct t; cbn [mty sz]; intros [= <-]; split; reflexivity. Qed.

Lemma width_le t z : eqm (8 * sz (mty t)) z z -> iwidth t <= 8 * sz (mty t).
Proof. destruct t; cbn; lia. Qed.

Lemma wbits_sz n t : nty n = mty t -> 8 * sz (mty t) <= wbits n <= 64.
Proof. unfold wbits. intros ->. destruct t; cbn [mty sz]; destruct (boolish n); cbn; lia. Qed.

Section Eff.
Variable G : genv.
Variable sym : nat -> Z.
Variable bs : reg -> Z.
Variable P : Z.
Variable V : list (ityp * nat).
Variable M0 : Z -> Z.
Variable nul : nat.
Hypothesis FR : frame_ok G bs P.
Hypothesis CO : cfg_ok (gc G).
Hypothesis HERE : loc G nul = VHere.
Hypothesis UNK : known (gc G) nul = None.
(** Variables do not overlap. *)
Hypothesis DIS : forall t x u y, In (t, x) V -> In (u, y) V -> (t = u /\ x = y) \/
  (x <> y /\ (vaddr G sym bs x + sz (mty t) <= vaddr G sym bs y \/ vaddr G sym bs y + sz (mty u) <= vaddr G sym bs x)).

Local Notation vaddr := (vaddr G sym bs).
Local Notation lpv := (lpv G bs).
Local Notation good := (good G bs P).
Local Notation c := (gc G).

Definition touched (a : Z) : Prop :=
  exists t x, In (t, x) V /\ known c x = None /\ vaddr x <= a < vaddr x + sz (mty t).

Record inv (env : nat -> Z) (m : mach) : Prop := mkinv {
  iv_r : forall r, callee r -> rg m r = bs r;
  iv_v : vars_ok G sym bs P V env (mm m);
  iv_m : forall a, a < lpv - P \/ lpv - lvar_sz G <= a -> ~ touched a -> mm m a = M0 a }.

Lemma inv_good env m : inv env m -> good (mm m) m.
Proof. intros [A _ _]. split; auto. Qed.

(** The place of a variable, perhaps listed with a wider type of the same size. *)
Definition has_slot (t : ityp) (x : nat) : Prop :=
  exists u, In (u, x) V /\ sz (mty u) = sz (mty t) /\ forall z, in_range t z -> in_range u z.
Lemma own_slot t x : In (t, x) V -> has_slot t x. Proof. intros H. exists t. auto. Qed.

Lemma var_loc env m t x : inv env m -> has_slot t x -> vloc_ok G sym x /\ outside G bs P (vaddr x) (sz (mty t)).
Proof. intros [_ A _] [u [H [<- _]]]. destruct (A u x H) as [_ [[B [C _]] _]]. auto. Qed.

(** ** Invariant after a store and after code without stores *)
Lemma inv_keep env m m1 : inv env m -> good (mm m) m1 -> inv env m1.
Proof.
  intros I [A B]. pose proof I as [C D E]. constructor; auto.
  - intros t x H. destruct (D t x H) as [D1 [[D2 [D3 D4]] D5]]. split; [exact D1|]. split; [|exact D5].
    split; [exact D2|]. split; [exact D3|]. rewrite <- D4. apply loadn_ext. intros a Ha. apply B.
    rewrite tysize_z in Ha. unfold outside in D3. lia.
  - intros a Ha N. rewrite B by auto. apply E; auto.
Qed.

Lemma inv_store env m m1 m2 t x z : inv env m -> good (mm m) m1 -> has_slot t x -> known c x = None ->
  (forall r, callee r -> rg m2 r = rg m1 r) ->
  forall z', mm m2 = storen (tysize (mty t)) (vaddr x) z' (mm m1) ->
  eqm (8 * sz (mty t)) z' z -> in_range t z -> inv (assign env x z) m2.
Proof.
  intros I G1 [t' [H [SZ RI]]] KN RG z' MM EQ RZ. apply RI in RZ. clear RI. unfold tysize in MM. rewrite <- SZ in MM, EQ. change (Z.to_nat (sz (mty t'))) with (tysize (mty t')) in MM. clear SZ t. rename t' into t. pose proof (inv_keep _ _ _ I G1) as [C D E]. constructor.
  - intros r Hr. rewrite RG by auto. apply C. exact Hr.
  - intros u y Hy. destruct (D u y Hy) as [D1 [[D2 [D3 D4]] D5]].
    destruct (DIS t x u y H Hy) as [[<- <-]|[NE DJ]].
    + unfold assign at 1. rewrite Nat.eqb_refl. split; [exact RZ|]. split.
      * split; [exact D2|]. split; [exact D3|]. rewrite MM, loadn_storen, tysize_z. unfold assign. rewrite Nat.eqb_refl.
        exact EQ.
      * intros raw K. congruence.
    + assert (X : Nat.eqb y x = false) by (apply Nat.eqb_neq; congruence).
      unfold assign at 1. rewrite X. split; [exact D1|]. split.
      * split; [exact D2|]. split; [exact D3|]. unfold assign. rewrite X, <- D4, MM. apply loadn_ext. intros a Ha.
        apply storen_other. rewrite tysize_z in *. lia.
      * unfold assign. rewrite X. exact D5.
  - intros a Ha N. rewrite MM, storen_other; [apply E; auto|]. rewrite tysize_z.
    destruct (Z_lt_dec a (vaddr x)); [lia|]. destruct (Z_le_dec (vaddr x + sz (mty t)) a); [lia|].
    exfalso. apply N. exists t, x. repeat split; auto; lia.
Qed.

(** ** Pieces of code *)
Record wext (st st' : gst) (code : list instr) : Prop := mkwext {
  we_out : out st' = out st ++ code;
  we_cnt : cnt st <= cnt st';
  we_pk : peak st <= peak st';
  we_lok : lok (cnt st) (cnt st') code }.

Lemma wext_ext st st' code g s : ext G st st' code g s -> wext st st' code.
Proof. intros []. constructor; auto. Qed.

Lemma wext_refl st : wext st st [].
Proof. constructor; try lia; [rewrite app_nil_r; reflexivity|apply lok_nil; reflexivity]. Qed.

Lemma wext_trans st st1 st2 c1 c2 : wext st st1 c1 -> wext st1 st2 c2 -> wext st st2 (c1 ++ c2).
Proof.
  intros [A1 A2 A3 A4] [B1 B2 B3 B4]. constructor; try lia.
  - rewrite B1, A1, app_assoc. reflexivity.
  - eapply lok_app; eauto.
Qed.

Lemma wext_emit st code : labels code = [] -> wext st (emit code st) code.
Proof. intros L. constructor; cbn [emit out cnt peak]; try lia; [reflexivity|apply lok_nil; exact L]. Qed.

Definition gspec (st st' : gst) (prE : (nat -> Z) -> (Z -> Z) -> Z -> Prop)
  (Q : (nat -> Z) -> (Z -> Z) -> Z -> option label -> mach -> Prop) : Prop :=
  exists code, wext st st' code /\
  (peak st' <= P -> lvar_sz G <= peak st -> forall env mem v, prE env mem v ->
   forall m, good mem m -> exists j m', run sym code None m = Some (j, m') /\ good mem m' /\ Q env mem v j m').

Lemma gspec_of st st' prE Q :
  (forall env mem, spec G sym bs P mem st st' (prE env mem) (Q env mem)) -> gspec st st' prE Q.
Proof.
  intros H. destruct (H (fun _ => 0) (fun _ => 0)) as [code [g [s [E _]]]]. exists code.
  split; [eapply wext_ext; eauto|]. intros HP HL env mem v Hv m Hm.
  destruct (H env mem) as [code' [g' [s' [E' SM]]]].
  assert (code' = code).
  { pose proof (ex_out _ _ _ _ _ _ E) as X. rewrite (ex_out _ _ _ _ _ _ E') in X. eapply app_inv_head; eauto. }
  subst code'. destruct (SM HP HL v Hv m Hm) as [j [m' [R' [K' Q']]]]. exists j, m'.
  split; [exact R'|]. split; [|exact Q']. eapply keep_good; eauto.
Qed.

Definition vspec (st st' : gst) (Re : (nat -> Z) -> (nat -> Z) -> Prop) : Prop :=
  exists code, wext st st' code /\
  (peak st' <= P -> lvar_sz G <= peak st -> forall env env' m, Re env env' -> inv env m ->
   exists m', run sym code None m = Some (None, m') /\ inv env' m').

Lemma vspec_weak st st' (A B : (nat -> Z) -> (nat -> Z) -> Prop) :
  vspec st st' A -> (forall env env' m, inv env m -> B env env' -> A env env') -> vspec st st' B.
Proof.
  intros [code [E S]] H. exists code. split; [exact E|]. intros HP HL env env' m HB I.
  apply (S HP HL env env' m); eauto.
Qed.

Lemma vspec_seq st st1 st2 (A B C : (nat -> Z) -> (nat -> Z) -> Prop) : vspec st st1 A -> vspec st1 st2 B ->
  (forall e1 e3, C e1 e3 -> exists e2, A e1 e2 /\ B e2 e3) -> vspec st st2 C.
Proof.
  intros [c1 [E1 S1]] [c2 [E2 S2]] H. exists (c1 ++ c2). split; [eapply wext_trans; eauto|].
  intros HP HL env env' m HC I. destruct (H _ _ HC) as [e2 [HA HB]].
  pose proof (we_pk _ _ _ E1). pose proof (we_pk _ _ _ E2).
  destruct (S1 ltac:(lia) HL env e2 m HA I) as [m1 [R1 I1]].
  destruct (S2 HP ltac:(lia) e2 env' m1 HB I1) as [m2 [R2 I2]].
  exists m2. split; [|exact I2]. rewrite run_app, R1. exact R2.
Qed.

Lemma vspec_nop st : vspec st st (fun a b => b = a).
Proof. exists []. split; [apply wext_refl|]. intros _ _ env env' m -> I. exists m. split; [reflexivity|exact I]. Qed.

Lemma vspec_store st st1 prE Q code2 (Re : (nat -> Z) -> (nat -> Z) -> Prop) :
  gspec st st1 prE (fun env mem v => plainq (Q env mem v)) -> labels code2 = [] ->
  (forall env env' m, Re env env' -> inv env m -> exists v, prE env (mm m) v /\
     forall m1, good (mm m) m1 -> Q env (mm m) v m1 ->
     exists m2, run sym code2 None m1 = Some (None, m2) /\ inv env' m2) ->
  vspec st (emit code2 st1) Re.
Proof.
  intros [c1 [E1 S1]] L H. exists (c1 ++ code2).
  split; [eapply wext_trans; [exact E1|apply wext_emit; exact L]|].
  intros HP HL env env' m HR I. destruct (H env env' m HR I) as [v [PV HQ]].
  destruct (S1 HP HL env (mm m) v PV m (inv_good _ _ I)) as [j [m1 [R1 [G1 [-> Q1]]]]].
  destruct (HQ m1 G1 Q1) as [m2 [R2 I2]]. exists m2. split; [|exact I2]. rewrite run_app, R1. exact R2.
Qed.

Lemma gexpr f n st st' : gen G f MExpr n st = Ok st' ->
  gspec st st' (fun env mem => pre G sym env bs P mem n) (fun _ _ v => plainq (fun m => eqm (wbits n) (rg m AX) v)).
Proof. intros H. apply gspec_of. intros env mem. exact (gen_ok G sym env bs P mem FR CO f MExpr n st st' H). Qed.

Lemma gvoid f n st st' : gen G f MVoid n st = Ok st' ->
  gspec st st' (fun env mem => pre G sym env bs P mem n) (fun _ _ v => plainq (fun m => True)).
Proof. intros H. apply gspec_of. intros env mem. exact (gen_ok G sym env bs P mem FR CO f MVoid n st st' H). Qed.

(** The address of a variable saved while the right operand is computed. *)
Definition addrq (r : reg) (n : node) (x : nat) (v : Z) (m : mach) : Prop :=
  istmp r /\ eqm 64 (rg m r) (vaddr x) /\ eqm (wbits n) (rg m AX) v.

Lemma gpush f n x r st st1 st2 : gen G f MExpr n (push (emit (gen_addr G x) st)) = Ok st1 ->
  pop_gp G true DI false st1 = Ok (r, st2) ->
  gspec st st2 (fun env mem v => vloc_ok G sym x /\ pre G sym env bs P mem n v) (fun _ _ v => plainq (addrq r n x v)).
Proof.
  intros H PO. apply gspec_of. intros env mem. pose proof (gen_ok G sym env bs P mem FR CO f MExpr n _ _ H) as SB.
  cbn [mspec] in SB. rewrite <- (emit_nil st2).
  eapply (spec_push_pop G sym bs P mem FR st (emit (gen_addr G x) st) st1 st2
    (fun _ => vloc_ok G sym x) (fun _ m => rg m AX = vaddr x)); [|exact SB|exact PO|reflexivity|right; auto|].
  - eapply spec_code.
    + unfold gen_addr, gen_addr_var. destruct (if opt c then var_memop G x 0 else None) as [[b o]|]; [reflexivity|].
      destruct (loc G x) as [?|? rip|]; try reflexivity. destruct (pic G), rip; reflexivity.
    + intros v Hv m Gm. apply slc_run. eapply gen_addr_ok; eauto.
  - intros v [VL PV]. exists 0, v. split; [exact VL|]. split; [exact PV|].
    intros m1 m3 m4 Q1 Q3 _ IT GR OT MM. specialize (IT eq_refl). exists m4. split; [reflexivity|].
    split; [split; auto|]. split; [exact IT|]. split.
    + unfold getr in GR. cbn [gsize nbits] in GR. rewrite Q1 in GR. exact GR.
    + rewrite OT; [exact Q3|]. destruct IT as [->|[->|[->|[->|[->| ->]]]]]; discriminate.
Qed.

(** Compound assignment: the old value in %rax. *)
Lemma gpush_hot f n t x r l st st1 st2 : (forall i, ~ In (i, nul) V) -> is_ty t -> Hot nul t V n -> load3 t (BReg AX) 0 = Ok l ->
  gen G f MExpr n (emit l (push (emit (gen_addr G x) st))) = Ok st1 ->
  pop_gp G true DI false st1 = Ok (r, st2) ->
  gspec st st2 (fun env mem v => leafv G sym env bs P mem t x /\ in_range (ity t) (env x) /\
      pre (setloc G nul (loc G x)) sym (assign env nul (env x)) bs P mem n v)
    (fun _ _ v => plainq (addrq r n x v)).
Proof.
  intros NUL Tt HN LD H PO. apply gspec_of. intros env mem.
  pose proof (hot_ok G sym (assign env nul (env x)) bs P mem nul t (loc G x) V FR CO HERE UNK NUL f n _ _ HN H) as SB.
  unfold hmspec in SB. rewrite <- (emit_nil st2).
  set (prx := fun v : Z => leafv G sym env bs P mem t x /\ in_range (ity t) (env x) /\
      pre (setloc G nul (loc G x)) sym (assign env nul (env x)) bs P mem n v).
  assert (SA : spec G sym bs P mem st (emit (gen_addr G x) st) (fun _ => vloc_ok G sym x) (fun _ => plainq (fun m => rg m AX = vaddr x))).
  { eapply spec_code.
    + unfold gen_addr, gen_addr_var. destruct (if opt c then var_memop G x 0 else None) as [[b o]|]; [reflexivity|].
      destruct (loc G x) as [?|? rip|]; try reflexivity. destruct (pic G), rip; reflexivity.
    + intros v Hv m Gm. apply slc_run. eapply gen_addr_ok; eauto. }
  apply spec_h in SA. apply spec_h.
  assert (SL : hspec G sym bs P mem (fun m => rg m AX = vaddr x) (push (emit (gen_addr G x) st)) st1 prx
            (fun v => plainq (fun m => eqm (wbits n) (rg m AX) v))).
  { eapply (hspec_seq G sym bs P mem _ (HE (assign env nul (env x)) nul t) _ _ _ prx
       (fun _ m => HE (assign env nul (env x)) nul t m)).
    - eapply (hspec_code G sym env bs P mem (fun m => rg m AX = vaddr x) (push (emit (gen_addr G x) st)) l prx).
      + unfold load3 in LD. bnd LD. unfold load_extend_int in LD. bnd LD. injection LD as <-. destruct a0; reflexivity.
      + intros v [LV [RG _]] m Gm EA. apply slc_run.
        assert (HH : holds sym (BReg AX) 0 (tysize t) (env x) m).
        { eapply leaf_holds; eauto. unfold ea. rewrite EA, Z.add_0_r. apply Z.mod_small. apply vaddr_range; auto. apply LV. }
        eapply slc_weak; [apply (load3_ok sym t (BReg AX) 0 (env x) m l Tt RG HH LD)|].
        intros m' _ [Q1 Q2]. unfold HE, wbits, assign. rewrite Nat.eqb_refl. cbn [nty boolish].
        destruct (is_ty_inv t Tt) as [i [-> Ei]]. destruct i; cbn [mty sz is_bool kd Z.eqb Pos.eqb orb]; cbn; try exact Q1; apply Q2; cbn; auto.
    - exact SB.
    - intros v PX. exists v. split; [exact PX|]. intros m Gm Q. split; [exact Q|]. exists v.
      split; [apply PX|]. auto. }
  unfold pop_gp in PO. eapply (hspec_push_pop G sym bs P mem FR); [exact SA|exact SL|exact PO|reflexivity|right; auto|].
  intros v PX. exists 0, v. split; [apply PX|]. split; [exact PX|]. split.
  - intros m1 m2 _ _ Q1 SAME. rewrite SAME; [exact Q1|]. intros i. pose proof (tmp_not_scratch i) as [A _]. congruence.
  - intros m1 m3 m4 Q1 Q3 _ _ _ IT GR OT MM. specialize (IT eq_refl). exists m4. split; [reflexivity|].
    split; [split; auto|]. split; [exact IT|]. split.
    + unfold getr in GR. cbn [gsize nbits] in GR. rewrite Q1 in GR. exact GR.
    + rewrite OT; [exact Q3|]. destruct IT as [->|[->|[->|[->|[->| ->]]]]]; discriminate.
Qed.

(** ** Storing *)
Lemma ea_tmp r x m : vloc_ok G sym x -> eqm 64 (rg m r) (vaddr x) -> ea sym (BReg r) 0 m = vaddr x.
Proof.
  intros VL E. unfold ea. rewrite Z.add_0_r. unfold eqm in E. rewrite E. apply Z.mod_small. eapply vaddr_range; eauto.
Qed.

Lemma ea_memop env m m1 t x b o : inv env m -> has_slot t x -> var_memop G x 0 = Some (b, o) -> good (mm m) m1 ->
  ea sym b o m1 = vaddr x /\ b <> BReg DX /\ b <> BReg AX.
Proof.
  intros I H M1 Gm. destruct (var_loc _ _ _ _ I H) as [VL _].
  destruct (var_memop_ok G sym bs P (mm m) x 0 b o M1 VL) as [ST EA]. rewrite EA by exact Gm. rewrite Z.add_0_r. split.
  - apply Z.mod_small. eapply vaddr_range; eauto.
  - destruct b; [|split; discriminate]. destruct ST as [-> | [-> | ->]]; split; discriminate.
Qed.

Lemma getr_eqm s r m v k : nbits s <= k -> eqm k (rg m r) v -> eqm (nbits s) (getr s r m) v.
Proof.
  intros L E. unfold getr. pose proof (nbits_pos s). eapply eqm_trans; [apply eqm_mod; lia|].
  eapply eqm_le; [|exact E]. lia.
Qed.

Section One.
Variable t : ityp.
Variable x : nat.
Hypothesis INV : has_slot t x.
Hypothesis KN : known c x = None.

(** What is stored by an instruction that combines its source with the old value. *)
Definition upd_rel (Pr : (nat -> Z) -> Z -> Prop) (F : Z -> Z -> Z) (env env' : nat -> Z) : Prop :=
  exists v z, Pr env v /\ in_range t z /\ eqm (8 * sz (mty t)) (F (env x) v) z /\ env' = assign env x z.

Lemma old_value env m m1 : inv env m -> good (mm m) m1 ->
  eqm (8 * sz (mty t)) (loadn (tysize (mty t)) (vaddr x) (mm m1)) (env x).
Proof.
  intros I Gm. pose proof (inv_keep _ _ _ I Gm) as [_ D _]. destruct INV as [u [Hu [SZ _]]].
  destruct (D u x Hu) as [_ [[_ [_ E]] _]]. unfold tysize in *. rewrite SZ in E.
  rewrite E. apply eqm_mod. destruct t; cbn; lia.
Qed.

Lemma memop_arith_ok mk F f n (Pr : (nat -> Z) -> Z -> Prop) st st' : memmk sym mk F -> (forall env m, inv env m -> 8 * sz (mty t) <= wbits n) ->
  (forall env m v, Pr env v -> inv env m -> pre G sym env bs P (mm m) n v) ->
  memop_arith G f mk (mty t) x n st = Ok st' -> vspec st st' (upd_rel Pr F).
Proof.
  intros MK WB HP H. unfold memop_arith in H. bnd H. destruct (size_mty t a E) as [NB NBT].
  pose proof MK as [LMK [XMK FE]].
  assert (FIN : forall env m m1 m2 v z y, inv env m -> good (mm m) m1 ->
     in_range t z -> eqm (8 * sz (mty t)) (F (env x) v) z -> eqm (8 * sz (mty t)) y v ->
     (forall r, callee r -> rg m2 r = rg m1 r) ->
     mm m2 = storen (nbytes a) (vaddr x) (F (loadn (nbytes a) (vaddr x) (mm m1)) y) (mm m1) ->
     inv (assign env x z) m2).
  { intros env m m1 m2 v z y I Gm RZ EZ EY RG MM. rewrite NB in MM.
    eapply inv_store; eauto. eapply eqm_trans; [|exact EZ]. apply FE; [destruct t; cbn; lia|eapply old_value; eauto|exact EY]. }
  destruct a0 as [k|].
  - (* constant *)
    assert (LIM : forall env m v, inv env m -> Pr env v ->
       let w := limit_imm k (sz (mty t)) in
       eqm (8 * sz (mty t)) w v /\ (a = S8 -> - 2 ^ 63 <= w < 2 ^ 63) /\
       (a <> S8 -> - 2 ^ (nbits a - 1) <= w < 2 ^ (nbits a - 1))).
    { intros env m v I PV. destruct (HP env m v PV I) as [[W Vn K _] T].
      rewrite (const_val G env n k W Vn K E0 v T). cbv zeta. unfold limit_imm.
      assert (R64 : - 2 ^ 63 <= rep64 v < 2 ^ 63) by (apply (sx_range 64); lia).
      assert (SR : forall w, 1 <= w -> - 2 ^ (w - 1) <= sext w (rep64 v) < 2 ^ (w - 1))
        by (intros w Hw; rewrite sx_sext by exact Hw; apply sx_range; exact Hw).
      assert (SE : forall w, 1 <= w <= 64 -> eqm w (sext w (rep64 v)) v)
        by (intros w Hw; eapply eqm_trans; [apply eqm_sext; lia|apply eqm_rep64; lia]).
      pose proof (eqm_rep64 v 64 ltac:(lia)) as SE64.
      destruct t; cbn [mty sz Z.eqb Pos.eqb] in E |- *; injection E as <-; cbn [nbits];
      (split; [first [exact SE64 | apply (SE 8); lia | apply (SE 16); lia | apply (SE 32); lia]|]);
      (split; [intros X; first [discriminate X | exact R64]|]);
      intros X; first [exfalso; apply X; reflexivity | apply SR; lia]. }
    destruct (var_memop G x 0) as [[b o]|] eqn:MO; injection H as <-.
    + eapply (vspec_store st st (fun env mem v => True) (fun _ _ _ _ => True)); [| eapply imm_tmpl_labels; eauto|].
      * exists []. split; [apply wext_refl|]. intros _ _ env mem v _ m Gm. exists None, m. split; [reflexivity|]. split; [exact Gm|split; auto].
      * intros env env' m [v [z [PV [RZ [EZ ->]]]]] I. exists 0. split; [exact Logic.I|]. intros m1 Gm _.
        destruct (LIM env m v I PV) as [L1 [L2 L3]].
        destruct (ea_memop _ _ m1 _ _ _ _ I INV MO Gm) as [EA [ND _]].
        destruct (imm_tmpl_ok sym mk F a b o _ m1 MK ND L2 L3) as [m2 [y [R2 [RG [EY MM]]]]].
        exists m2. split; [exact R2|]. rewrite EA in MM. eapply (FIN env m m1 m2 v z y); eauto.
        -- rewrite NBT in EY. eapply eqm_trans; [exact EY|exact L1].
        -- intros r Hr. apply RG. destruct Hr as [->|[->| ->]]; discriminate.
    + eapply (vspec_store st st (fun env mem v => True) (fun _ _ _ _ => True)).
      * exists []. split; [apply wext_refl|]. intros _ _ env mem v _ m Gm. exists None, m. split; [reflexivity|]. split; [exact Gm|split; auto].
      * rewrite labels_app. erewrite imm_tmpl_labels by eauto. rewrite app_nil_r.
        unfold gen_addr, gen_addr_var. rewrite MO. destruct (opt c); (destruct (loc G x) as [?|? rip|]; try reflexivity; destruct (pic G), rip; reflexivity).
      * intros env env' m [v [z [PV [RZ [EZ ->]]]]] I. exists 0. split; [exact Logic.I|]. intros m1 Gm _.
        destruct (LIM env m v I PV) as [L1 [L2 L3]]. destruct (var_loc _ _ _ _ I INV) as [VL _].
        destruct (gen_addr_ok G sym env bs P (mm m) x m1 VL Gm) as [m3 [R3 [P3 Q3]]].
        pose proof (pres_good G bs P (mm m) _ _ Gm P3) as G3.
        destruct (imm_tmpl_ok sym mk F a (BReg AX) 0 (limit_imm k (sz (mty t))) m3 MK ltac:(discriminate) L2 L3) as [m2 [y [R2 [RG [EY MM]]]]].
        exists m2. split; [rewrite run_app, R3; exact R2|].
        rewrite (ea_tmp AX x m3 VL ltac:(rewrite Q3; apply eqm_refl)) in MM. eapply (FIN env m m3 m2 v z y); eauto.
        -- rewrite NBT in EY. eapply eqm_trans; [exact EY|exact L1].
        -- intros r Hr. apply RG. destruct Hr as [->|[->| ->]]; discriminate.
  - destruct (var_memop G x 0) as [[b o]|] eqn:MO.
    + bnd H. injection H as <-. eapply vspec_store; [eapply gexpr; eauto|apply LMK|].
      intros env env' m [v [z [PV [RZ [EZ ->]]]]] I. exists v. split; [apply HP; auto|]. intros m1 Gm Q1.
      destruct (ea_memop _ _ m1 _ _ _ _ I INV MO Gm) as [EA _].
      destruct (XMK a (R a AX) _ b o m1 eq_refl eq_refl (osize_ax a b o)) as [m2 [R2 [RG MM]]].
      exists m2. split; [exact R2|]. rewrite EA in MM. eapply (FIN env m m1 m2 v z); [..|exact MM]; eauto.
      * rewrite <- NBT. eapply getr_eqm; [|exact Q1]. rewrite NBT. exact (WB env m I).
      * intros. rewrite RG. reflexivity.
    + bnd H. destruct a1 as [r st2]. injection H as <-. cbn [fst snd] in *.
      eapply vspec_store; [eapply gpush; eauto|apply LMK|].
      intros env env' m [v [z [PV [RZ [EZ ->]]]]] I. destruct (var_loc _ _ _ _ I INV) as [VL _].
      exists v. split; [split; [exact VL|apply HP; auto]|]. intros m1 Gm [IT [EA Q1]].
      pose proof (ea_tmp r x m1 VL EA) as EA'.
      destruct (XMK a (R a AX) _ (BReg r) 0 m1 eq_refl eq_refl (osize_ax a (BReg r) 0)) as [m2 [R2 [RG MM]]].
      exists m2. split; [exact R2|]. rewrite EA' in MM. eapply (FIN env m m1 m2 v z); [..|exact MM]; eauto.
      * rewrite <- NBT. eapply getr_eqm; [|exact Q1]. rewrite NBT. exact (WB env m I).
      * intros. rewrite RG. reflexivity.
Qed.

Lemma store_fin env m m1 m2 n v s : inv env m -> good (mm m) m1 -> size_of (sz (mty t)) = Ok s ->
  8 * sz (mty t) <= wbits n -> eqm (wbits n) (rg m1 AX) v -> in_range t v -> rg m2 = rg m1 ->
  mm m2 = storen (nbytes s) (vaddr x) (getr s AX m1) (mm m1) -> inv (assign env x v) m2.
Proof.
  intros I Gm SZ WB Q RV RG MM. destruct (size_mty t s SZ) as [NB NBT]. rewrite NB in MM.
  eapply inv_store; eauto.
  - intros. rewrite RG. reflexivity.
  - rewrite <- NBT. eapply getr_eqm; [|exact Q]. lia.
Qed.

Definition set_rel (Pr : (nat -> Z) -> Z -> Prop) (env env' : nat -> Z) : Prop :=
  exists v, Pr env v /\ in_range t v /\ env' = assign env x v.

Lemma store_ok st st1 st2 n prE (Pr : (nat -> Z) -> Z -> Prop) :
  (forall r st3, pop_gp G true DI false st1 = Ok (r, st3) ->
     gspec st st3 prE (fun _ _ v => plainq (addrq r n x v))) ->
  (forall env m, inv env m -> 8 * sz (mty t) <= wbits n) ->
  (forall env m v, Pr env v -> inv env m -> prE env (mm m) v) ->
  store G (mty t) st1 = Ok st2 -> vspec st st2 (set_rel Pr).
Proof.
  intros HG WB HP H. unfold store in H. bnd H. destruct a0 as [r st3]. injection H as <-. cbn [fst snd].
  eapply vspec_store; [apply HG; reflexivity|reflexivity|].
  intros env env' m [v [PV [RV ->]]] I. exists v. split; [apply HP; auto|]. intros m1 Gm [IT [EA Q1]].
  destruct (var_loc _ _ _ _ I INV) as [VL _]. destruct (mov_ax sym a (BReg r) 0 m1) as [m2 [R2 [RG MM]]].
  exists m2. split; [exact R2|]. rewrite (ea_tmp r x m1 VL EA) in MM. eapply store_fin; eauto.
Qed.

Lemma gen_assign_ok f n (Pr : (nat -> Z) -> Z -> Prop) st st' : (forall env m, inv env m -> 8 * sz (mty t) <= wbits n) ->
  (forall env m v, Pr env v -> inv env m -> pre G sym env bs P (mm m) n v) ->
  gen_assign G f (mty t) x n st = Ok st' -> vspec st st' (set_rel Pr).
Proof.
  intros WB HP H. unfold gen_assign in H.
  assert (PL : (do st1 <- gen G f MExpr n (push (emit (gen_addr G x) st)); store G (mty t) st1) = Ok st' -> vspec st st' (set_rel Pr)).
  { intros H'. bnd H'.
    eapply (store_ok st a st' n (fun env mem v => vloc_ok G sym x /\ pre G sym env bs P mem n v)); eauto.
    - intros r st3 PO. eapply gpush; eauto.
    - intros env m v PV I. split; [apply (var_loc _ _ _ _ I INV)|apply HP; auto]. }
  destruct (opt c); [|auto]. destruct (var_memop G x 0) as [[b o]|] eqn:MO; [|auto].
  bnd H. injection H as <-. eapply vspec_store; [eapply gexpr; eauto|reflexivity|].
  intros env env' m [v [PV [RV ->]]] I. exists v. split; [apply HP; auto|]. intros m1 Gm Q1.
  destruct (ea_memop _ _ m1 _ _ _ _ I INV MO Gm) as [EA _].
  destruct (mov_ax sym a b o m1) as [m2 [R2 [RG MM]]]. rewrite EA in MM.
  exists m2. split; [exact R2|]. eapply store_fin; eauto.
Qed.
End One.
End Eff.
