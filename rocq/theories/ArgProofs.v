(** Proofs about the code for the arguments of a call. *)
From Coq Require Import ZArith List Bool Lia.
From Verif Require Import Base BitLemmas IntSpec IntLemmas IntModel IntTyped IntProofs IntFold
  IntElab IntMain X86 CgModel CgSpec CgLemmas CgSeq CgSeq2 CgSeq3 CgInv CgTree CgGen CgMain CgHot CgPiece
  StmtSpec StmtModel StmtPlace StmtEff StmtVoid StmtProofs StmtMain ValSpec ValModel ValProofs ArgSpec ArgModel.
Import ListNotations.
Local Open Scope Z_scope.

Lemma ok_inj {A} (a b : A) : Ok a = Ok b -> a = b. Proof. congruence. Qed.

(** ** Loads into a register other than %rax *)
Section Redirect.
Variable sym : nat -> Z.

Definition same_load (c1 c2 : list instr) (r : reg) : Prop :=
  labels c2 = [] /\ forall m m1, run sym c1 None m = Some (None, m1) ->
  exists m2, run sym c2 None m = Some (None, m2) /\ rg m2 r = rg m1 AX /\
    (forall q, q <> r -> rg m2 q = rg m q) /\ mm m2 = mm m.

Lemma put_other s r v m q : q <> r -> rg (putr s r v m) q = rg m q.
Proof. intros N. destruct s; cbn [putr setr rg]; destruct q, r; try congruence; reflexivity. Qed.
Lemma put_mem s r v m : mm (putr s r v m) = mm m.
Proof. destruct s; reflexivity. Qed.
Lemma put_same s r v m : s = S4 \/ s = S8 -> rg (putr s r v m) r = v mod 2 ^ nbits s.
Proof.
  assert (E : reg_eqb r r = true) by (destruct r; reflexivity).
  intros [-> | ->]; cbn [putr setr rg]; rewrite E; reflexivity.
Qed.

(** An instruction that writes a value that does not depend on its target. *)
Lemma same_put (mk : reg -> instr) (s : size) (g : mach -> option Z) r : s = S4 \/ s = S8 ->
  (forall q, labels [mk q] = []) ->
  (forall q m, run sym [mk q] None m = match g m with Some v => Some (None, putr s q v m) | None => None end) ->
  same_load [mk AX] [mk r] r.
Proof.
  intros HS HL HR. split; [apply HL|]. intros m m1. rewrite !HR. destruct (g m) as [v|]; [|discriminate].
  intros [= <-]. exists (putr s r v m). split; [reflexivity|]. rewrite !put_same by exact HS. split; [reflexivity|].
  split; [intros; apply put_other; assumption|apply put_mem].
Qed.

Lemma same_mov_imm s v r : s = S4 \/ s = S8 -> same_load [Mov (Some s) (I v) (R s AX)] [Mov (Some s) (I v) (R s r)] r.
Proof.
  intros HS. apply (same_put (fun q => Mov (Some s) (I v) (R s q)) s
    (fun _ => if size_eqb s S8 then (if (- 2 ^ 63 <=? v) && (v <? 2 ^ 64) then Some v else None)
              else (if imm_ok s v then Some v else None))); [exact HS|reflexivity|].
  intros q m. destruct HS as [-> | ->]; cbn [run exec1 is_mem andb osize osizes flat_map app forallb size_eqb wr].
  - destruct (imm_ok S4 v); reflexivity.
  - destruct ((- 2 ^ 63 <=? v) && (v <? 2 ^ 64)); reflexivity.
Qed.

Lemma same_mov_mem suf s b o r : s = S4 \/ s = S8 -> suf = None \/ suf = Some s ->
  same_load [Mov suf (M b o) (R s AX)] [Mov suf (M b o) (R s r)] r.
Proof.
  intros HS HF. apply (same_put (fun q => Mov suf (M b o) (R s q)) s (fun m => rd sym s (M b o) m)); [exact HS|reflexivity|].
  intros q m. destruct HS as [-> | ->], HF as [-> | ->]; reflexivity.
Qed.

Lemma same_movx sg a s b o r : s = S4 \/ s = S8 ->
  same_load [Movx sg a s (M b o) (R s AX)] [Movx sg a s (M b o) (R s r)] r.
Proof.
  intros HS. apply (same_put (fun q => Movx sg a s (M b o) (R s q)) s
    (fun m => if nbits a <? nbits s then match rd sym a (M b o) m with Some v => Some (if sg then sgn (nbits a) v else v) | None => None end else None));
    [exact HS|reflexivity|].
  intros q m. cbn [run exec1]. replace (size_eqb s s) with true by (destruct s; reflexivity). cbn [andb].
  rewrite andb_true_r. destruct (nbits a <? nbits s); [|reflexivity]. cbn [rd]. reflexivity.
Qed.

Lemma same_extend t b o s r l : load_extend_int t b o s AX = Ok l -> s = (if sz t =? 8 then S8 else S4) ->
  exists l', load_extend_int t b o s r = Ok l' /\ same_load l l' r.
Proof.
  unfold load_extend_int. intros H HS. bnd H. eexists. split; [reflexivity|]. injection H as <-.
  unfold size_of in E. destruct (sz t =? 1) eqn:E1.
  { apply Z.eqb_eq in E1. rewrite E1 in HS. injection E as <-. subst s. apply same_movx. auto. }
  destruct (sz t =? 2) eqn:E2.
  { apply Z.eqb_eq in E2. rewrite E2 in HS. injection E as <-. subst s. apply same_movx. auto. }
  destruct (sz t =? 4) eqn:E4.
  { apply Z.eqb_eq in E4. rewrite E4 in HS. injection E as <-. subst s. apply same_mov_mem; auto. }
  destruct (sz t =? 8) eqn:E8; [|discriminate]. injection E as <-. subst s. apply same_mov_mem; auto.
Qed.

Lemma same_extend_lt t b o r l k : load_extend_int t b o S4 AX = Ok l -> sz t < k -> k <= 8 ->
  exists l', load_extend_int t b o S4 r = Ok l' /\ same_load l l' r.
Proof.
  intros H L K. apply same_extend; [exact H|]. destruct (Z.eqb_spec (sz t) 8); [lia|reflexivity].
Qed.

Lemma same_extend64 t b o r l : load_extend_int64 t b o AX = Ok l ->
  exists l', load_extend_int64 t b o r = Ok l' /\ same_load l l' r.
Proof.
  unfold load_extend_int64. intros H. bnd H. destruct a; try discriminate; injection H as <-;
  (eexists; split; [reflexivity|apply same_movx; auto]).
Qed.

Lemma same_val t v r : same_load (load_val t v) (load_val2 t v r) r.
Proof.
  unfold load_val, load_val2. destruct (v =? 0).
  - split; [reflexivity|]. intros m m1 H. injection H as <-. eexists. split; [reflexivity|].
    cbn [setf rg mm putr setr]. rewrite !Z.lxor_nilpotent.
    replace (reg_eqb r r) with true by (destruct r; reflexivity). split; [reflexivity|]. split; [|reflexivity].
    intros q N. destruct q, r; try congruence; reflexivity.
  - repeat match goal with |- context [if ?b then _ else _] => destruct b end; apply same_mov_imm; auto.
Qed.
End Redirect.

(** ** One argument *)
Record parg := mkparg { p_t : ityp; p_e : exp; p_m : marg }.

Lemma load_opt_same G sym n r : sz (nty n) <= 8 -> match gen_load_opt_gp G n with
  | Ok (Some l) => exists l', load_opt_to G n r = Ok (Some l') /\ same_load sym l l' r
  | Ok None => load_opt_to G n r = Ok None
  | _ => True
  end.
Proof.
  intros K. unfold gen_load_opt_gp, load_opt_to. destruct n; try reflexivity. cbn [nty] in K.
  destruct (is_memop G n) as [[b o]|]; [|reflexivity].
  destruct (sz (nty n) <? sz t) eqn:L.
  - apply Z.ltb_lt in L. destruct (negb (uns (nty n)) && (sz t =? 8)).
    + destruct (load_extend_int64 (nty n) b o AX) as [l| |] eqn:E; cbn [bind]; auto.
      destruct (same_extend64 sym _ _ _ r _ E) as [l' [E' S]]. rewrite E'. cbn [bind]. eauto.
    + destruct (negb ((sz t =? 2) && uns t && negb (uns (nty n)))); [|reflexivity].
      destruct (load_extend_int (nty n) b o S4 AX) as [l| |] eqn:E; cbn [bind]; auto.
      destruct (same_extend_lt sym _ _ _ r _ (sz t) E L K) as [l' [E' S]]. rewrite E'. cbn [bind]. eauto.
  - destruct (negb (is_bool t)); [|reflexivity].
    destruct (load_extend_int t b o (if sz t =? 8 then S8 else S4) AX) as [l| |] eqn:E; cbn [bind]; auto.
    destruct (same_extend sym _ _ _ _ r _ E eq_refl) as [l' [E' S]]. rewrite E'. cbn [bind]. eauto.
Qed.

Section Arg.
Variable G : genv.
Variable sym : nat -> Z.
Variable bs : reg -> Z.
Variable P : Z.
(** [V] are the variables of the program, [VV] also the objects of the arguments. *)
Variable V VV : list (ityp * nat).
Variable M0 : Z -> Z.
Hypothesis FR : frame_ok G bs P.
Hypothesis CO : cfg_ok (gc G).
Hypothesis DIS : forall t x u y, In (t, x) VV -> In (u, y) VV -> (t = u /\ x = y) \/
  (x <> y /\ (vaddr G sym bs x + sz (mty t) <= vaddr G sym bs y \/ vaddr G sym bs y + sz (mty u) <= vaddr G sym bs x)).
Hypothesis SUB : forall t x, In (t, x) V -> In (t, x) VV.
Variable f : nat.

Local Notation vaddr := (vaddr G sym bs).
Local Notation good := (good G bs P).
Local Notation c := (gc G).
Local Notation inv := (inv G sym bs P VV M0).
Local Notation vspec := (vspec G sym bs P VV M0).

Definition pok (p : parg) : Prop :=
  uses V (p_e p) /\ elab c (p_e p) = Ok (m_n (p_m p)) /\ nty (m_n (p_m p)) = mty (p_t p) /\
  (m_ptr (p_m p) = true -> has_slot VV (p_t p) (m_x (p_m p)) /\ known c (m_x (p_m p)) = None /\
     forall u, ~ In (u, m_x (p_m p)) V).

Lemma pok_pre p env m v : pok p -> inv env m -> ceval env (p_e p) = Some v ->
  pre G sym env bs P (mm m) (m_n (p_m p)) v.
Proof.
  intros [U [E _]] IV T. eapply inv_pre; eauto. eapply uses_weak; eauto.
Qed.

Lemma pok_range p env m v : pok p -> inv env m -> ceval env (p_e p) = Some v -> in_range (p_t p) v.
Proof.
  intros K IV T. destruct (pok_pre p env m v K IV T) as [[W Vn _ _] TE]. destruct K as [_ [_ [TY _]]].
  pose proof (teval_range env _ W Vn v TE) as R. rewrite TY, ity_mty in R. exact R.
Qed.

(** Loads of one register. *)
Definition lspec (st st' : gst) (p : parg) (r : reg) (first : bool) : Prop :=
  exists code, wext st st' code /\
  (peak st' <= P -> lvar_sz G <= peak st -> forall env m v, inv env m -> ceval env (p_e p) = Some v ->
   (m_ptr (p_m p) = true -> env (m_x (p_m p)) = v) ->
   exists m', run sym code None m = Some (None, m') /\ inv env m' /\ eqm (result_bits (p_t p)) (rg m' r) v /\
     (first = false -> forall q, q <> r -> rg m' q = rg m q)).

Lemma inv_regs env m m' r : inv env m -> ~ callee r -> (forall q, q <> r -> rg m' q = rg m q) -> mm m' = mm m -> inv env m'.
Proof.
  intros IV NC R M. eapply inv_keep; [exact IV|]. destruct IV as [A _ _]. split.
  - intros q Hq. rewrite R; [apply A; exact Hq|]. intros ->. exact (NC Hq).
  - intros a _. rewrite M. reflexivity.
Qed.

(** Code that gen_expr would emit for the same node, with another target. *)
Lemma lspec_same st p r l l' : pok p -> ~ callee r ->
  gen G 1 MExpr (m_n (p_m p)) st = Ok (emit l st) -> same_load sym l l' r ->
  forall first, lspec st (emit l' st) p r first.
Proof.
  intros K NC H [L S] first. destruct (gexpr G sym bs P FR CO 1 _ _ _ H) as [code [[X1 X2 X3 X4] Q]].
  assert (code = l) by (cbn [emit out] in X1; apply app_inv_head in X1; congruence). subst code.
  exists l'. split; [apply wext_emit; exact L|]. intros HP HL env m v IV T _. cbn [emit peak] in *.
  destruct (Q HP HL env (mm m) v (pok_pre p env m v K IV T) m (inv_good _ _ _ _ _ _ _ _ IV)) as [j [m1 [R1 [_ [-> Q1]]]]].
  destruct (S m m1 R1) as [m2 [R2 [A [B C]]]]. exists m2. split; [exact R2|].
  split; [eapply inv_regs; eauto|]. split; [|intros _; exact B]. rewrite A. eapply eqm_le; [|exact Q1].
  destruct K as [_ [_ [TY _]]]. pose proof (vw_node _ _ TY). pose proof (vw_result (p_t p)). lia.
Qed.

Lemma load_slot_ok st st' p r : pok p -> ~ callee r -> m_ptr (p_m p) = true ->
  load_slot G (p_m p) r st = Ok st' -> forall first, lspec st st' p r first.
Proof.
  intros K NC PT H first. pose proof K as [_ [_ [TY SL]]]. destruct (SL PT) as [HS [KN _]]. unfold load_slot in H.
  destruct (loc G (m_x (p_m p))) as [b o|?|] eqn:LC; try discriminate. bnd H. apply ok_inj in H. subst st'.
  set (t := p_t p) in *. set (x := m_x (p_m p)) in *. unfold place_reg_arg in E. rewrite TY in E.
  replace (if sz (mty t) <=? 4 then S4 else S8) with (if sz (mty t) =? 8 then S8 else S4) in E by (destruct t; reflexivity).
  destruct (load_extend_int (mty t) (BReg b) o (if sz (mty t) =? 8 then S8 else S4) AX) as [l| |] eqn:EA.
  2, 3: exfalso; clear - EA; destruct t; discriminate EA.
  destruct (same_extend sym _ _ _ _ r _ EA eq_refl) as [l' [E' S]]. rewrite E in E'. injection E' as <-.
  destruct S as [L S]. exists a. split; [apply wext_emit; exact L|]. intros HP HL env m v IV T EQ. specialize (EQ PT).
  destruct (var_loc G sym bs P VV M0 env m t x IV HS) as [VL _].
  assert (HO : holds sym (BReg b) o (tysize (mty t)) v m).
  { destruct HS as [u [Hu [SZ _]]]. destruct IV as [IR IVV _]. destruct (IVV u x Hu) as [_ [[B1 [B2 B3]] _]].
    unfold tysize. rewrite <- SZ. fold (tysize (mty u)). rewrite <- EQ. unfold holds.
    transitivity (loadn (tysize (mty u)) (vaddr x) (mm m)); [|rewrite B3, tysize_z; reflexivity].
    f_equal. unfold ea, CgInv.vaddr. rewrite LC. unfold vloc_ok in B1. rewrite LC in B1. rewrite IR by exact B1. reflexivity. }
  pose proof (pok_range p env m v K IV T) as RG. fold t in RG.
  destruct (load_extend_ok sym (mty t) (BReg b) o v AX m l (ltac:(destruct t; vm_compute; auto 12)) ltac:(rewrite ity_mty; exact RG) (or_introl eq_refl) HO EA)
    as [m1 [R1 [_ [Q1 [Q2 _]]]]].
  destruct (S m m1 R1) as [m2 [R2 [A [B C]]]]. exists m2. split; [exact R2|].
  split; [eapply inv_regs; eauto|]. split; [|intros _; exact B]. rewrite A. fold t.
  destruct t; try exact Q1; apply Q2; left; reflexivity.
Qed.

Lemma load_arg_ok st st' p r first : pok p -> ~ callee r -> 
  in_place G first (m_n (p_m p)) = Ok (negb (m_ptr (p_m p))) ->
  load_arg G f first (p_m p) r st = Ok st' -> lspec st st' p r first.
Proof.
  intros K NC IP H. pose proof K as [U [EL [TY SL]]]. unfold in_place in IP. unfold load_arg in H.
  destruct (opt (gc G)) eqn:OPT.
  2: { eapply load_slot_ok; eauto. injection IP as IP. destruct (m_ptr (p_m p)); [reflexivity|discriminate]. }
  set (n := m_n (p_m p)) in *.
  assert (SZ8 : sz (nty n) <= 8) by (rewrite TY; destruct (p_t p); vm_compute; discriminate).
  assert (GE : forall l, gen_expr_opt G (gen G 0) n st = Ok (Some (emit l st)) -> gen G 1 MExpr n st = Ok (emit l st)).
  { intros l Hl. change (gen G 1 MExpr n st) with (gen_expr2 G (gen G 0) n st). unfold gen_expr2. rewrite OPT, Hl. reflexivity. }
  unfold gen_expr_opt in GE.
  destruct (const_of G n) as [[k|]| |] eqn:CN; cbn [bind] in *; try discriminate.
  - apply ok_inj in H. subst st'. eapply (lspec_same st p r (load_val (nty n) k)); [exact K|exact NC|apply GE; reflexivity|apply same_val].
  - pose proof (load_opt_same G sym n r SZ8) as LO.
    destruct (gen_load_opt_gp G n) as [[l|]| |] eqn:GL; cbn [bind] in *; try discriminate.
    + destruct LO as [l' [E' S]]. rewrite E' in H. cbn [bind] in H. apply ok_inj in H. subst st'.
      eapply (lspec_same st p r l); [exact K|exact NC|apply GE; reflexivity|exact S].
    + rewrite LO in H. cbn [bind] in H. destruct (is_memop G n) as [[b o]|] eqn:MO.
      * bnd H. apply ok_inj in H. subst st'. unfold place_reg_arg in E. unfold load3 in GE.
        assert (OS : opsize_of (sz (nty n)) = Ok (if sz (nty n) =? 8 then S8 else S4)) by (rewrite TY; destruct (p_t p); reflexivity).
        replace (if sz (nty n) <=? 4 then S4 else S8) with (if sz (nty n) =? 8 then S8 else S4) in E by (rewrite TY; destruct (p_t p); reflexivity).
        rewrite OS in GE. cbn [bind] in GE.
        destruct (load_extend_int (nty n) b o (if sz (nty n) =? 8 then S8 else S4) AX) as [l| |] eqn:EA.
        2, 3: exfalso; clear - EA TY; rewrite TY in EA; destruct (p_t p); discriminate EA.
        destruct (same_extend sym _ _ _ _ r _ EA eq_refl) as [l' [E' S]]. rewrite E in E'. injection E' as <-.
        eapply (lspec_same st p r l); [exact K|exact NC|apply GE; reflexivity|exact S].
      * destruct first.
        -- bnd H. apply ok_inj in H. subst st'. destruct (gexpr G sym bs P FR CO f _ _ _ E) as [code [X Q]].
           exists (code ++ [Mov None (R S8 AX) (R S8 r)]).
           split; [eapply wext_trans; [exact X|apply wext_emit; reflexivity]|].
           intros HP HL env m v IV T _. cbn [emit peak] in HP.
           destruct (Q HP HL env (mm m) v (pok_pre p env m v K IV T) m (inv_good _ _ _ _ _ _ _ _ IV)) as [j [m1 [R1 [G1 [-> Q1]]]]].
           exists (putr S8 r (getr S8 AX m1) m1). split; [rewrite run_app, R1; destruct r; reflexivity|].
           split; [eapply (inv_regs env m1); [eapply inv_keep; eauto|exact NC|intros; apply put_other; assumption|apply put_mem]|].
           split; [|discriminate]. rewrite put_same by auto.
           eapply eqm_le with (n := wbits n); [pose proof (vw_node _ _ TY); pose proof (vw_result (p_t p)); lia|].
           eapply eqm_trans; [|exact Q1]. unfold getr. cbn [nbits]. rewrite Z.mod_mod by (vm_compute; discriminate).
           eapply eqm_le with (n := 64); [unfold wbits; destruct ((sz (nty n) =? 8) || boolish n); lia|]. apply eqm_mod. lia.
        -- eapply load_slot_ok; eauto. injection IP as IP. destruct (m_ptr (p_m p)); [reflexivity|discriminate].
Qed.

(** ** All arguments *)
Definition pval (env : nat -> Z) (p : parg) : Z := match ceval env (p_e p) with Some v => v | None => 0 end.

Fixpoint fill (ps : list parg) (env : nat -> Z) : nat -> Z :=
  match ps with
  | [] => env
  | p :: r => fill r (if m_ptr (p_m p) then assign env (m_x (p_m p)) (conv (p_t p) (pval env p)) else env)
  end.
Definition spilled (ps : list parg) : list nat := map m_x (filter m_ptr (map p_m ps)).

Lemma fill_other ps : forall env y, ~ In y (spilled ps) -> fill ps env y = env y.
Proof.
  induction ps as [|p ps IH]; intros env y N; [reflexivity|]. cbn [fill]. unfold spilled in N. cbn [map filter] in N.
  destruct (m_ptr (p_m p)); cbn [map In] in N; rewrite IH by (intros X; apply N; auto).
  - unfold assign. destruct (Nat.eqb_spec y (m_x (p_m p))); [exfalso; apply N; left; congruence|reflexivity].
  - reflexivity.
Qed.

Lemma spilled_new ps : Forall pok ps -> forall t y, In (t, y) V -> ~ In y (spilled ps).
Proof.
  intros F t y HV HI. unfold spilled in HI. apply in_map_iff in HI. destruct HI as [a [<- HI]].
  apply filter_In in HI. destruct HI as [HI PT]. apply in_map_iff in HI. destruct HI as [p [<- HI]].
  rewrite Forall_forall in F. destruct (F p HI) as [_ [_ [_ K]]]. destruct (K PT) as [_ [_ N]]. exact (N t HV).
Qed.

Lemma fill_eval ps e env : Forall pok ps -> uses V e -> ceval (fill ps env) e = ceval env e.
Proof. intros F U. eapply ceval_agree; [exact U|]. intros t y H. apply fill_other. eapply spilled_new; eauto. Qed.

Lemma assign_eval p e env z : pok p -> m_ptr (p_m p) = true -> uses V e -> ceval (assign env (m_x (p_m p)) z) e = ceval env e.
Proof.
  intros [_ [_ [_ K]]] PT U. destruct (K PT) as [_ [_ N]]. eapply ceval_agree; [exact U|]. intros t y H. unfold assign.
  destruct (Nat.eqb_spec y (m_x (p_m p))) as [->|]; [|reflexivity]. exfalso. exact (N t H).
Qed.

Lemma fill_at ps : forall env, Forall pok ps -> NoDup (spilled ps) -> forall p, In p ps -> m_ptr (p_m p) = true ->
  fill ps env (m_x (p_m p)) = conv (p_t p) (pval env p).
Proof.
  induction ps as [|q ps IH]; intros env F N p HI PT; [contradiction|]. inversion F as [|? ? Fq Fr]; subst. cbn [fill].
  unfold spilled in N. cbn [map filter] in N. destruct (m_ptr (p_m q)) eqn:Q.
  - cbn [map] in N. inversion N as [|? ? N1 N2]; subst. destruct HI as [<-|HI].
    + rewrite fill_other by exact N1. unfold assign. rewrite Nat.eqb_refl. reflexivity.
    + rewrite (IH _ Fr N2 p HI PT). unfold pval. rewrite assign_eval; auto.
      rewrite Forall_forall in Fr. exact (proj1 (Fr p HI)).
  - destruct HI as [<-|HI]; [congruence|]. apply IH; auto.
Qed.

Definition defined (env : nat -> Z) (ps : list parg) : Prop := Forall (fun p => exists v, ceval env (p_e p) = Some v) ps.

Lemma spill_ok ps : forall st st', Forall pok ps -> spill_args G f (map p_m ps) st = Ok st' ->
  vspec st st' (fun a b => defined a ps /\ b = fill ps a).
Proof.
  induction ps as [|p ps IH]; intros st st' F H; cbn [map spill_args] in H.
  - apply ok_inj in H. subst st'. eapply vspec_weak; [apply vspec_nop|]. intros a b _ _ [_ ->]. reflexivity.
  - inversion F as [|? ? Fp Fr]; subst. pose proof Fp as [U [EL [TY SL]]]. destruct (m_ptr (p_m p)) eqn:PT.
    + bnd H. destruct (SL eq_refl) as [HS [KN _]]. rewrite TY in E, E0.
      eapply vspec_seq; [|apply IH; [exact Fr|exact H]|].
      * eapply (gen_void_assign_ok G sym bs P VV M0 FR CO DIS (p_t p) (m_x (p_m p)) HS KN f (p_e p)); [eapply uses_weak; eauto| |exact E0].
        cbn [elab]. rewrite EL. exact E.
      * intros e1 e3 [D ->]. inversion D as [|? ? [v Dv] Dr]; subst.
        exists (assign e1 (m_x (p_m p)) (conv (p_t p) (pval e1 p))). split.
        { exists v. split; [exact Dv|]. unfold pval. rewrite Dv. reflexivity. }
        split; [|cbn [fill]; rewrite PT; reflexivity]. unfold defined in *. rewrite Forall_forall in *. intros q Hq.
        destruct (Dr q Hq) as [w Hw]. exists w. rewrite assign_eval; auto. exact (proj1 (Fr q Hq)).
    + eapply vspec_weak; [apply IH; eauto|]. intros a b _ _ [D ->]. split; [inversion D; assumption|].
      cbn [fill]. rewrite PT. reflexivity.
Qed.

(** What prepare_funcall has checked for each register argument. *)
Fixpoint prepared (first : bool) (ps : list parg) : Prop :=
  match ps with
  | [] => True
  | p :: r =>
      match m_stk (p_m p) with
      | Some _ => prepared first r
      | None => in_place G first (m_n (p_m p)) = Ok (negb (m_ptr (p_m p))) /\ prepared false r
      end
  end.

Fixpoint at_regs (gp : nat) (ps : list parg) (env : nat -> Z) (m : mach) : Prop :=
  match ps with
  | [] => True
  | p :: r =>
      match m_stk (p_m p) with
      | Some _ => at_regs gp r env m
      | None => (exists q v, nth_error abi_regs gp = Some q /\ ceval env (p_e p) = Some v /\
                   eqm (result_bits (p_t p)) (rg m q) v) /\ at_regs (S gp) r env m
      end
  end.

Lemma argreg_abi gp r : argreg gp = Ok r -> nth_error abi_regs gp = Some r /\ ~ callee r /\
  ~ In r (skipn (S gp) abi_regs) /\ (forall q, ~ In q (skipn gp abi_regs) -> q <> r /\ ~ In q (skipn (S gp) abi_regs)).
Proof.
  intros H. do 6 (destruct gp as [|gp]; [injection H as <-;
    (split; [reflexivity|]; split; [intros [X|[X|X]]; discriminate|]; split;
      [cbn; intuition discriminate|cbn [skipn abi_regs In]; intros q X; split; [intros ->; apply X; auto|intros Y; apply X; auto]])|]).
  discriminate.
Qed.

Lemma load_args_ok ps : forall gp first st st', Forall pok ps -> prepared first ps ->
  load_args G f gp first (map p_m ps) st = Ok st' ->
  exists code, wext st st' code /\
  (peak st' <= P -> lvar_sz G <= peak st -> forall env m, inv env m ->
   Forall (fun p => exists v, ceval env (p_e p) = Some v /\ (m_ptr (p_m p) = true -> env (m_x (p_m p)) = v)) ps ->
   exists m', run sym code None m = Some (None, m') /\ inv env m' /\ at_regs gp ps env m' /\
     (first = false -> forall q, ~ In q (skipn gp abi_regs) -> rg m' q = rg m q)).
Proof.
  induction ps as [|p ps IH]; intros gp first st st' F PR H; cbn [map load_args prepared] in *.
  - apply ok_inj in H. subst st'. exists []. split; [apply wext_refl|]. intros _ _ env m IV _. exists m.
    split; [reflexivity|]. split; [exact IV|]. split; [exact Logic.I|auto].
  - inversion F as [|? ? Fp Fr]; subst. cbn [at_regs]. destruct (m_stk (p_m p)).
    + destruct (IH gp first st st' Fr PR H) as [code [X S]]. exists code. split; [exact X|].
      intros HP HL env m IV D. inversion D; subst. apply S; auto.
    + bnd H. destruct PR as [IP PR]. destruct (argreg_abi gp a E) as [NE [NC [NI HQ]]].
      destruct (load_arg_ok st a0 p a first Fp NC IP E0) as [c1 [X1 S1]].
      destruct (IH (S gp) false a0 st' Fr PR H) as [c2 [X2 S2]].
      exists (c1 ++ c2). split; [eapply wext_trans; eauto|]. intros HP HL env m IV D. inversion D as [|? ? [v [Dv Dx]] Dr]; subst.
      pose proof (we_pk _ _ _ X1). pose proof (we_pk _ _ _ X2).
      destruct (S1 ltac:(lia) HL env m v IV Dv Dx) as [m1 [R1 [I1 [Q1 K1]]]].
      destruct (S2 HP ltac:(lia) env m1 I1 Dr) as [m2 [R2 [I2 [A2 K2]]]]. exists m2.
      split; [rewrite run_app, R1; exact R2|]. split; [exact I2|]. split; [split; [|exact A2]|].
      * exists a, v. split; [exact NE|]. split; [exact Dv|]. rewrite (K2 eq_refl a NI). exact Q1.
      * intros FF q Hq. destruct (HQ q Hq) as [N1 N2]. rewrite (K2 eq_refl q N2). apply K1; auto.
Qed.
End Arg.
