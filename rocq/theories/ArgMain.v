(** Main result about the arguments of a call. *)
From Coq Require Import ZArith List Bool Lia.
From Verif Require Import Base BitLemmas IntSpec IntLemmas IntModel IntTyped IntProofs IntFold
  IntElab IntMain X86 CgModel CgSpec CgLemmas CgSeq CgSeq2 CgSeq3 CgInv CgTree CgGen CgMain CgHot CgPiece
  StmtSpec StmtModel StmtPlace StmtEff StmtVoid StmtProofs StmtMain ValSpec ValModel ValProofs ArgSpec ArgModel ArgProofs.
Import ListNotations.
Local Open Scope Z_scope.

(** The object of a _Bool argument holds any byte before the argument is stored. *)
Definition widen (t : ityp) : ityp := match t with TBool => TUChar | _ => t end.

Lemma widen_sz t : sz (mty (widen t)) = sz (mty t). Proof. destruct t; reflexivity. Qed.
Lemma widen_range t z : in_range t z -> in_range (widen t) z.
Proof. destruct t; try exact (fun H => H). unfold in_range. cbn. lia. Qed.
Lemma widen_load t k : conv (widen t) k mod 2 ^ (8 * sz (mty t)) = k mod 2 ^ (8 * sz (mty t)).
Proof. destruct t; match goal with |- conv (widen ?t) _ mod _ = _ => apply (conv_mod (widen t) k); discriminate end. Qed.

(** The expression whose value is passed. *)
Definition pexp (a : sarg) : exp :=
  match sa_param a with
  | Some t => ECast t (sa_e a)
  | None => if iwidth (ctype (sa_e a)) <? 32 then ECast TInt (sa_e a) else sa_e a
  end.
Definition mkp (a : sarg) (m : marg) : parg := mkparg (arg_type a) (pexp a) m.

Fixpoint zip (l : list sarg) (ms : list marg) : list parg :=
  match l, ms with a :: l', m :: ms' => mkp a m :: zip l' ms' | _, _ => [] end.

Lemma zip_map l : forall ms, length ms = length l -> map p_m (zip l ms) = ms.
Proof. induction l as [|a l IH]; intros [|m ms] H; try discriminate; cbn [zip map p_m mkp]; [reflexivity|]. rewrite IH by (cbn in H; lia). reflexivity. Qed.

Lemma zip_nth l : forall ms i a m, nth_error l i = Some a -> nth_error ms i = Some m -> nth_error (zip l ms) i = Some (mkp a m).
Proof. induction l as [|b l IH]; intros [|m0 ms] [|i] a m H1 H2; try discriminate; cbn [nth_error zip] in *; [congruence|]. eapply IH; eauto. Qed.

Lemma conv_length k : forall gp s, length (calling_conv gp s k) = k.
Proof. induction k; intros gp s; cbn [calling_conv]; [reflexivity|]. destruct (gp <? 6)%nat; cbn [length]; rewrite IHk; reflexivity. Qed.

Lemma conv_nth k : forall gp s i, (i < k)%nat -> nth_error (calling_conv gp s k) i =
  Some (if (gp + i <? 6)%nat then None else Some (s + 8 * (Z.of_nat (gp + i) - Z.max (Z.of_nat gp) 6))).
Proof.
  induction k; intros gp s i H; [lia|]. cbn [calling_conv]. destruct i as [|i]; cbn [nth_error].
  - rewrite Nat.add_0_r. destruct (Nat.ltb_spec gp 6); cbn [nth_error]; [reflexivity|]. do 2 f_equal. lia.
  - destruct (Nat.ltb_spec gp 6) as [L|L]; cbn [nth_error]; rewrite IHk by lia; replace (S gp + i)%nat with (gp + S i)%nat by lia.
    + destruct (gp + S i <? 6)%nat; [reflexivity|]. do 2 f_equal. lia.
    + destruct (Nat.ltb_spec (gp + S i) 6); [lia|]. do 2 f_equal. lia.
Qed.

Lemma some_inj {A} (x y : A) : Some x = Some y -> x = y. Proof. congruence. Qed.

Section Main.
Variable G : genv.
Variable sym : nat -> Z.
Hypothesis CO : forall a b, same (gc G) a b = true -> a = b.
Hypothesis SV : saved (lptr G).
Variable f : nat.

Lemma prepare_facts l : forall stk first ns ms, parse_args (gc G) l = Ok ns -> length stk = length l ->
  prepare_args G first ns stk = Ok ms ->
  length ms = length l /\ prepared G first (zip l ms) /\
  forall i a m, nth_error l i = Some a -> nth_error ms i = Some m ->
    parse_arg (gc G) a = Ok (m_n m) /\ m_x m = sa_x a /\ nth_error stk i = Some (m_stk m) /\
    (m_stk m <> None -> m_ptr m = true).
Proof.
  induction l as [|a l IH]; intros stk first ns ms PA LN PR; cbn [parse_args] in PA.
  - apply ok_inj in PA. subst ns. injection PR as <-. split; [reflexivity|]. split; [exact Logic.I|].
    intros [|i] ? ? X; discriminate.
  - bnd PA. apply ok_inj in PA. subst ns. destruct stk as [|o stk]; [discriminate|]. cbn [length] in LN.
    cbn [prepare_args] in PR. destruct o as [o|]; bnd PR; apply ok_inj in PR; subst ms.
    + destruct (IH stk first a1 a2 eq_refl ltac:(lia) E1) as [L2 [P2 F2]]. split; [cbn [length]; lia|].
      split; [exact P2|]. intros [|i] b m Hb Hm; cbn [nth_error] in *.
      * injection Hb as <-. injection Hm as <-. cbn [m_n m_x m_stk m_ptr]. auto.
      * exact (F2 i b m Hb Hm).
    + destruct (IH stk false a1 a3 eq_refl ltac:(lia) E2) as [L2 [P2 F2]]. split; [cbn [length]; lia|].
      split; [split; [|exact P2]; cbn [mkp p_m m_n m_ptr]; rewrite negb_involutive; exact E1|].
      intros [|i] b m Hb Hm; cbn [nth_error] in *.
      * injection Hb as <-. injection Hm as <-. cbn [m_n m_x m_stk m_ptr]. repeat split; auto; congruence.
      * exact (F2 i b m Hb Hm).
Qed.

Lemma objects_in l : forall ms, length ms = length l -> (forall i a m, nth_error l i = Some a -> nth_error ms i = Some m -> m_x m = sa_x a) ->
  map snd (arg_objects l ms) = spilled (zip l ms) /\
  (forall i a m, nth_error l i = Some a -> nth_error ms i = Some m -> m_ptr m = true -> In (arg_type a, sa_x a) (arg_objects l ms)).
Proof.
  induction l as [|a l IH]; intros [|m ms] LN H; try discriminate.
  - split; [reflexivity|]. intros [|i] ? ? X; discriminate.
  - destruct (IH ms ltac:(cbn in LN; lia) (fun i => H (S i))) as [A B]. cbn [arg_objects zip]. unfold spilled. cbn [map filter p_m mkp].
    split.
    + destruct (m_ptr m); cbn [app map snd]; [f_equal; [symmetry; apply (H 0%nat a m); reflexivity|exact A]|exact A].
    + intros [|i] b q Hb Hq PT; cbn [nth_error] in *.
      * injection Hb as <-. injection Hq as <-. rewrite PT. left. reflexivity.
      * apply in_or_app. right. eapply B; eauto.
Qed.

Lemma at_regs_nth ps : forall gp i p env m, at_regs gp ps env m -> nth_error ps i = Some p ->
  (forall j q, (j <= i)%nat -> nth_error ps j = Some q -> m_stk (p_m q) = None) ->
  exists r v, nth_error abi_regs (gp + i) = Some r /\ ceval env (p_e p) = Some v /\ eqm (result_bits (p_t p)) (rg m r) v.
Proof.
  induction ps as [|q ps IH]; intros gp i p env m A N H; [destruct i; discriminate|]. cbn [at_regs] in A.
  rewrite (H 0%nat q ltac:(lia) eq_refl) in A. destruct A as [A1 A2]. destruct i as [|i].
  - injection N as <-. rewrite Nat.add_0_r. exact A1.
  - replace (gp + S i)%nat with (S gp + i)%nat by lia. eapply IH; eauto. intros j r Hj Hr. apply (H (S j) r ltac:(lia) Hr).
Qed.

Lemma args_code_ext (V : list (ityp * nat)) (hidden : bool) l ns ms st st' env m post :
  0 <= lvar_sz G <= peak st -> 0 <= rg m (lptr G) < 2 ^ 64 -> peak st' <= rg m (lptr G) ->
  (forall a, In a l -> uses V (sa_e a) /\ exists v, arg_value env a = Some v) ->
  parse_args (gc G) l = Ok ns -> prepare_funcall G hidden ns = Ok ms ->
  separate G sym (rg m) (V ++ arg_objects l ms) ->
  NoDup (map snd (arg_objects l ms)) ->
  (forall t x, In (t, x) (arg_objects l ms) ->
     addressable G sym x /\ known (gc G) x = None /\ ~ In x (map snd V) /\
     clear (obj_addr G sym (rg m) x) (isize t) (rg m (lptr G) - peak st') (rg m (lptr G) - lvar_sz G)) ->
  (forall a o, In a ms -> m_stk a = Some o -> loc G (m_x a) = VLoc SP o) ->
  held G sym (rg m) (mm m) (rg m (lptr G) - peak st') (rg m (lptr G) - lvar_sz G) V env ->
  gen_funcall_args G f hidden ms st = Ok st' ->
  fresh_labels (out st ++ post) (cnt st) (cnt st') ->
  (exists c, out st' = out st ++ c) /\
  exists m', steps sym (out st' ++ post) (length (out st), m) (length (out st'), m') /\
    (forall i a v, nth_error l i = Some a -> arg_value env a = Some v ->
       match arg_place hidden i with
       | InReg r => rg m' r mod 2 ^ result_bits (arg_type a) = v mod 2 ^ result_bits (arg_type a)
       | OnStack o => loadn (Z.to_nat (isize (arg_type a))) ((rg m SP + o) mod 2 ^ 64) (mm m') =
                      v mod 2 ^ (8 * isize (arg_type a))
       end) /\
    held G sym (rg m) (mm m') (rg m (lptr G) - peak st') (rg m (lptr G) - lvar_sz G) V env /\
    (forall r, saved r -> rg m' r = rg m r) /\
    (forall b, b < rg m (lptr G) - peak st' \/ rg m (lptr G) - lvar_sz G <= b ->
       ~ of_variable G sym (rg m) (V ++ arg_objects l ms) b -> mm m' b = mm m b).
Proof.
  intros HL HB HP HU PA PR SEP ND OBJ STK HD GS LA.
  set (P := peak st') in *. set (bs := rg m) in *. set (W := arg_objects l ms) in *.
  set (WW := map (fun p => (widen (fst p), snd p)) W). set (VV := V ++ WW).
  assert (F : frame_ok G bs P) by (split; [exact SV|unfold lpv; subst bs P; lia]).
  pose proof (proj1 (held_vars G sym V bs P env (mm m)) HD) as VO.
  set (gp := (if hidden then 1 else 0)%nat) in *.
  destruct (prepare_facts l (calling_conv gp 0 (length ns)) true ns ms PA) as [LM [PD NTH]].
  { rewrite conv_length. clear - PA. revert ns PA. induction l as [|a l IH]; intros ns PA; cbn [parse_args] in PA; [injection PA as <-; reflexivity|].
    bnd PA. injection PA as <-. cbn [length]. rewrite (IH a1 eq_refl). reflexivity. }
  { exact PR. }
  assert (LNS : length ns = length l).
  { clear - PA. revert ns PA. induction l as [|a l IH]; intros ns PA; cbn [parse_args] in PA; [injection PA as <-; reflexivity|].
    bnd PA. injection PA as <-. cbn [length]. rewrite (IH a1 eq_refl). reflexivity. }
  destruct (objects_in l ms LM) as [OX OI]. { intros i a q H1 H2. apply (NTH i a q H1 H2). }
  fold W in OX, OI.
  assert (INW : forall u x, In (u, x) WW <-> exists t, In (t, x) W /\ u = widen t).
  { intros u x. unfold WW. rewrite in_map_iff. split.
    - intros [[t y] [E H]]. cbn [fst snd] in E. injection E as <- <-. eauto.
    - intros [t [H ->]]. exists (t, x). auto. }
  assert (UNIQ : forall t u x, In (t, x) W -> In (u, x) W -> t = u).
  { intros t u x H1 H2. destruct (SEP t x u x) as [[E _]|[E _]]; try (apply in_or_app; right; assumption); [exact E|congruence]. }
  assert (DIS : forall t x u y, In (t, x) VV -> In (u, y) VV -> (t = u /\ x = y) \/
    (x <> y /\ (CgInv.vaddr G sym bs x + sz (mty t) <= CgInv.vaddr G sym bs y \/
                CgInv.vaddr G sym bs y + sz (mty u) <= CgInv.vaddr G sym bs x))).
  { intros t x u y Hx Hy.
    assert (X : forall t x, In (t, x) VV -> exists t', In (t', x) (V ++ W) /\ sz (mty t') = sz (mty t) /\ (In (t, x) V /\ t' = t \/ In (t', x) W /\ t = widen t')).
    { intros t0 x0 H. apply in_app_or in H. destruct H as [H|H].
      - exists t0. split; [apply in_or_app; auto|]. auto.
      - apply INW in H. destruct H as [t' [H ->]]. exists t'. split; [apply in_or_app; auto|]. rewrite widen_sz. auto. }
    destruct (X t x Hx) as [t' [A1 [A2 A3]]]. destruct (X u y Hy) as [u' [B1 [B2 B3]]]. rewrite <- A2, <- B2.
    destruct (SEP t' x u' y A1 B1) as [[<- <-]|Y]; [|right; rewrite <- !isize_sz; exact Y].
    left. split; [|reflexivity]. destruct A3 as [[A3 ->]|[A3 ->]], B3 as [[B3 E3]|[B3 ->]]; auto.
    - exfalso. destruct (OBJ t x B3) as [_ [_ [N _]]]. apply N. apply in_map_iff. exists (t, x). auto.
    - exfalso. destruct (OBJ t' x A3) as [_ [_ [N _]]]. apply N. apply in_map_iff. exists (u, x). subst. auto. }
  set (env0 := fun y => match find (fun p => Nat.eqb (snd p) y) W with
                        | Some (t, _) => conv (widen t) (loadn (Z.to_nat (isize t)) (obj_addr G sym bs y) (mm m))
                        | None => env y
                        end).
  assert (E0V : forall t x, In (t, x) V -> env0 x = env x).
  { intros t x H. unfold env0. destruct (find (fun p => Nat.eqb (snd p) x) W) as [[u y]|] eqn:FD; [|reflexivity].
    apply find_some in FD. destruct FD as [FI FE]. apply Nat.eqb_eq in FE. cbn [snd] in FE. subst y.
    exfalso. destruct (OBJ u x FI) as [_ [_ [N _]]]. apply N. apply in_map_iff. exists (t, x). auto. }
  assert (E0W : forall t x, In (t, x) W -> env0 x = conv (widen t) (loadn (Z.to_nat (isize t)) (obj_addr G sym bs x) (mm m))).
  { intros t x H. unfold env0. destruct (find (fun p => Nat.eqb (snd p) x) W) as [[u y]|] eqn:FD.
    - apply find_some in FD. destruct FD as [FI FE]. apply Nat.eqb_eq in FE. cbn [snd] in FE. subst y.
      rewrite (UNIQ u t x FI H). reflexivity.
    - exfalso. pose proof (find_none _ _ FD (t, x) H) as X. cbn [snd] in X. rewrite Nat.eqb_refl in X. discriminate. }
  assert (IV : inv G sym bs P VV (mm m) env0 m).
  { constructor; auto. intros u x H. apply in_app_or in H. destruct H as [H|H].
    - destruct (VO u x H) as [A [[B1 [B2 B3]] C]]. unfold leafv. rewrite (E0V u x H). auto.
    - apply INW in H. destruct H as [t [H ->]]. destruct (OBJ t x H) as [O1 [O2 [_ O4]]]. split; [|split].
      + rewrite (E0W t x H). apply conv_range.
      + unfold leafv. split; [exact O1|]. rewrite widen_sz. split; [rewrite <- isize_sz; exact O4|].
        rewrite (E0W t x H). rewrite widen_load. unfold tysize. rewrite widen_sz, <- isize_sz.
        symmetry. apply Z.mod_small. pose proof (loadn_range (Z.to_nat (isize t)) (obj_addr G sym bs x) (mm m)) as LR.
        rewrite Z2Nat.id in LR by (unfold isize; lia). exact LR.
      + intros raw K. congruence. }
  assert (NV : forall t x u, In (t, x) W -> ~ In (u, x) V).
  { intros t x u H1 H2. destruct (OBJ t x H1) as [_ [_ [N _]]]. apply N. apply in_map_iff. exists (u, x). auto. }
  (* each argument *)
  assert (ARG : forall i a q, nth_error l i = Some a -> nth_error ms i = Some q ->
    pok G V VV (mkp a q) /\ ceval env0 (pexp a) = arg_value env a).
  { intros i a q Ha Hq. destruct (NTH i a q Ha Hq) as [PQ [XQ _]].
    destruct (HU a (nth_error_In _ _ Ha)) as [U _]. unfold parse_arg in PQ. bnd PQ.
    pose proof (uses_elab G sym bs P V env (mm m) VO CO (sa_e a) a0 U E) as ER.
    pose proof (er_ty _ _ _ _ ER) as TY.
    assert (SZW : (sz (nty a0) <? 4) = (iwidth (ctype (sa_e a)) <? 32)) by (rewrite TY; destruct (ctype (sa_e a)); reflexivity).
    assert (UP : uses V (pexp a)).
    { unfold pexp. destruct (sa_param a); [exact U|]. destruct (iwidth (ctype (sa_e a)) <? 32); exact U. }
    assert (EP : elab (gc G) (pexp a) = Ok (m_n q)).
    { unfold pexp. destruct (sa_param a) as [t|]; [cbn [elab]; rewrite E; exact PQ|]. rewrite SZW in PQ.
      destruct (iwidth (ctype (sa_e a)) <? 32); [cbn [elab]; rewrite E; exact PQ|]. rewrite E. exact PQ. }
    assert (TP : ctype (pexp a) = arg_type a).
    { unfold pexp, arg_type. destruct (sa_param a); [reflexivity|]. destruct (iwidth (ctype (sa_e a)) <? 32); reflexivity. }
    split.
    - split; [exact UP|]. split; [exact EP|]. split.
      + cbn [mkp p_t p_m]. rewrite <- TP. exact (er_ty _ _ _ _ (uses_elab G sym bs P V env (mm m) VO CO (pexp a) (m_n q) UP EP)).
      + cbn [mkp p_t p_m]. intros PT. pose proof (OI i a q Ha Hq PT) as IW. rewrite XQ.
        split; [|split; [apply (OBJ _ _ IW)|intros u; eapply NV; eauto]].
        exists (widen (arg_type a)). split; [apply in_or_app; right; apply INW; eauto|]. split; [apply widen_sz|apply widen_range].
    - rewrite (ceval_agree V env env0 _ UP E0V). unfold pexp, arg_value, arg_type.
      destruct (sa_param a) as [t|]; [reflexivity|]. destruct (iwidth (ctype (sa_e a)) <? 32); [reflexivity|].
      destruct (ceval env (sa_e a)) as [v|] eqn:CE; [|reflexivity]. f_equal. symmetry. apply conv_id.
      pose proof (er_ev _ _ _ _ ER v CE) as TE.
      pose proof (teval_range env a0 (er_wt _ _ _ _ ER) (er_v _ _ _ _ ER) v TE) as RG. rewrite TY, ity_mty in RG. exact RG. }
  set (ps := zip l ms) in *.
  assert (MS : forall p, In p ps -> exists i a q, nth_error l i = Some a /\ nth_error ms i = Some q /\ p = mkp a q).
  { clear - LM. subst ps. revert ms LM. induction l as [|a l IH]; intros [|q ms] LM p H; try discriminate; [contradiction|].
    destruct H as [<-|H]; [exists 0%nat, a, q; auto|]. destruct (IH ms ltac:(cbn in LM; lia) p H) as [i [b [r [A [B C]]]]].
    exists (S i), b, r. auto. }
  assert (PK : Forall (pok G V VV) ps).
  { rewrite Forall_forall. intros p H. destruct (MS p H) as [i [a [q [A [B ->]]]]]. apply (ARG i a q A B). }
  assert (DF : defined env0 ps).
  { unfold defined. rewrite Forall_forall. intros p H. destruct (MS p H) as [i [a [q [A [B ->]]]]].
    destruct (ARG i a q A B) as [_ EV]. cbn [mkp p_e]. rewrite EV. apply HU. eapply nth_error_In; eauto. }
  unfold gen_funcall_args in GS. bnd GS. rename a into st1.
  pose proof (zip_map l ms LM) as ZM. fold ps in ZM. rewrite <- ZM in E, GS.
  assert (SUB : forall t x, In (t, x) V -> In (t, x) VV) by (intros; apply in_or_app; auto).
  destruct (spill_ok G sym bs P V VV (mm m) F CO DIS SUB f ps st st1 PK E) as [c1 [X1 S1]].
  destruct (load_args_ok G sym bs P V VV (mm m) F CO SUB f ps gp true st1 st' PK PD GS) as [c2 [X2 S2]].
  pose proof (we_pk _ _ _ X1). pose proof (we_pk _ _ _ X2).
  destruct (S1 ltac:(lia) ltac:(lia) env0 (fill ps env0) m (conj DF eq_refl) IV) as [m1 [R1 I1]].
  assert (NDS : NoDup (spilled ps)) by (rewrite <- OX; exact ND).
  assert (VAL : forall i a q v, nth_error l i = Some a -> nth_error ms i = Some q -> arg_value env a = Some v ->
    ceval (fill ps env0) (pexp a) = Some v /\ (m_ptr q = true -> fill ps env0 (m_x q) = v)).
  { intros i a q v Ha Hq Hv. destruct (ARG i a q Ha Hq) as [K EV].
    split; [rewrite (fill_eval G V VV ps (pexp a) env0 PK (proj1 K)), EV; exact Hv|].
    intros PT. rewrite Hv in EV.
    assert (IP : In (mkp a q) ps) by (eapply nth_error_In, zip_nth; eauto).
    pose proof (fill_at G V VV ps env0 PK NDS (mkp a q) IP PT) as X. cbn [mkp p_m p_t] in X. rewrite X.
    unfold pval. change (p_e (mkp a q)) with (pexp a). rewrite EV. apply conv_id. exact (pok_range G sym bs P V VV (mm m) CO SUB (mkp a q) env0 m v K IV EV). }
  destruct (S2 (Z.le_refl _) ltac:(lia) (fill ps env0) m1 I1) as [m2 [R2 [I2 [AR _]]]].
  { rewrite Forall_forall. intros p H0'. destruct (MS p H0') as [i [a [q [A [B ->]]]]].
    destruct (HU a (nth_error_In _ _ A)) as [_ [v Hv]]. exists v. exact (VAL i a q v A B Hv). }
  pose proof (wext_trans _ _ _ _ _ X1 X2) as [Y1 _ _ Y4].
  destruct I2 as [J1 J2 J3].
  split; [eauto|]. exists m2. split; [|split; [|split; [|split]]].
  - rewrite Y1, <- app_assoc. apply (run_steps sym (c1 ++ c2) (out st) post None m m2).
    + eapply lok_fresh; [exact Y4|exact LA].
    + rewrite run_app, R1. exact R2.
  - intros i a v Ha Hv.
    assert (IL : (i < length l)%nat) by (apply nth_error_Some; congruence).
    destruct (nth_error ms i) as [q|] eqn:Hq; [|apply nth_error_None in Hq; lia].
    destruct (NTH i a q Ha Hq) as [_ [XQ [SQ SP']]]. rewrite LNS, conv_nth in SQ by exact IL. apply some_inj in SQ.
    destruct (VAL i a q v Ha Hq Hv) as [VE VX].
    unfold arg_place. fold gp. destruct (Nat.ltb_spec (gp + i) 6) as [L6|L6].
    + destruct (at_regs_nth ps gp i (mkp a q) (fill ps env0) m2 AR) as [r [w [A1 [A2 A3]]]].
      * apply zip_nth; auto.
      * intros j p Hj Hp.
        destruct (nth_error l j) as [b|] eqn:Hb; [|apply nth_error_None in Hb; lia].
        destruct (nth_error ms j) as [s|] eqn:Hs; [|apply nth_error_None in Hs; lia].
        pose proof (zip_nth l ms j b s Hb Hs) as Z1. fold ps in Z1. rewrite Z1 in Hp. injection Hp as <-.
        destruct (NTH j b s Hb Hs) as [_ [_ [SS _]]]. rewrite LNS, conv_nth in SS by lia. apply some_inj in SS.
        destruct (Nat.ltb_spec (gp + j) 6); [|lia]. cbn [mkp p_m]. congruence.
      * cbn [mkp p_e p_t] in A2, A3. rewrite A1. rewrite VE in A2. injection A2 as <-. exact A3.
    + assert (NE : nth_error abi_regs (gp + i) = None) by (apply nth_error_None; exact L6). rewrite NE.
      set (o := 8 * (Z.of_nat (gp + i) - 6)).
      assert (SO : m_stk q = Some o).
      { assert (GB : (gp <= 1)%nat) by (unfold gp; destruct hidden; lia). rewrite <- SQ. f_equal. unfold o. clearbody gp. clear - GB. lia. }
      assert (PT : m_ptr q = true) by (apply SP'; rewrite SO; discriminate).
      specialize (VX PT).
      pose proof (OI i a q Ha Hq PT) as IW.
      destruct (J2 (widen (arg_type a)) (sa_x a)) as [_ [[_ [_ LD]] _]]; [apply in_or_app; right; apply INW; eauto|].
      rewrite XQ in VX. rewrite VX in LD. rewrite widen_sz in LD. unfold tysize in LD. rewrite widen_sz, <- isize_sz in LD.
      rewrite <- LD. f_equal. unfold CgInv.vaddr. rewrite <- XQ, (STK q o (nth_error_In _ _ Hq) SO). reflexivity.
  - apply held_vars. intros t x H1. destruct (J2 t x (SUB t x H1)) as [A [[B1 [B2 B3]] C]].
    assert (EQ : fill ps env0 x = env x).
    { rewrite fill_other; [eapply E0V; eauto|]. exact (spilled_new G V VV ps PK t x H1). }
    rewrite EQ in A, B3, C. unfold leafv. auto.
  - exact J1.
  - intros b Hb Hn. apply J3; [exact Hb|]. intros [t [x [A1 [A2 A3]]]]. apply Hn.
    apply in_app_or in A1. destruct A1 as [A1|A1].
    + exists t, x. rewrite isize_sz. split; [apply in_or_app; auto|auto].
    + apply INW in A1. destruct A1 as [t' [A1 ->]]. rewrite widen_sz in A3. exists t', x. rewrite isize_sz.
      split; [apply in_or_app; auto|auto].
Qed.

Theorem args_code (V : list (ityp * nat)) (hidden : bool) l ns ms st st' env m post :
  0 <= lvar_sz G <= peak st -> 0 <= rg m (lptr G) < 2 ^ 64 -> peak st' <= rg m (lptr G) ->
  (forall a, In a l -> uses V (sa_e a) /\ exists v, arg_value env a = Some v) ->
  parse_args (gc G) l = Ok ns -> prepare_funcall G hidden ns = Ok ms ->
  separate G sym (rg m) (V ++ arg_objects l ms) ->
  NoDup (map snd (arg_objects l ms)) ->
  (forall t x, In (t, x) (arg_objects l ms) ->
     addressable G sym x /\ known (gc G) x = None /\ ~ In x (map snd V) /\
     clear (obj_addr G sym (rg m) x) (isize t) (rg m (lptr G) - peak st') (rg m (lptr G) - lvar_sz G)) ->
  (forall a o, In a ms -> m_stk a = Some o -> loc G (m_x a) = VLoc SP o) ->
  held G sym (rg m) (mm m) (rg m (lptr G) - peak st') (rg m (lptr G) - lvar_sz G) V env ->
  gen_funcall_args G f hidden ms st = Ok st' ->
  fresh_labels (out st ++ post) (cnt st) (cnt st') ->
  exists m', steps sym (out st' ++ post) (length (out st), m) (length (out st'), m') /\
    (forall i a v, nth_error l i = Some a -> arg_value env a = Some v ->
       match arg_place hidden i with
       | InReg r => rg m' r mod 2 ^ result_bits (arg_type a) = v mod 2 ^ result_bits (arg_type a)
       | OnStack o => loadn (Z.to_nat (isize (arg_type a))) ((rg m SP + o) mod 2 ^ 64) (mm m') =
                      v mod 2 ^ (8 * isize (arg_type a))
       end) /\
    held G sym (rg m) (mm m') (rg m (lptr G) - peak st') (rg m (lptr G) - lvar_sz G) V env /\
    (forall r, saved r -> rg m' r = rg m r) /\
    (forall b, b < rg m (lptr G) - peak st' \/ rg m (lptr G) - lvar_sz G <= b ->
       ~ of_variable G sym (rg m) (V ++ arg_objects l ms) b -> mm m' b = mm m b).
Proof. intros. eapply proj2. eapply args_code_ext; eauto. Qed.
End Main.
