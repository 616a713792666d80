(** Main results about the integer code generator. *)
From Coq Require Import ZArith List Bool Lia.
From Verif Require Import Base BitLemmas IntSpec IntLemmas IntModel IntTyped IntProofs IntFold
  IntElab IntMain X86 CgModel CgSpec CgLemmas CgSeq CgSeq2 CgSeq3 CgInv CgTree CgGen.
Import ListNotations.
Local Open Scope Z_scope.

Lemma isize_sz t : isize t = sz (mty t). Proof. destruct t; reflexivity. Qed.
Lemma is_ty_mty t : is_ty (mty t). Proof. unfold is_ty. rewrite ity_mty. reflexivity. Qed.

Section Place.
Variable G : genv.
Variable sym env : nat -> Z.
Variable bs : reg -> Z.
Variable P : Z.
Variable mem0 : Z -> Z.
Hypothesis CO : cfg_ok (gc G).
Local Notation place := (place G sym env bs P mem0).
Local Notation stored := (stored G sym bs mem0 (bs (lptr G) - P) (bs (lptr G) - lvar_sz G) env).

Lemma stored_place e n : wf env e -> known_ok (known (gc G)) env e -> plain_casts e ->
  elab (gc G) e = Ok n -> stored e -> place n.
Proof.
  revert n. induction e; intros n W K C H S; cbn [wf known_ok plain_casts CgSpec.stored elab] in W, K, C, H, S.
  - injection H as <-. exact Logic.I.
  - injection H as <-. destruct S as [A [B D]]. unfold isize in *. split; [exact A|].
    rewrite <- !isize_sz. unfold tysize. rewrite <- isize_sz. split; [exact B|exact D].
  - injection H as <-. destruct S as [A [B [D [F E]]]]. split; [exact A|]. split; [exact B|].
    unfold tysize. rewrite <- isize_sz, ity_mty. split; [exact F|]. split; [|exact E].
    unfold bf_bad, bad_field in *. intros [X1 [X2 X3]]. apply D.
    destruct t; try discriminate X1; try discriminate X2; auto.
  - destruct o; bnd H; injection H as <-; cbn [CgInv.place];
      try (eapply int_promotion_place; eauto; fail).
    pose proof (er_wt _ _ _ _ (elab_ok _ env CO e W K C _ E)).
    split; [eapply cond_cast_boolish; eauto|eapply cond_cast_place; eauto].
  - destruct W as [W1 W2], K as [K1 K2], C as [C1 C2], S as [S1' S2']. bnd H. injection H as <-. destruct a1 as [p q].
    cbn [fst snd CgInv.place]. eapply usual_place; eauto.
  - destruct W as [W1 W2], K as [K1 K2], C as [C1 C2], S as [S1' S2']. bnd H. injection H as <-. cbn [CgInv.place].
    split; [eapply int_promotion_place; eauto|eauto].
  - destruct W as [W1 W2], K as [K1 K2], C as [C1 C2], S as [S1' S2']. bnd H. injection H as <-.
    assert (place a1 /\ place a0) by (split; [eapply int_promotion_place; eauto|eauto]).
    destruct (uns (nty a)); exact H.
  - destruct W as [W1 W2], K as [K1 K2], C as [C1 C2], S as [S1' S2']. bnd H. injection H as <-. destruct a1 as [p q].
    cbn [fst snd CgInv.place]. eapply usual_place; eauto.
  - destruct W as [W1 W2], K as [K1 K2], C as [C1 C2], S as [S1' S2']. bnd H. injection H as <-. cbn [CgInv.place].
    pose proof (er_wt _ _ _ _ (elab_ok _ env CO e1 W1 K1 C1 _ E)). pose proof (er_wt _ _ _ _ (elab_ok _ env CO e2 W2 K2 C2 _ E1)).
    split; [eapply cond_cast_boolish; [..|exact E0]; eauto|]. split; [eapply cond_cast_boolish; [..|exact E2]; eauto|].
    split; eapply cond_cast_place; eauto.
  - destruct W as [W1 W2], K as [K1 K2], C as [C1 C2], S as [S1' S2']. bnd H. injection H as <-. cbn [CgInv.place].
    pose proof (er_wt _ _ _ _ (elab_ok _ env CO e1 W1 K1 C1 _ E)). pose proof (er_wt _ _ _ _ (elab_ok _ env CO e2 W2 K2 C2 _ E1)).
    split; [eapply cond_cast_boolish; [..|exact E0]; eauto|]. split; [eapply cond_cast_boolish; [..|exact E2]; eauto|].
    split; eapply cond_cast_place; eauto.
  - destruct W as [W0 [W1 W2]], K as [K0 [K1 K2]], C as [C0 [C1 C2]], S as [S0' [S1' S2']]. bnd H. injection H as <-.
    destruct a3 as [p q]. cbn [fst snd CgInv.place].
    pose proof (er_wt _ _ _ _ (elab_ok _ env CO e1 W0 K0 C0 _ E)).
    split; [eapply cond_cast_boolish; eauto|]. split; [eapply cond_cast_place; eauto|]. eapply usual_place; eauto.
  - destruct W as [W1 W2], K as [K1 K2], C as [C1 C2], S as [S1' S2']. bnd H. injection H as <-. cbn [CgInv.place]. eauto.
  - destruct C as [C _]. bnd H. eapply new_cast_place; eauto.
Qed.
End Place.

(** ** Jumps out of a piece of code *)
Lemma run_steps_out sym code : forall pre post j m l m' k,
  NoDup (labels (pre ++ code ++ post)) ->
  run sym code j m = Some (Some l, m') -> find_label l (pre ++ code ++ post) = Some k ->
  match j with
  | None => steps sym (pre ++ code ++ post) (length pre, m) (k, m')
  | Some l' => exists k', find_label l' (pre ++ code ++ post) = Some k' /\
                steps sym (pre ++ code ++ post) (k', m) (k, m')
  end.
Proof.
  induction code as [|i code IH]; intros pre post j m l m' k ND R FL.
  - cbn [run] in R. injection R as -> ->. exists k. split; [exact FL|constructor].
  - assert (EP : pre ++ (i :: code) ++ post = (pre ++ [i]) ++ code ++ post) by (rewrite <- app_assoc; reflexivity).
    assert (LP : length (pre ++ [i]) = S (length pre)) by (rewrite app_length; cbn; lia).
    assert (NT : nth_error (pre ++ (i :: code) ++ post) (length pre) = Some i).
    { rewrite nth_error_app2, Nat.sub_diag by lia. reflexivity. }
    pose proof (fun j m => IH (pre ++ [i]) post j m l m' k ltac:(rewrite <- EP; exact ND)) as IH'.
    rewrite <- EP in IH'. clear IH.
    assert (EX : forall m1, step sym (pre ++ (i :: code) ++ post) (length pre, m) = Some (S (length pre), m1) ->
              run sym code None m1 = Some (Some l, m') ->
              steps sym (pre ++ (i :: code) ++ post) (length pre, m) (k, m')).
    { intros m1 S1 R1. econstructor; [exact S1|]. rewrite <- LP. apply (IH' None); auto. }
    assert (JM : forall l', run sym code (Some l') m = Some (Some l, m') -> exists k',
              find_label l' (pre ++ (i :: code) ++ post) = Some k' /\
              steps sym (pre ++ (i :: code) ++ post) (k', m) (k, m')).
    { intros l' R1. apply (IH' (Some l')); auto. }
    cbn [run] in R. destruct j as [l'|].
    + destruct i; try (apply JM; exact R).
      destruct (label_eqb l' l0) eqn:E; [|apply JM; exact R].
      apply label_eqb_eq in E. subst l0. exists (length pre). split.
      * rewrite find_label_app. rewrite find_label_notin.
        -- cbn [app find_label]. rewrite label_eqb_refl. f_equal. lia.
        -- rewrite !labels_app in ND. intros IN. unfold labels in ND at 2. cbn [flat_map lab_of app] in ND.
           apply NoDup_remove_2 in ND. apply ND. apply in_or_app. left. exact IN.
      * apply (EX m); [|exact R]. unfold step. rewrite NT. reflexivity.
    + destruct i; try (match type of R with context [exec1 sym ?i m] =>
        destruct (exec1 sym i m) as [m1|] eqn:E; [|discriminate]; apply (EX m1); [|exact R];
        unfold step; rewrite NT, E; reflexivity end).
      * destruct (JM l0 R) as [k' [F S]]. econstructor; [|exact S]. unfold step. rewrite NT, F. reflexivity.
      * destruct (fl m) as [f|] eqn:F; [|discriminate]. destruct (cond_holds c f) eqn:CH.
        -- destruct (JM l0 R) as [k' [FL' S]]. econstructor; [|exact S]. unfold step. rewrite NT, F, CH, FL'. reflexivity.
        -- apply (EX m); [|exact R]. unfold step. rewrite NT, F, CH. reflexivity.
      * apply (EX m); [|exact R]. unfold step. rewrite NT. reflexivity.
Qed.

(** ** From the invariants to the program counter *)
Lemma lok_fresh pre code post lo hi : lok lo hi code -> fresh_labels (pre ++ post) lo hi ->
  NoDup (labels (pre ++ code ++ post)).
Proof.
  intros [A B] [C D]. rewrite labels_app in C, D. rewrite !labels_app.
  assert (X : forall l, In l (labels code) -> ~ In l (labels pre ++ labels post)).
  { intros l I1 I2. apply B in I1. apply D in I2. lia. }
  revert C X. generalize (labels pre), (labels post), (labels code), A. clear. intros p q c A C X.
  induction p as [|x p IH]; cbn [app] in *.
  - apply NoDup_app_intro; auto.
  - inversion C; subst. constructor.
    + intros I1. apply in_app_iff in I1. destruct I1 as [I1|I1]; [apply H1; apply in_app_iff; auto|].
      apply in_app_iff in I1. destruct I1 as [I1|I1]; [apply (X x I1); left; reflexivity|apply H1; apply in_app_iff; auto].
    + apply IH; auto. intros l I1 I2. apply (X l I1). right. exact I2.
Qed.

(** What a piece of code may not change. *)
Definition kept (G : genv) (hi : Z) (m m' : mach) : Prop :=
  (forall r, saved r -> rg m' r = rg m r) /\
  (forall a, a < rg m (lptr G) - hi \/ rg m (lptr G) - lvar_sz G <= a -> mm m' a = mm m a).

Lemma keep_kept G st st' code g s m m' : ext G st st' code g s -> lvar_sz G <= peak st ->
  keep G (rg m) st st' g s m m' -> kept G (peak st') m m'.
Proof.
  intros E L [A B C]. pose proof (ex_pk _ _ _ _ _ _ E). split.
  - exact A.
  - intros a Ha. apply C. unfold zhi, zlo, lpv. destruct (reuse G) eqn:RU; [|lia].
    destruct (ex_st _ _ _ _ _ _ E RU) as [-> | ?]; lia.
Qed.

Section Main.
Variable G : genv.
Variable sym env : nat -> Z.
Variable e : exp.
Variable n : node.
Variable f : nat.
Variable st st' : gst.
Variable m : mach.
Hypothesis CO : forall a b, same (gc G) a b = true -> a = b.
Hypothesis W : wf env e.
Hypothesis K : known_ok (known (gc G)) env e.
Hypothesis C : plain_casts e.
Hypothesis E : elab (gc G) e = Ok n.
Hypothesis FS : saved (lptr G).
Hypothesis FL : 0 <= lvar_sz G <= peak st.
Hypothesis FP : peak st' <= rg m (lptr G) < 2 ^ 64.
Hypothesis S : stored G sym (rg m) (mm m) (rg m (lptr G) - peak st') (rg m (lptr G) - lvar_sz G) env e.

Lemma frame : peak st <= peak st' -> frame_ok G (rg m) (peak st').
Proof. intros. unfold frame_ok, lpv. split; [exact FS|]. lia. Qed.

Lemma pre_main v : peak st <= peak st' -> ceval env e = Some v -> pre G sym env (rg m) (peak st') (mm m) n v.
Proof.
  intros L V. pose proof (elab_ok _ env CO e W K C n E) as R. split.
  - constructor; [apply (er_wt _ _ _ _ R)|apply (er_v _ _ _ _ R)|apply (er_k _ _ _ _ R)|].
    eapply stored_place; eauto.
  - apply (er_ev _ _ _ _ R). exact V.
Qed.

Lemma good0 : good G (rg m) (peak st') (mm m) m.
Proof. split; auto. Qed.

Lemma gen_peak k md : gen G f md k st = Ok st' -> match md with MCond _ l => snd l < cnt st | _ => True end ->
  peak st <= peak st'.
Proof.
  (* the shape of the output does not depend on the machine: use a frame that always fits *)
  intros H HL. set (bs := fun _ : reg => 0).
  assert (F0 : frame_ok G bs (- 1)) by (unfold frame_ok, lpv, bs; repeat split; try lia; exact FS).
  pose proof (gen_ok G sym env bs (-1) (mm m) F0 CO f md k st st' H) as MS. destruct md; cbn [mspec] in MS;
  [| |specialize (MS HL)]; destruct MS as [c [g [s [X _]]]]; apply (ex_pk _ _ _ _ _ _ X).
Qed.

Theorem expr_code v post : gen G f MExpr n st = Ok st' -> ceval env e = Some v ->
  fresh_labels (out st ++ post) (cnt st) (cnt st') ->
  exists m', steps sym (out st' ++ post) (length (out st), m) (length (out st'), m') /\
    rg m' AX mod 2 ^ result_bits (ctype e) = v mod 2 ^ result_bits (ctype e) /\
    kept G (peak st') m m'.
Proof.
  intros H V FR. pose proof (gen_peak n MExpr H Logic.I) as PK. pose proof (frame PK) as F.
  destruct (gen_ok G sym env (rg m) (peak st') (mm m) F CO f MExpr n st st' H) as [c [g [s [X SM]]]].
  destruct (SM (Z.le_refl _) ltac:(lia) v (pre_main v PK V) m good0) as [j [m' [R [KP [-> Q]]]]].
  exists m'. rewrite (ex_out _ _ _ _ _ _ X). rewrite <- app_assoc. split; [|split].
  - apply (run_steps sym c (out st) post None m m'); [|exact R]. eapply lok_fresh; [apply (ex_lok _ _ _ _ _ _ X)|exact FR].
  - pose proof (er_ty _ _ _ _ (elab_ok _ env CO e W K C n E)) as TY.
    assert (LE : 0 <= result_bits (ctype e) <= wbits n).
    { unfold wbits. rewrite TY. unfold result_bits. destruct (ctype e); cbn [mty sz]; destruct (boolish n); cbn; lia. }
    apply (eqm_le _ _ _ _ LE Q).
  - eapply keep_kept; eauto. lia.
Qed.

(** A condition: the operand of if, while, &&, ?: after conversion to boolean. *)
Theorem cond_code (jc : bool) l v k post : cond_cast (gc G) n = Ok k ->
  gen G f (MCond jc l) k st = Ok st' -> snd l < cnt st -> ceval env e = Some v ->
  fresh_labels (out st ++ post) (cnt st) (cnt st') ->
  forall t, find_label l (out st' ++ post) = Some t ->
  exists m', steps sym (out st' ++ post) (length (out st), m)
      (if Bool.eqb (negb (v =? 0)) jc then t else length (out st'), m') /\
    kept G (peak st') m m'.
Proof.
  intros CC H HL V FR t FK. pose proof (gen_peak k (MCond jc l) H HL) as PK. pose proof (frame PK) as F.
  destruct (gen_ok G sym env (rg m) (peak st') (mm m) F CO f (MCond jc l) k st st' H HL) as [c [g [s [X SM]]]].
  destruct (pre_main v PK V) as [[Wn Vn Kn Ln] Tn].
  pose proof (cond_cast_boolish G CO n k Wn CC) as BN.
  destruct (cond_cast_ok (gc G) n k CO Wn CC) as [Wk ? EV]. destruct (EV env Vn Kn) as [Vk [Kk TV]].
  destruct (TV v Tn) as [w [Tw NZ]].
  assert (PR : pre G sym env (rg m) (peak st') (mm m) k w).
  { split; [|exact Tw]. constructor; auto. eapply cond_cast_place; eauto. }
  destruct (SM (Z.le_refl _) ltac:(lia) w (conj PR BN) m good0) as [j [m' [R [KP ->]]]].
  exists m'. split; [|eapply keep_kept; eauto; lia].
  assert (ND : NoDup (labels (out st ++ c ++ post))) by (eapply lok_fresh; [apply (ex_lok _ _ _ _ _ _ X)|exact FR]).
  rewrite (ex_out _ _ _ _ _ _ X) in FK |- *. rewrite <- app_assoc in FK |- *.
  replace (v =? 0) with (w =? 0) by exact NZ.
  destruct (Bool.eqb (negb (w =? 0)) jc).
  - apply (run_steps_out sym c (out st) post None m l m' t ND R FK).
  - apply (run_steps sym c (out st) post None m m' ND R).
Qed.
End Main.
