(** Main results about the integer front end. *)
From Coq Require Import ZArith List Bool Lia.
From Verif Require Import Base BitLemmas IntSpec IntLemmas IntModel IntTyped IntProofs IntFold IntElab.
Local Open Scope Z_scope.

(** Values of bit-field designators are in the range of the field. *)
Lemma bf_value env n w : wtn n -> venv env n -> is_bitfield2 n = Some w ->
  forall v, teval env n = Some v -> fmin (ity (nty n)) w <= v <= fmax (ity (nty n)) w.
Proof.
  induction n; cbn [is_bitfield2 wtn venv nty teval]; intros W E H r T; try discriminate.
  - injection H as <-. injection T as <-. auto.
  - destruct W as [<- [_ W]]. destruct E. destruct (teval env n1); [|discriminate]. auto.
Qed.

(** Promotions preserve the value. *)
Lemma promote_value env n : wtn n -> venv env n -> forall v, teval env n = Some v ->
  in_range (promoted_m (is_bitfield2 n) (ity (nty n))) v.
Proof.
  intros W E v T. pose proof (teval_range env n W E v T) as R.
  destruct (is_bitfield2 n) as [w|] eqn:B; cbn [promoted_m].
  - pose proof (bf_value env n w W E B v T) as F. unfold promote_field.
    destruct ((imin TInt <=? fmin (ity (nty n)) w) && (fmax (ity (nty n)) w <=? imax TInt)) eqn:Q1.
    + rewrite andb_true_iff, !Z.leb_le in Q1. unfold in_range. lia.
    + destruct ((imin TUInt <=? fmin (ity (nty n)) w) && (fmax (ity (nty n)) w <=? imax TUInt)) eqn:Q2; auto.
      rewrite andb_true_iff, !Z.leb_le in Q2. unfold in_range. lia.
  - destruct (ity (nty n)); auto; eapply in_range_sub; eauto; reflexivity.
Qed.

Record elab_rel (c : cfg) (e : exp) (n : node) (env : nat -> Z) : Prop := {
  er_wt : wtn n;
  er_ty : nty n = mty (ctype e);
  er_bf : is_bitfield2 n = field_width e;
  er_v : venv env n;
  er_k : kenv c env n;
  er_cl : constant (known c) e -> nclosed c n;
  er_ev : forall v, ceval env e = Some v -> teval env n = Some v
}.

Lemma er_promoted c e n env : elab_rel c e n env ->
  promoted_m (is_bitfield2 n) (ity (nty n)) = promoted e (ctype e).
Proof. intros []. rewrite er_ty0, er_bf0, ity_mty. reflexivity. Qed.

Lemma max8 t : Z.max 8 (iwidth t) = 8 * sz (mty t).
Proof. destruct t; reflexivity. Qed.

Lemma field_of_plain e n : is_bitfield n = false -> is_bitfield2 n = field_width e ->
  match e with EComma _ _ => field_width e = None | _ => True end ->
  (forall t w o x, e = EField t w o x -> is_bitfield n = true) -> field_width e = None.
Proof. intros B F P Q. destruct e; auto. rewrite (Q _ _ _ _ eq_refl) in B. discriminate. Qed.

Theorem elab_ok c env : cfg_ok c -> forall e, wf env e -> known_ok (known c) env e -> plain_casts e ->
  forall n, elab c e = Ok n -> elab_rel c e n env.
Proof.
  intros C. induction e; intros W K P m H; cbn [wf known_ok plain_casts] in W, K, P.
  - (* ENum *) cbn in H. injection H as <-. unfold i64. rewrite sext64_rep.
    constructor; cbn [wtn nty is_bitfield2 field_width venv kenv ctype constant nclosed]; auto.
    + split; auto. rewrite ity_mty, conv_rep64_id by auto. reflexivity.
    + cbn. intros v [= <-]. rewrite ity_mty, conv_rep64_id by auto. reflexivity.
  - (* EVar *) cbn in H. injection H as <-.
    constructor; cbn [wtn nty is_bitfield2 field_width venv kenv ctype constant nclosed ceval teval];
      auto; rewrite ?ity_mty; auto.
    intros raw R. rewrite <- max8. destruct (K raw R) as [A [B D]]. repeat split; auto; try tauto.
    intros Q. apply D. destruct t; try discriminate; reflexivity.
  - (* EField *) cbn in H. injection H as <-. destruct W as [W1 [W2 [W3 W4]]].
    constructor; cbn [wtn nty is_bitfield2 field_width venv kenv ctype constant nclosed ceval teval];
      auto; rewrite ?ity_mty, <- ?max8; auto.
  - (* EUn *) destruct o; cbn [elab] in H; bnd H; injection H as <-;
    specialize (IHe W K P _ eq_refl); pose proof (er_promoted _ _ _ _ IHe) as PR; destruct IHe.
    1-3: pose proof (int_promotion_ok c a a0 C er_wt0 E0) as IP; rewrite PR in IP; cbv zeta in IP;
         destruct IP as [W' [T' [C' V']]]; destruct (V' env er_v0 er_k0) as [V [K' EV]].
    1-3: assert (AT : arith_ty (mty (promoted e (ctype e)))) by
           (rewrite <- PR; apply big_arith, promoted_big; intros; apply bf_width; auto).
    1-3: constructor; cbn [wtn nty is_bitfield2 field_width venv kenv ctype constant nclosed];
         auto; try (rewrite T'; auto; fail).
    + cbn [ceval teval]. intros v. destruct (ceval env e) as [x|] eqn:Q; [|discriminate].
      intros [= <-]. apply EV. auto.
    + cbn [ceval teval]. intros v. destruct (ceval env e) as [x|] eqn:Q; [|discriminate].
      intros R. rewrite (EV _ (er_ev0 _ eq_refl)), T', ity_mty. exact R.
    + cbn [ceval teval]. intros v. destruct (ceval env e) as [x|] eqn:Q; [|discriminate].
      intros R. rewrite (EV _ (er_ev0 _ eq_refl)), T', ity_mty. exact R.
    + apply cond_cast_ok in E0; auto. destruct E0 as [dr_wt0 dr_cl0 dr_ev0]. destruct (dr_ev0 env er_v0 er_k0) as [V [K' EV]].
      constructor; cbn [wtn nty is_bitfield2 field_width venv kenv ctype constant nclosed]; auto.
      cbn [ceval teval]. intros v. destruct (ceval env e) as [x|] eqn:Q; [|discriminate].
      intros [= <-]. destruct (EV _ (er_ev0 _ eq_refl)) as [w [-> ->]]. reflexivity.
  - (* EBin *) cbn [elab] in H. bnd H. injection H as <-. destruct W as [W1 W2]. destruct K as [K1 K2].
    destruct P as [P1 P2]. specialize (IHe1 W1 K1 P1 _ eq_refl). specialize (IHe2 W2 K2 P2 _ eq_refl).
    pose proof (er_promoted _ _ _ _ IHe1) as PR1. pose proof (er_promoted _ _ _ _ IHe2) as PR2.
    destruct IHe1, IHe2. destruct a1 as [l r]. cbn [fst snd].
    pose proof (promote_value env a er_wt0 er_v0) as PV1. pose proof (promote_value env a0 er_wt1 er_v1) as PV2.
    pose proof (usual_arith_conv_ok c a a0 l r C er_wt0 er_wt1 E1) as U.
    rewrite PR1, PR2 in *. cbv zeta in U. set (u := usual (promoted e1 (ctype e1)) (promoted e2 (ctype e2))) in *.
    destruct U as [Wl [Wr [Tl [Tr [Ru [Cl [Cr [Vl Vr]]]]]]]].
    destruct (Vl env er_v0 er_k0) as [Vl1 [Kl EVl]]. destruct (Vr env er_v1 er_k1) as [Vr1 [Kr EVr]].
    constructor; cbn [wtn nty is_bitfield2 field_width venv kenv ctype constant nclosed]; fold u; auto.
    + rewrite Tl, Tr. pose proof (big_arith u Ru). auto.
    + tauto.
    + cbn [ceval teval]. fold u. intros v. destruct (ceval env e1) as [x|]; [|discriminate].
      destruct (ceval env e2) as [y|]; [|discriminate]. intros R.
      specialize (er_ev0 _ eq_refl). specialize (er_ev1 _ eq_refl).
      rewrite (EVl _ er_ev0), (EVr _ er_ev1). cbn [opt2]. rewrite Tl, ity_mty.
      rewrite (conv_id _ x (PV1 _ er_ev0)), (conv_id _ y (PV2 _ er_ev1)). exact R.
  - (* EShl *) cbn [elab] in H. bnd H. injection H as <-. destruct W as [W1 W2]. destruct K as [K1 K2].
    destruct P as [P1 P2]. specialize (IHe1 W1 K1 P1 _ eq_refl). specialize (IHe2 W2 K2 P2 _ eq_refl).
    pose proof (er_promoted _ _ _ _ IHe1) as PR1. destruct IHe1, IHe2.
    pose proof (int_promotion_ok c a a1 C er_wt0 E1) as IP. rewrite PR1 in IP. cbv zeta in IP.
    destruct IP as [W' [T' [C' V']]]. destruct (V' env er_v0 er_k0) as [V [K' EV]].
    assert (AT : arith_ty (mty (promoted e1 (ctype e1)))) by
      (rewrite <- PR1; apply big_arith, promoted_big; intros; apply bf_width; auto).
    constructor; cbn [wtn nty is_bitfield2 field_width venv kenv ctype constant nclosed]; auto.
    + rewrite T'. auto.
    + tauto.
    + cbn [ceval teval]. intros v. destruct (ceval env e1) as [x|]; [|discriminate].
      destruct (ceval env e2) as [y|]; [|discriminate]. intros R.
      rewrite (EV _ (er_ev0 _ eq_refl)), (er_ev1 _ eq_refl), T', ity_mty. exact R.
  - (* EShr *) cbn [elab] in H. bnd H. injection H as <-. destruct W as [W1 W2]. destruct K as [K1 K2].
    destruct P as [P1 P2]. specialize (IHe1 W1 K1 P1 _ eq_refl). specialize (IHe2 W2 K2 P2 _ eq_refl).
    pose proof (er_promoted _ _ _ _ IHe1) as PR1. destruct IHe1, IHe2.
    pose proof (int_promotion_ok c a a1 C er_wt0 E1) as IP. rewrite PR1 in IP. cbv zeta in IP.
    destruct IP as [W' [T' [C' V']]]. destruct (V' env er_v0 er_k0) as [V [K' EV]].
    assert (AT : arith_ty (mty (promoted e1 (ctype e1)))) by
      (rewrite <- PR1; apply big_arith, promoted_big; intros; apply bf_width; auto).
    pose proof (promote_value env a er_wt0 er_v0) as PV. rewrite PR1 in PV.
    pose proof (teval_range env a er_wt0 er_v0) as RG.
    destruct (uns (nty a)) eqn:UA;
    constructor; cbn [wtn nty is_bitfield2 field_width venv kenv ctype constant nclosed]; auto.
    + rewrite T'. auto.
    + tauto.
    + cbn [ceval teval]. intros v. destruct (ceval env e1) as [x|]; [|discriminate].
      destruct (ceval env e2) as [y|]; [|discriminate]. intros R. specialize (er_ev0 _ eq_refl).
      rewrite (EV _ er_ev0), (er_ev1 _ eq_refl), T', ity_mty. cbn [opt2].
      specialize (RG _ er_ev0). rewrite er_ty0, ity_mty in RG. rewrite er_ty0 in UA.
      rewrite (conv_id _ x (PV _ er_ev0)) in *.
      destruct (Z.ltb_spec x 0); [|exact R].
      apply in_range_nb in RG. destruct (ctype e1); cbn in UA, RG; try discriminate; lia.
    + rewrite T'. repeat split; try apply AT; auto.
      rewrite er_ty0 in UA. rewrite <- PR1, er_ty0, ity_mty.
      destruct (is_bitfield2 a) as [w|] eqn:BF; cbn [promoted_m].
      * pose proof (bf_width a w er_wt0 BF) as BW. rewrite er_ty0, ity_mty in BW.
        rewrite promote_field_spec by auto.
        assert (SG : isigned (ctype e1) = true) by (destruct (ctype e1); cbn in UA; try discriminate; reflexivity).
        rewrite SG. cbn [negb]. rewrite andb_false_r. destruct (w <=? 32); [reflexivity|exact UA].
      * destruct (ctype e1); cbn in UA; try discriminate; reflexivity.
    + tauto.
    + cbn [ceval teval]. intros v. destruct (ceval env e1) as [x|]; [|discriminate].
      destruct (ceval env e2) as [y|]; [|discriminate]. intros R.
      rewrite (EV _ (er_ev0 _ eq_refl)), (er_ev1 _ eq_refl), T', ity_mty. exact R.
  - (* ECmp *) cbn [elab] in H. bnd H. injection H as <-. destruct W as [W1 W2]. destruct K as [K1 K2].
    destruct P as [P1 P2]. specialize (IHe1 W1 K1 P1 _ eq_refl). specialize (IHe2 W2 K2 P2 _ eq_refl).
    pose proof (er_promoted _ _ _ _ IHe1) as PR1. pose proof (er_promoted _ _ _ _ IHe2) as PR2.
    destruct IHe1, IHe2. destruct a1 as [l r]. cbn [fst snd].
    pose proof (promote_value env a er_wt0 er_v0) as PV1. pose proof (promote_value env a0 er_wt1 er_v1) as PV2.
    pose proof (usual_arith_conv_ok c a a0 l r C er_wt0 er_wt1 E1) as U.
    rewrite PR1, PR2 in *. cbv zeta in U. set (u := usual (promoted e1 (ctype e1)) (promoted e2 (ctype e2))) in *.
    destruct U as [Wl [Wr [Tl [Tr [Ru [Cl [Cr [Vl Vr]]]]]]]].
    destruct (Vl env er_v0 er_k0) as [Vl1 [Kl EVl]]. destruct (Vr env er_v1 er_k1) as [Vr1 [Kr EVr]].
    constructor; cbn [wtn nty is_bitfield2 field_width venv kenv ctype constant nclosed]; fold u; auto.
    + rewrite Tl, Tr. pose proof (big_arith u Ru). auto.
    + tauto.
    + cbn [ceval teval]. fold u. intros v. destruct (ceval env e1) as [x|]; [|discriminate].
      destruct (ceval env e2) as [y|]; [|discriminate]. intros R.
      specialize (er_ev0 _ eq_refl). specialize (er_ev1 _ eq_refl).
      rewrite (EVl _ er_ev0), (EVr _ er_ev1). cbn [opt2].
      rewrite (conv_id _ x (PV1 _ er_ev0)), (conv_id _ y (PV2 _ er_ev1)). exact R.
  - (* ELAnd *) cbn [elab] in H. bnd H. injection H as <-. destruct W as [W1 W2]. destruct K as [K1 K2].
    destruct P as [P1 P2]. specialize (IHe1 W1 K1 P1 _ eq_refl). specialize (IHe2 W2 K2 P2 _ eq_refl).
    destruct IHe1, IHe2. apply cond_cast_ok in E0; auto. apply cond_cast_ok in E2; auto.
    destruct E0 as [dr_wt0 dr_cl0 dr_ev0], E2 as [dr_wt1 dr_cl1 dr_ev1]. destruct (dr_ev0 env er_v0 er_k0) as [V0 [K0 EV0]]. destruct (dr_ev1 env er_v1 er_k1) as [V1 [K1' EV1]].
    constructor; cbn [wtn nty is_bitfield2 field_width venv kenv ctype constant nclosed]; auto.
    + tauto.
    + cbn [ceval teval]. intros v. destruct (ceval env e1) as [x|]; [|discriminate].
      destruct (EV0 _ (er_ev0 _ eq_refl)) as [w [-> ->]]. destruct (x =? 0); auto.
      destruct (ceval env e2) as [y|]; [|discriminate].
      destruct (EV1 _ (er_ev1 _ eq_refl)) as [w' [-> ->]]. auto.
  - (* ELOr *) cbn [elab] in H. bnd H. injection H as <-. destruct W as [W1 W2]. destruct K as [K1 K2].
    destruct P as [P1 P2]. specialize (IHe1 W1 K1 P1 _ eq_refl). specialize (IHe2 W2 K2 P2 _ eq_refl).
    destruct IHe1, IHe2. apply cond_cast_ok in E0; auto. apply cond_cast_ok in E2; auto.
    destruct E0 as [dr_wt0 dr_cl0 dr_ev0], E2 as [dr_wt1 dr_cl1 dr_ev1]. destruct (dr_ev0 env er_v0 er_k0) as [V0 [K0 EV0]]. destruct (dr_ev1 env er_v1 er_k1) as [V1 [K1' EV1]].
    constructor; cbn [wtn nty is_bitfield2 field_width venv kenv ctype constant nclosed]; auto.
    + tauto.
    + cbn [ceval teval]. intros v. destruct (ceval env e1) as [x|]; [|discriminate].
      destruct (EV0 _ (er_ev0 _ eq_refl)) as [w [-> ->]]. destruct (x =? 0); cbn [negb]; auto.
      destruct (ceval env e2) as [y|]; [|discriminate].
      destruct (EV1 _ (er_ev1 _ eq_refl)) as [w' [-> ->]]. auto.
  - (* ECond *) cbn [elab] in H. bnd H. injection H as <-. destruct W as [W0 [W1 W2]]. destruct K as [K0 [K1 K2]].
    destruct P as [P0 [P1 P2]]. specialize (IHe1 W0 K0 P0 _ eq_refl).
    specialize (IHe2 W1 K1 P1 _ eq_refl). specialize (IHe3 W2 K2 P2 _ eq_refl).
    pose proof (er_promoted _ _ _ _ IHe2) as PR1. pose proof (er_promoted _ _ _ _ IHe3) as PR2.
    destruct IHe1, IHe2, IHe3. destruct a3 as [l r]. cbn [fst snd].
    apply cond_cast_ok in E0; auto. destruct E0 as [dr_wt0 dr_cl0 dr_ev0]. destruct (dr_ev0 env er_v0 er_k0) as [V0 [K0' EV0]].
    pose proof (promote_value env a1 er_wt1 er_v1) as PV1. pose proof (promote_value env a2 er_wt2 er_v2) as PV2.
    pose proof (usual_arith_conv_ok c a1 a2 l r C er_wt1 er_wt2 E3) as U.
    rewrite PR1, PR2 in *. cbv zeta in U. set (u := usual (promoted e2 (ctype e2)) (promoted e3 (ctype e3))) in *.
    destruct U as [Wl [Wr [Tl [Tr [Ru [Cl [Cr [Vl Vr]]]]]]]].
    destruct (Vl env er_v1 er_k1) as [Vl1 [Kl EVl]]. destruct (Vr env er_v2 er_k2) as [Vr1 [Kr EVr]].
    constructor; cbn [wtn nty is_bitfield2 field_width venv kenv ctype constant nclosed]; fold u; auto.
    + rewrite Tl, Tr. pose proof (big_arith u Ru) as [? ?]. repeat split; auto.
    + tauto.
    + cbn [ceval teval]. fold u. intros v. destruct (ceval env e1) as [x|]; [|discriminate].
      destruct (EV0 _ (er_ev0 _ eq_refl)) as [w [-> ->]]. destruct (x =? 0).
      * destruct (ceval env e3) as [y|]; [|discriminate]. intros [= <-]. specialize (er_ev2 _ eq_refl).
        rewrite (EVr _ er_ev2), (conv_id _ y (PV2 _ er_ev2)). reflexivity.
      * destruct (ceval env e2) as [y|]; [|discriminate]. intros [= <-]. specialize (er_ev1 _ eq_refl).
        rewrite (EVl _ er_ev1), (conv_id _ y (PV1 _ er_ev1)). reflexivity.
  - (* EComma *) cbn [elab] in H. bnd H. injection H as <-. destruct W as [W1 W2]. destruct K as [K1 K2].
    destruct P as [P1 P2]. specialize (IHe1 W1 K1 P1 _ eq_refl). specialize (IHe2 W2 K2 P2 _ eq_refl).
    destruct IHe1, IHe2.
    constructor; cbn [wtn nty is_bitfield2 field_width venv kenv ctype constant nclosed]; auto.
    + tauto.
    + cbn [ceval teval]. intros v. destruct (ceval env e1) as [x|]; [|discriminate].
      intros R. rewrite (er_ev0 _ eq_refl). auto.
  - (* ECast *) cbn [elab] in H. bnd H. destruct P as [P Q]. specialize (IHe W K P _ eq_refl).
    destruct IHe. apply new_cast_ok in H; auto. destruct H as [cr_wt0 cr_ty0 cr_cl0 cr_bf0 cr_ev0]. destruct (cr_ev0 env er_v0 er_k0) as [V [K' EV]].
    constructor; cbn [field_width ctype constant]; auto.
    + destruct cr_bf0 as [B|[-> [B _]]]; [exact B|]. rewrite er_bf0.
      eapply field_of_plain; eauto. intros t' w' o' x' ->. cbn in E. injection E as <-. reflexivity.
    + cbn [ceval]. intros v. destruct (ceval env e) as [x|]; [|discriminate]. intros [= <-].
      rewrite (EV _ (er_ev0 _ eq_refl)), ity_mty. reflexivity.
Qed.

(** ** With wrapping host arithmetic the front end always succeeds. *)
Lemma h64_lax c z : strict c = false -> h64 c z <> UB.
Proof. unfold h64. intros ->. destruct (_ && _); discriminate. Qed.
Lemma h_shl_lax c x n : strict c = false -> h_shl c x n <> UB.
Proof. unfold h_shl. intros ->. destruct (_ && _); discriminate. Qed.
Lemma h_shr_lax c w x n : strict c = false -> h_shr c w x n <> UB.
Proof. unfold h_shr. intros ->. destruct (_ && _); discriminate. Qed.

Ltac lax :=
  repeat first
  [ discriminate
  | assumption
  | match goal with
    | H : eval2 ?c ?n <> UB |- context [bind (eval2 ?c ?n) _] =>
        destruct (eval2 c n); [cbn [bind]|congruence|discriminate]
    | S : strict ?c = false |- context [bind (h64 ?c ?z) _] =>
        pose proof (h64_lax c z S); destruct (h64 c z); [cbn [bind]|congruence|discriminate]
    | S : strict ?c = false |- context [bind (h_shl ?c ?z ?m) _] =>
        pose proof (h_shl_lax c z m S); destruct (h_shl c z m); [cbn [bind]|congruence|discriminate]
    | S : strict ?c = false |- context [bind (h_shr ?c ?w ?z ?m) _] =>
        pose proof (h_shr_lax c w z m S); destruct (h_shr c w z m); [cbn [bind]|congruence|discriminate]
    | |- h_shr _ _ _ _ <> UB => apply h_shr_lax
    | |- context [if ?b then _ else _] => destruct b
    end ].

Lemma eval2_lax c n : strict c = false -> eval2 c n <> UB.
Proof.
  intros S. induction n; cbn [eval2]; try (lax; fail).
  - destruct (known c x); discriminate.
  - destruct (known c x); [|discriminate]. lax.
  - destruct o; lax.
Qed.

Lemma new_cast_lax c n t : strict c = false -> exists n', new_cast c n t = Ok n'.
Proof.
  intros S. unfold new_cast. destruct (opt c); [|eauto].
  pose proof (eval2_lax c (NCast t n) S). destruct (eval2 c (NCast t n)); [eauto|congruence|].
  destruct (_ && _); [eauto|]. destruct (is_redundant_cast n t); eauto.
Qed.

Lemma cond_cast_lax c n : strict c = false -> exists n', cond_cast c n = Ok n'.
Proof. intros S. destruct n; cbn [cond_cast]; eauto using new_cast_lax. Qed.

Lemma int_promotion_lax c n : strict c = false -> wtn n -> exists n', int_promotion c n = Ok n'.
Proof.
  intros S W. unfold int_promotion. destruct (is_bitfield2 n).
  - destruct (_ && _); [eauto using new_cast_lax|]. destruct (_ <=? _); eauto using new_cast_lax.
  - destruct (is_ty_inv _ (wtn_is_ty n W)) as [i [-> _]].
    destruct i; cbn; eauto using new_cast_lax.
Qed.

Lemma usual_arith_conv_lax c a b : cfg_ok c -> strict c = false -> wtn a -> wtn b ->
  exists p, usual_arith_conv c a b = Ok p.
Proof.
  intros C S Wa Wb. unfold usual_arith_conv.
  destruct (int_promotion_lax c a S Wa) as [a1 Ha]. destruct (int_promotion_lax c b S Wb) as [b1 Hb].
  rewrite Ha, Hb. cbn [bind].
  destruct (int_promotion_ok c a a1 C Wa Ha) as [_ [Ta _]].
  destruct (int_promotion_ok c b b1 C Wb Hb) as [_ [Tb _]].
  rewrite Ta, Tb, common_type_ok by (apply promoted_big; intros; apply bf_width; auto). cbn [bind].
  match goal with |- context [new_cast c a1 ?t] => destruct (new_cast_lax c a1 t S) as [a2 ->] end. cbn [bind].
  match goal with |- context [new_cast c b1 ?t] => destruct (new_cast_lax c b1 t S) as [b2 ->] end. cbn [bind].
  eauto.
Qed.

Theorem elab_total c env e : cfg_ok c -> strict c = false ->
  wf env e -> known_ok (known c) env e -> plain_casts e -> exists n, elab c e = Ok n.
Proof.
  intros C S. induction e; intros W K P; cbn [wf known_ok plain_casts] in W, K, P; cbn [elab]; eauto.
  - destruct (IHe W K P) as [n Hn]. rewrite Hn. cbn [bind].
    pose proof (er_wt _ _ _ _ (elab_ok c env C e W K P n Hn)) as Wn.
    destruct o.
    1-3: destruct (int_promotion_lax c n S Wn) as [k ->]; cbn [bind]; eauto.
    destruct (cond_cast_lax c n S) as [k ->]; cbn [bind]; eauto.
  - destruct W as [W1 W2], K as [K1 K2], P as [P1 P2]. destruct (IHe1 W1 K1 P1) as [a Ha], (IHe2 W2 K2 P2) as [b Hb].
    rewrite Ha, Hb. cbn [bind].
    destruct (usual_arith_conv_lax c a b C S (er_wt _ _ _ _ (elab_ok c env C e1 W1 K1 P1 a Ha))
      (er_wt _ _ _ _ (elab_ok c env C e2 W2 K2 P2 b Hb))) as [p ->]. cbn [bind]. eauto.
  - destruct W as [W1 W2], K as [K1 K2], P as [P1 P2]. destruct (IHe1 W1 K1 P1) as [a Ha], (IHe2 W2 K2 P2) as [b Hb].
    rewrite Ha, Hb. cbn [bind].
    destruct (int_promotion_lax c a S (er_wt _ _ _ _ (elab_ok c env C e1 W1 K1 P1 a Ha))) as [p ->]. cbn [bind]. eauto.
  - destruct W as [W1 W2], K as [K1 K2], P as [P1 P2]. destruct (IHe1 W1 K1 P1) as [a Ha], (IHe2 W2 K2 P2) as [b Hb].
    rewrite Ha, Hb. cbn [bind].
    destruct (int_promotion_lax c a S (er_wt _ _ _ _ (elab_ok c env C e1 W1 K1 P1 a Ha))) as [p ->]. cbn [bind]. eauto.
  - destruct W as [W1 W2], K as [K1 K2], P as [P1 P2]. destruct (IHe1 W1 K1 P1) as [a Ha], (IHe2 W2 K2 P2) as [b Hb].
    rewrite Ha, Hb. cbn [bind].
    destruct (usual_arith_conv_lax c a b C S (er_wt _ _ _ _ (elab_ok c env C e1 W1 K1 P1 a Ha))
      (er_wt _ _ _ _ (elab_ok c env C e2 W2 K2 P2 b Hb))) as [p ->]. cbn [bind]. eauto.
  - destruct W as [W1 W2], K as [K1 K2], P as [P1 P2]. destruct (IHe1 W1 K1 P1) as [a Ha], (IHe2 W2 K2 P2) as [b Hb].
    rewrite Ha, Hb. cbn [bind]. destruct (cond_cast_lax c a S) as [k ->]. cbn [bind].
    destruct (cond_cast_lax c b S) as [l ->]. cbn [bind]. eauto.
  - destruct W as [W1 W2], K as [K1 K2], P as [P1 P2]. destruct (IHe1 W1 K1 P1) as [a Ha], (IHe2 W2 K2 P2) as [b Hb].
    rewrite Ha, Hb. cbn [bind]. destruct (cond_cast_lax c a S) as [k ->]. cbn [bind].
    destruct (cond_cast_lax c b S) as [l ->]. cbn [bind]. eauto.
  - destruct W as [W0 [W1 W2]], K as [K0 [K1 K2]], P as [P0 [P1 P2]].
    destruct (IHe1 W0 K0 P0) as [g Hg], (IHe2 W1 K1 P1) as [a Ha], (IHe3 W2 K2 P2) as [b Hb].
    rewrite Hg, Ha, Hb. cbn [bind]. destruct (cond_cast_lax c g S) as [k ->]. cbn [bind].
    destruct (usual_arith_conv_lax c a b C S (er_wt _ _ _ _ (elab_ok c env C e2 W1 K1 P1 a Ha))
      (er_wt _ _ _ _ (elab_ok c env C e3 W2 K2 P2 b Hb))) as [p ->]. cbn [bind]. eauto.
  - destruct W as [W1 W2], K as [K1 K2], P as [P1 P2]. destruct (IHe1 W1 K1 P1) as [a ->], (IHe2 W2 K2 P2) as [b ->].
    cbn [bind]. eauto.
  - destruct P as [P _]. destruct (IHe W K P) as [n ->]. cbn [bind]. apply new_cast_lax; auto.
Qed.

(** ** Statements used by the property file. *)
Theorem types_ok c env e n : cfg_ok c -> wf env e -> known_ok (known c) env e -> plain_casts e ->
  elab c e = Ok n -> nty n = mty (ctype e).
Proof. intros. eapply er_ty, elab_ok; eauto. Qed.

Theorem tree_value_ok c env e n v : cfg_ok c -> wf env e -> known_ok (known c) env e -> plain_casts e ->
  elab c e = Ok n -> ceval env e = Some v -> teval env n = Some v.
Proof. intros. eapply er_ev; eauto. eapply elab_ok; eauto. Qed.

Theorem fold_sound c env e n v r : cfg_ok c -> wf env e -> known_ok (known c) env e -> plain_casts e ->
  elab c e = Ok n -> ceval env e = Some v -> eval2 c n = Ok r -> r = rep64 v.
Proof.
  intros C W K P E V H. pose proof (elab_ok c env C e W K P n E) as [].
  pose proof (eval2_ok c env n er_wt0 er_v0 er_k0 v (er_ev0 v V)) as A. rewrite H in A. exact A.
Qed.

Theorem fold_complete c env e v : cfg_ok c -> strict c = false ->
  wf env e -> known_ok (known c) env e -> plain_casts e -> constant (known c) e ->
  ceval env e = Some v -> exists n, elab c e = Ok n /\ eval2 c n = Ok (rep64 v).
Proof.
  intros C S W K P Q V. destruct (elab_total c env e C S W K P) as [n E]. exists n. split; auto.
  pose proof (elab_ok c env C e W K P n E) as [].
  pose proof (eval2_ok c env n er_wt0 er_v0 er_k0 v (er_ev0 v V)) as A.
  destruct (eval2 c n); cbn [agrees] in A; [congruence|congruence|tauto].
Qed.
