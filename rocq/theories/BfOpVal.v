(** Arithmetic on a bit-field in the type that follows from its declared type. *)
From Coq Require Import ZArith List Bool Lia Zquot.
From Verif Require Import Base BitLemmas IntSpec IntLemmas IntModel IntElab IntTyped IntProofs CgSpec CgLemmas CgSeq CgSeq2
  StmtSpec BfSpec BfOpSpec.
Import ListNotations.
Local Open Scope Z_scope.

Definition wide (r : ityp) : Prop := 3 <= irank r.

Lemma usual_pos a b : wide a -> wide b ->
  wide (usual a b) /\ imax a <= imax (usual a b) /\ imax b <= imax (usual a b) /\ imin (usual a b) <= 0.
Proof.
  unfold wide. intros A B. destruct a; cbn in A; try lia; destruct b; cbn in B; try lia; vm_compute; repeat split; discriminate.
Qed.

Lemma usual_signed a b : wide a -> wide b -> isigned (usual a b) = true ->
  imin (usual a b) <= imin a /\ imax a <= imax (usual a b) /\ imin (usual a b) <= imin b /\ imax b <= imax (usual a b).
Proof.
  unfold wide. intros A B. destruct a; cbn in A; try lia; destruct b; cbn in B; try lia; vm_compute; intros; try discriminate;
  repeat split; discriminate.
Qed.

Lemma same_type u v : wide u -> wide v -> isigned u = isigned v -> iwidth u = iwidth v ->
  forall o x y, c_bin o u (conv u x) (conv u y) = c_bin o v (conv v x) (conv v y).
Proof.
  unfold wide. intros A B S W o x y. destruct u; cbn in A; try lia; destruct v; cbn in B; try lia; try discriminate S; try discriminate W; reflexivity.
Qed.

(** Fields whose promoted type differs from the promoted declared type. *)
Definition big_field (t : ityp) : Prop := t = TUInt \/ t = TLong \/ t = TULong \/ t = TLLong \/ t = TULLong.
Lemma narrow_field t w x : width_ok t w -> fmin t w <= x <= fmax t w ->
  promote_field t w = promote t \/
  (w <= 32 /\ big_field t /\ (promote_field t w = TInt \/ promote_field t w = TUInt) /\
   in_range (promote_field t w) x /\ in_range t x /\ (isigned t = true -> - 2 ^ 31 <= x < 2 ^ 31)).
Proof.
  intros WO X. pose proof (fld_range t w x WO X) as R. destruct WO as [W1 W2].
  assert (SP := promote_field_spec t w (conj W1 W2)).
  destruct (Z_le_gt_dec w 32) as [L|L].
  2: { left. rewrite SP. replace (w =? 32) with false by (symmetry; apply Z.eqb_neq; lia). cbn [andb].
       replace (w <=? 32) with false by (symmetry; apply Z.leb_gt; lia). destruct t; cbn in W2; try lia; reflexivity. }
  replace (w <=? 32) with true in SP by (symmetry; apply Z.leb_le; exact L).
  assert (Q : promote_field t w = promote t \/ big_field t).
  { unfold big_field. destruct t; auto 6; left; rewrite SP; cbn [isigned negb]; rewrite ?andb_false_r; try reflexivity;
    (replace (w =? 32) with false by (symmetry; apply Z.eqb_neq; cbn in W2; lia)); reflexivity. }
  destruct Q as [Q|Q]; [left; exact Q|right]. split; [exact L|]. split; [exact Q|].
  assert (B1 : 2 ^ w <= 2 ^ 32) by (apply Z.pow_le_mono_r; lia). assert (B2 : 2 ^ (w - 1) <= 2 ^ 31) by (apply Z.pow_le_mono_r; lia).
  change (2 ^ 32) with 4294967296 in *. change (2 ^ 31) with 2147483648 in *.
  split; [rewrite SP; destruct (_ && _); auto|]. split; [|split; [exact R|]].
  - rewrite SP. destruct (w =? 32) eqn:E; cbn [andb].
    + unfold fmin, fmax in X. destruct (isigned t); cbn [negb]; unfold in_range;
      [change (imin TInt) with (-2147483648); change (imax TInt) with 2147483647|change (imin TUInt) with 0; change (imax TUInt) with 4294967295]; lia.
    + apply Z.eqb_neq in E. assert (B3 : 2 ^ w <= 2 ^ 31) by (apply Z.pow_le_mono_r; lia). change (2 ^ 31) with 2147483648 in B3.
      unfold fmin, fmax in X. unfold in_range. change (imin TInt) with (-2147483648); change (imax TInt) with 2147483647.
      destruct (isigned t); lia.
  - intros S. unfold fmin, fmax in X. rewrite S in X. lia.
Qed.

Lemma classes t p r : big_field t -> p = TInt \/ p = TUInt -> wide r ->
  (isigned (usual p r) = isigned (usual t r) /\ iwidth (usual p r) = iwidth (usual t r)) \/
  isigned (usual t r) = false \/
  (isigned (usual t r) = true /\ imin (usual t r) = - 2 ^ 63 /\ imax (usual t r) = 2 ^ 63 - 1 /\ isigned t = true /\ imax r <= 2 ^ 32 - 1 /\ - 2 ^ 31 <= imin r).
Proof.
  intros T P R. unfold wide in R.
  destruct P as [->| ->]; destruct T as [->|[->|[->|[->| ->]]]]; destruct r; cbn in R; try lia; vm_compute;
  first [left; split; reflexivity|right; left; reflexivity|right; right; repeat split; discriminate].
Qed.

Lemma quot_abs a b : Z.abs (Z.quot a b) <= Z.abs a.
Proof.
  destruct (Z.eq_dec b 0) as [->|N]; [rewrite Zquot_0_r; lia|].
  rewrite <- Z.quot_abs by auto. destruct (Z.eq_dec (Z.abs a) 0) as [->|A]; [rewrite Z.quot_0_l; lia|].
  apply Z.quot_le_upper_bound; nia.
Qed.

Lemma op_narrow t w x y r o z : width_ok t w -> fmin t w <= x <= fmax t w -> wide r -> in_range r y ->
  let u := usual (promote_field t w) r in let u' := usual (promote t) r in
  (o = BDiv \/ o = BMod -> same_division t w r \/ (0 <= x /\ 0 <= y)) ->
  c_bin o u (conv u x) (conv u y) = Some z ->
  exists z', c_bin o u' (conv u' x) (conv u' y) = Some z' /\ eqm w (conv t z') (conv t z).
Proof.
  intros WO X WR RY u u' DC H. destruct (narrow_field t w x WO X) as [Q|Q].
  { exists z. split; [|apply eqm_refl]. unfold u, u' in *. rewrite <- Q. exact H. }
  destruct Q as [W32 [BT [PP [RP [RT XS]]]]].
  assert (PT : promote t = t) by (destruct BT as [->|[->|[->|[->| ->]]]]; reflexivity).
  assert (WT : wide t) by (unfold wide; destruct BT as [->|[->|[->|[->| ->]]]]; vm_compute; discriminate).
  assert (WP : wide (promote_field t w)) by (unfold wide; destruct PP as [-> | ->]; vm_compute; discriminate).
  unfold u' in *. clear u'. rewrite PT in *. set (u' := usual t r) in *.
  assert (NB : t <> TBool) by (intros ->; vm_compute in WT; congruence).
  assert (W1 : 1 <= w) by apply WO.
  assert (FIN : forall z', eqm w z' z -> eqm w (conv t z') (conv t z)).
  { intros z' E. destruct WO as [_ W2]. eapply eqm_trans; [eapply eqm_le; [|apply eqm_conv; exact NB]; lia|].
    eapply eqm_trans; [exact E|]. apply eqm_sym. eapply eqm_le; [|apply eqm_conv; exact NB]. lia. }
  destruct (usual_pos _ _ WP WR) as [WU [U1 [U2 U3]]]. fold u in WU, U1, U2, U3.
  destruct (usual_pos _ _ WT WR) as [WU' [V1 [V2 V3]]]. fold u' in WU', V1, V2, V3.
  assert (W64 : forall k, wide k -> 32 <= iwidth k /\ k <> TBool) by (intros k K; unfold wide in K; destruct k; cbn in *; try lia; split; try lia; discriminate).
  destruct (W64 u WU) as [WU32 NBU]. destruct (W64 u' WU') as [WU32' NBU'].
  assert (NEQ : (isigned u = isigned u' /\ iwidth u = iwidth u') \/ ~ (isigned u = isigned u' /\ iwidth u = iwidth u')).
  { destruct (Bool.bool_dec (isigned u) (isigned u')), (Z.eq_dec (iwidth u) (iwidth u')); tauto. }
  destruct NEQ as [[ES EW]|NEQ].
  { exists z. split; [|apply eqm_refl]. rewrite <- (same_type u u' WU WU' ES EW). exact H. }
  destruct (classes t _ r BT PP WR) as [CL|CL]; fold u u' in CL; [contradiction|].
  assert (SD : o = BDiv \/ o = BMod \/ simple o) by (unfold simple; destruct o; auto; right; right; split; discriminate).
  (* exact operands in u' *)
  assert (SX : isigned u' = true -> in_range u' x /\ in_range u' y).
  { intros S. destruct (usual_signed _ _ WT WR S) as [A1 [A2 [A3 A4]]]. fold u' in A1, A2, A3, A4. unfold in_range in *. lia. }
  assert (SIM : simple o -> exists z', c_bin o u' (conv u' x) (conv u' y) = Some z' /\ eqm w (conv t z') (conv t z)).
  { intros SO.
    assert (DEF : exists z', c_bin o u' (conv u' x) (conv u' y) = Some z').
    { destruct CL as [S|[S [M1 [M2 [ST [Y2 Y1]]]]]].
      - unfold c_bin, wrap_or_undef. rewrite S. destruct SO. destruct o; try congruence; eauto.
      - destruct (SX S) as [RX RYY]. rewrite (conv_id _ _ RX), (conv_id _ _ RYY). specialize (XS ST).
        unfold in_range in RY. change (2 ^ 32) with 4294967296 in *. change (2 ^ 31) with 2147483648 in *. change (2 ^ 63) with 9223372036854775808 in *.
        assert (YB : -2147483648 <= y <= 4294967295) by lia.
        unfold c_bin, wrap_or_undef, in_rangeb. rewrite S, M1, M2. destruct SO.
        destruct o; try congruence; eauto;
        (match goal with |- exists _, (if ?b then _ else _) = _ => replace b with true; [eauto|] end);
        symmetry; apply andb_true_iff; split; apply Z.leb_le; nia. }
    destruct DEF as [z' D]. exists z'. split; [exact D|]. apply FIN.
    eapply eqm_trans; [apply eqm_sym; eapply eqm_le; [|apply (c_bin_alu _ _ _ _ _ SO NBU' D)]; lia|].
    eapply eqm_trans; [|eapply eqm_le; [|apply (c_bin_alu _ _ _ _ _ SO NBU H)]; lia].
    apply alu_fun_eqm; auto; try lia.
    - eapply eqm_trans; [eapply eqm_le; [|apply eqm_conv; exact NBU']; lia|apply eqm_sym; eapply eqm_le; [|apply eqm_conv; exact NBU]; lia].
    - eapply eqm_trans; [eapply eqm_le; [|apply eqm_conv; exact NBU']; lia|apply eqm_sym; eapply eqm_le; [|apply eqm_conv; exact NBU]; lia]. }
  assert (DIV : o = BDiv \/ o = BMod -> in_range u x /\ in_range u y /\ in_range u' x /\ in_range u' y /\ in_rangeb u' (Z.quot x y) = true /\
     (isigned u = false -> in_rangeb u (Z.quot x y) = true)).
  { intros O. destruct (DC O) as [[D1 D2]|[D1 D2]].
    - rewrite PT in D1, D2. fold u u' in D1, D2.
      destruct CL as [S|[S [M1 [M2 [ST [Y2 Y1]]]]]].
      + exfalso. rewrite S in D1. destruct D2 as [D2|D2]; [congruence|].
        apply NEQ. rewrite S. auto.
      + destruct (SX S) as [RX RYY]. rewrite S in D1. destruct (usual_signed _ _ WP WR D1) as [A1 [A2 [A3 A4]]]. fold u in A1, A2, A3, A4.
        repeat split; try (apply RX); try (apply RYY); try congruence; unfold in_range in *; try lia.
        specialize (XS ST). pose proof (quot_abs x y). unfold in_rangeb. rewrite M1, M2. apply andb_true_iff.
        change (2 ^ 31) with 2147483648 in *. change (2 ^ 63) with 9223372036854775808 in *. split; apply Z.leb_le; lia.
    - unfold in_range in *. pose proof (quot_abs x y). pose proof (Z.quot_pos x y D1).
      assert (0 <= Z.quot x y) by (destruct (Z.eq_dec y 0) as [->|]; [rewrite Zquot_0_r; lia|apply Z.quot_pos; lia]).
      repeat split; try lia; unfold in_rangeb; intros; apply andb_true_iff;
      split; apply Z.leb_le; lia. }
  destruct SD as [->|[->|SO]]; [| |exact (SIM SO)].
  - destruct (DIV (or_introl eq_refl)) as [R1 [R2 [R3 [R4 [R5 R6]]]]]. rewrite (conv_id u x R1), (conv_id u y R2) in H. rewrite (conv_id u' x R3), (conv_id u' y R4).
    unfold c_bin in *. destruct (y =? 0); [discriminate|]. exists z. split; [|apply eqm_refl].
    assert (HZ : z = Z.quot x y).
    { unfold wrap_or_undef in H. destruct (isigned u).
      - destruct (in_rangeb u (Z.quot x y)); congruence.
      - injection H as <-. apply conv_id, in_rangeb_spec, R6. reflexivity. }
    subst z. unfold wrap_or_undef. rewrite R5. rewrite (conv_id u' (Z.quot x y)) by (apply in_rangeb_spec; exact R5).
    destruct (isigned u'); reflexivity.
  - destruct (DIV (or_intror eq_refl)) as [R1 [R2 [R3 [R4 [R5 R6]]]]]. rewrite (conv_id u x R1), (conv_id u y R2) in H. rewrite (conv_id u' x R3), (conv_id u' y R4).
    unfold c_bin in *. destruct (y =? 0); [discriminate|]. rewrite R5. destruct (in_rangeb u (Z.quot x y)); [|discriminate].
    exists z. split; [exact H|apply eqm_refl].
Qed.
