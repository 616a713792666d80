(** Arithmetic lemmas about conversions between integer types. *)
From Coq Require Import ZArith List Bool Lia.
From Verif Require Import Base BitLemmas IntSpec.
Local Open Scope Z_scope.

(** Two's complement value of the low [w] bits. *)
Definition sx (w v : Z) : Z := (v + 2 ^ (w - 1)) mod 2 ^ w - 2 ^ (w - 1).

Lemma pow2_half w : 1 <= w -> 2 ^ w = 2 * 2 ^ (w - 1).
Proof. intros. replace w with (Z.succ (w - 1)) at 1 by lia. rewrite Z.pow_succ_r by lia. lia. Qed.

Lemma sx_range w v : 1 <= w -> - 2 ^ (w - 1) <= sx w v < 2 ^ (w - 1).
Proof.
  intros H. unfold sx. pose proof (pow2_half w H).
  pose proof (mod_bound (v + 2 ^ (w - 1)) w ltac:(lia)). lia.
Qed.

Lemma sx_id w v : 1 <= w -> - 2 ^ (w - 1) <= v < 2 ^ (w - 1) -> sx w v = v.
Proof.
  intros H R. unfold sx. pose proof (pow2_half w H).
  rewrite Z.mod_small by lia. lia.
Qed.

Lemma sx_mod w v : 1 <= w -> sx w v mod 2 ^ w = v mod 2 ^ w.
Proof.
  intros H. unfold sx. pose proof (pow2_pos w ltac:(lia)).
  rewrite Zminus_mod_idemp_l. f_equal. lia.
Qed.

Lemma sx_cong w x y : x mod 2 ^ w = y mod 2 ^ w -> sx w x = sx w y.
Proof.
  intros H. unfold sx. rewrite <- (Zplus_mod_idemp_l x), <- (Zplus_mod_idemp_l y), H. reflexivity.
Qed.

Lemma sx_bits w v n : 1 <= w -> 0 <= n ->
  Z.testbit (sx w v) n = if n <? w then Z.testbit v n else Z.testbit v (w - 1).
Proof.
  intros Hw Hn.
  assert (L : forall m, 0 <= m < w -> Z.testbit (sx w v) m = Z.testbit v m).
  { intros m Hm. pose proof (testbit_mod (sx w v) w m ltac:(lia) ltac:(lia)) as E1.
    pose proof (testbit_mod v w m ltac:(lia) ltac:(lia)) as E2.
    rewrite sx_mod in E1 by lia. destruct (Z.ltb_spec m w); [|lia]. cbn in E1, E2. congruence. }
  destruct (Z.ltb_spec n w); [apply L; lia|].
  rewrite <- (L (w - 1)) by lia.
  pose proof (sx_range w v Hw) as R. set (a := sx w v) in *.
  assert (G : forall m, w - 1 <= m -> Z.testbit a m = Z.testbit (a / 2 ^ (w - 1)) (m - (w - 1))).
  { intros m Hm. rewrite <- Z.shiftr_div_pow2 by lia. rewrite Z.shiftr_spec by lia. f_equal. lia. }
  rewrite (G n), (G (w - 1)) by lia.
  pose proof (pow2_pos (w - 1) ltac:(lia)).
  destruct (Z_lt_ge_dec a 0).
  - replace (a / 2 ^ (w - 1)) with (-1).
    + rewrite !Z.bits_m1 by lia. reflexivity.
    + apply Z.div_unique with (a + 2 ^ (w - 1)); [left|]; lia.
  - rewrite Z.div_small by lia. rewrite !Z.bits_0. reflexivity.
Qed.

Lemma sx_sext w v : 1 <= w -> sext w v = sx w v.
Proof.
  intros H. unfold sext. pose proof (pow2_half w H). pose proof (mod_bound v w ltac:(lia)).
  assert (E : sx w (v mod 2 ^ w) = sx w v).
  { apply sx_cong. apply Z.mod_mod. pose proof (pow2_pos w ltac:(lia)). lia. }
  destruct (Z.ltb_spec (v mod 2 ^ w) (2 ^ (w - 1))).
  - rewrite <- E, sx_id; lia.
  - rewrite <- E. symmetry.
    transitivity (sx w (v mod 2 ^ w - 2 ^ w)).
    + apply sx_cong. replace (v mod 2 ^ w - 2 ^ w) with (v mod 2 ^ w + (-1) * 2 ^ w) by lia.
      rewrite Z.mod_add by lia. reflexivity.
    + apply sx_id; lia.
Qed.

Lemma rep64_sx v : rep64 v = sx 64 v.
Proof. reflexivity. Qed.

Lemma rep64_range v : - two63 <= rep64 v < two63.
Proof. rewrite rep64_sx. apply (sx_range 64 v). lia. Qed.

Lemma rep64_id v : - two63 <= v < two63 -> rep64 v = v.
Proof. intros. rewrite rep64_sx. apply (sx_id 64); [lia|]. exact H. Qed.

Lemma rep64_idem v : rep64 (rep64 v) = rep64 v.
Proof. apply rep64_id, rep64_range. Qed.

Lemma rep64_mod v k : 0 <= k <= 64 -> rep64 v mod 2 ^ k = v mod 2 ^ k.
Proof.
  intros H. rewrite <- (mod_mod_le (rep64 v) k 64), <- (mod_mod_le v k 64) by lia.
  f_equal. apply (sx_mod 64). lia.
Qed.

Lemma rep64_cong x y : x mod 2 ^ 64 = y mod 2 ^ 64 -> rep64 x = rep64 y.
Proof. apply (sx_cong 64). Qed.

Lemma sext64_rep v : sext 64 v = rep64 v.
Proof. apply sx_sext. lia. Qed.

Lemma sx_land w x y : 1 <= w -> sx w (Z.land x y) = Z.land (sx w x) (sx w y).
Proof.
  intros H. apply Z.bits_inj'. intros n Hn. rewrite Z.land_spec, !sx_bits by lia.
  destruct (n <? w); apply Z.land_spec.
Qed.
Lemma sx_lor w x y : 1 <= w -> sx w (Z.lor x y) = Z.lor (sx w x) (sx w y).
Proof.
  intros H. apply Z.bits_inj'. intros n Hn. rewrite Z.lor_spec, !sx_bits by lia.
  destruct (n <? w); apply Z.lor_spec.
Qed.
Lemma sx_lxor w x y : 1 <= w -> sx w (Z.lxor x y) = Z.lxor (sx w x) (sx w y).
Proof.
  intros H. apply Z.bits_inj'. intros n Hn. rewrite Z.lxor_spec, !sx_bits by lia.
  destruct (n <? w); apply Z.lxor_spec.
Qed.

Lemma mod_land w x y : 0 <= w -> Z.land x y mod 2 ^ w = Z.land (x mod 2 ^ w) (y mod 2 ^ w).
Proof.
  intros H. apply Z.bits_inj'. intros n Hn. rewrite Z.land_spec, !testbit_mod, Z.land_spec by lia.
  destruct (n <? w); reflexivity.
Qed.
Lemma mod_lor w x y : 0 <= w -> Z.lor x y mod 2 ^ w = Z.lor (x mod 2 ^ w) (y mod 2 ^ w).
Proof.
  intros H. apply Z.bits_inj'. intros n Hn. rewrite Z.lor_spec, !testbit_mod, Z.lor_spec by lia.
  destruct (n <? w); reflexivity.
Qed.
Lemma mod_lxor w x y : 0 <= w -> Z.lxor x y mod 2 ^ w = Z.lxor (x mod 2 ^ w) (y mod 2 ^ w).
Proof.
  intros H. apply Z.bits_inj'. intros n Hn. rewrite Z.lxor_spec, !testbit_mod, Z.lxor_spec by lia.
  destruct (n <? w); reflexivity.
Qed.

(** Non-_Bool conversions. *)
Lemma conv_nb t z : t <> TBool ->
  conv t z = if isigned t then sx (iwidth t) z else z mod 2 ^ iwidth t.
Proof. destruct t; intros H; try congruence; reflexivity. Qed.

Lemma iwidth_pos t : 1 <= iwidth t <= 64.
Proof. destruct t; cbn; lia. Qed.

Lemma in_range_nb t v : in_range t v <->
  if isigned t then - 2 ^ (iwidth t - 1) <= v < 2 ^ (iwidth t - 1) else 0 <= v < 2 ^ iwidth t.
Proof. unfold in_range, imin, imax. destruct (isigned t); lia. Qed.

Lemma in_rangeb_spec t v : in_rangeb t v = true <-> in_range t v.
Proof. unfold in_rangeb, in_range. rewrite andb_true_iff, !Z.leb_le. tauto. Qed.

Lemma conv_range t z : in_range t (conv t z).
Proof.
  destruct (ityp_eqb t TBool) eqn:E.
  - destruct t; try discriminate. unfold in_range, conv. cbn. destruct (z =? 0); lia.
  - assert (N : t <> TBool) by (destruct t; discriminate). rewrite conv_nb by auto.
    apply in_range_nb. pose proof (iwidth_pos t). destruct (isigned t).
    + apply sx_range. lia.
    + apply mod_bound. lia.
Qed.

Lemma conv_id t v : in_range t v -> conv t v = v.
Proof.
  intros H. destruct (ityp_eqb t TBool) eqn:E.
  - destruct t; try discriminate. unfold in_range in H. cbn in H. unfold conv.
    destruct (Z.eqb_spec v 0); lia.
  - assert (N : t <> TBool) by (destruct t; discriminate). rewrite conv_nb by auto.
    apply in_range_nb in H. pose proof (iwidth_pos t). destruct (isigned t).
    + apply sx_id; lia.
    + apply Z.mod_small; lia.
Qed.

Lemma conv_cong t x y : t <> TBool -> x mod 2 ^ iwidth t = y mod 2 ^ iwidth t -> conv t x = conv t y.
Proof.
  intros N H. rewrite !conv_nb by auto. destruct (isigned t); [apply sx_cong|]; auto.
Qed.

Lemma conv_mod t z : t <> TBool -> conv t z mod 2 ^ iwidth t = z mod 2 ^ iwidth t.
Proof.
  intros N. rewrite conv_nb by auto. pose proof (iwidth_pos t). destruct (isigned t).
  - apply sx_mod. lia.
  - apply Z.mod_mod. pose proof (pow2_pos (iwidth t) ltac:(lia)). lia.
Qed.

Lemma conv_conv_narrow t t2 v : t <> TBool -> t2 <> TBool -> iwidth t <= iwidth t2 ->
  conv t (conv t2 v) = conv t v.
Proof.
  intros N N2 H. apply conv_cong; auto. pose proof (iwidth_pos t).
  rewrite <- (mod_mod_le (conv t2 v) (iwidth t) (iwidth t2)) by lia.
  rewrite conv_mod by auto. apply mod_mod_le. lia.
Qed.

Lemma in_range_64 t v : in_range t v -> - two63 <= v < two64.
Proof. destruct t; unfold in_range, imin, imax, two63, two64; cbn; lia. Qed.

Lemma in_range_sub t s v : represents t s = true -> in_range s v -> in_range t v.
Proof. unfold represents, in_range. rewrite andb_true_iff, !Z.leb_le. lia. Qed.

Lemma rep64_zero v : - two63 <= v < two64 -> (rep64 v =? 0) = (v =? 0).
Proof.
  intros H. destruct (Z_lt_ge_dec v two63).
  - rewrite rep64_id by lia. reflexivity.
  - assert (rep64 v = v - two64).
    { transitivity (rep64 (v - two64)).
      - apply rep64_cong. unfold two64. change 18446744073709551616 with (2 ^ 64).
        replace (v - 2 ^ 64) with (v + (-1) * 2 ^ 64) by lia. rewrite Z.mod_add by lia. reflexivity.
      - apply rep64_id. unfold two63, two64 in *. lia. }
    unfold two63, two64 in *.
    destruct (Z.eqb_spec (rep64 v) 0), (Z.eqb_spec v 0); lia.
Qed.

Lemma conv_rep64 t v : - two63 <= v < two64 -> conv t (rep64 v) = conv t v.
Proof.
  intros H. destruct (ityp_eqb t TBool) eqn:E.
  - destruct t; try discriminate. unfold conv. rewrite rep64_zero by auto. reflexivity.
  - assert (N : t <> TBool) by (destruct t; discriminate).
    apply conv_cong; auto. apply rep64_mod. pose proof (iwidth_pos t). lia.
Qed.

Lemma conv_rep64_id t v : in_range t v -> conv t (rep64 v) = v.
Proof. intros H. rewrite conv_rep64 by (eapply in_range_64; eauto). apply conv_id; auto. Qed.

Lemma rep64_inj t x y : in_range t x -> in_range t y -> rep64 x = rep64 y -> x = y.
Proof.
  intros Hx Hy E. rewrite <- (conv_rep64_id t x), <- (conv_rep64_id t y) by auto. congruence.
Qed.

Lemma rep64_u64 v : 0 <= v < two64 -> rep64 v mod 2 ^ 64 = v.
Proof. intros. rewrite rep64_mod by lia. apply Z.mod_small. exact H. Qed.
