From Coq Require Import ZArith List Bool Lia Znumtheory.
From Verif Require Import Base X86 CgModel CgLemmas FcvtSpec FcvtModel.
Import ListNotations.
Local Open Scope Z_scope.

Lemma p2 : forall k, 0 <= k -> 0 < 2 ^ k. Proof. intros. apply Z.pow_pos_nonneg; lia. Qed.
Lemma trunc_scale : forall m e k, 0 <= k -> trunc_dy (m * 2 ^ k, e) = trunc_dy (m, e + k).
Proof.
  intros m e k K. unfold trunc_dy. cbn [fst snd]. destruct (Z.leb_spec 0 e).
  - destruct (Z.leb_spec 0 (e + k)); [|lia]. rewrite Z.pow_add_r by lia. ring.
  - destruct (Z.leb_spec 0 (e + k)).
    + replace k with ((e + k) + (- e)) at 1 by lia. rewrite Z.pow_add_r by lia. rewrite Z.mul_assoc. apply Z.quot_mul. pose proof (p2 (- e)). lia.
    + replace (- e) with (- (e + k) + k) by lia. rewrite Z.pow_add_r by lia. apply Z.quot_mul_cancel_r; pose proof (p2 k); pose proof (p2 (- (e + k))); lia.
Qed.
Lemma trunc_same : forall a b, same a b -> trunc_dy a = trunc_dy b.
Proof.
  intros [ma ea] [mb eb] H. unfold same in H. cbn [fst snd] in H. set (e := Z.min ea eb) in *.
  replace ea with (e + (ea - e)) by lia. replace eb with (e + (eb - e)) by lia.
  rewrite <- !trunc_scale by lia. rewrite H. reflexivity.
Qed.

(** Subtracting 2^63 from a value of [2^63, 2^64) is exact. *)
Lemma big_exp : forall p m e, 0 < p <= 64 -> fits p (m, e) -> 2 ^ 63 <= trunc_dy (m, e) < 2 ^ 64 -> 0 <= e <= 63 /\ 0 < m /\ trunc_dy (m, e) = m * 2 ^ e /\ 2 ^ (63 - e) <= m.
Proof.
  intros p m e P F T. unfold fits in F. cbn [fst] in F. unfold trunc_dy in *. cbn [fst snd] in *. destruct (Z.leb_spec 0 e).
  - assert (M : 0 < m). { destruct (Z.lt_ge_cases 0 m); [assumption|]. pose proof (p2 e). nia. }
    assert (E : e <= 63). { destruct (Z.le_gt_cases e 63); [assumption|]. assert (2 ^ 64 <= 2 ^ e) by (apply Z.pow_le_mono_r; lia). nia. }
    repeat split; try assumption; try lia. assert (Q : 2 ^ 63 = 2 ^ (63 - e) * 2 ^ e) by (rewrite <- Z.pow_add_r by lia; f_equal; lia).
    rewrite Q in T. pose proof (p2 e). nia.
  - exfalso. assert (F2 : Z.abs m < 2 ^ 64). { eapply Z.lt_le_trans; [exact F|]. apply Z.pow_le_mono_r; lia. }
    assert (2 ^ 1 <= 2 ^ (- e)) by (apply Z.pow_le_mono_r; lia). change (2 ^ 1) with 2 in H0. change (2 ^ 63) with 9223372036854775808 in T. change (2 ^ 64) with 18446744073709551616 in *.
    assert (QQ : Z.quot m (2 ^ (- e)) <= Z.abs m / 2); [|assert (Z.abs m / 2 < 9223372036854775808) by (apply Z.div_lt_upper_bound; lia); lia].
    assert (Q : Z.quot m (2 ^ (- e)) <= Z.quot (Z.abs m) (2 ^ (- e))) by (apply Z.quot_le_mono; lia).
    rewrite (Z.quot_div_nonneg (Z.abs m)) in Q by lia. eapply Z.le_trans; [exact Q|]. apply Z.div_le_compat_l; lia.
Qed.
Lemma sub63 : forall p (rnd : dy -> dy) x k, 0 < p <= 64 -> 0 <= k <= 63 ->
  (forall y z, fits p z -> same y z -> same (rnd y) z) -> fits p x -> 2 ^ 63 <= trunc_dy x < 2 ^ 64 ->
  trunc_dy (rnd (dsub x (2 ^ k, 63 - k))) = trunc_dy x - 2 ^ 63.
Proof.
  intros p rnd [m e] k P K R F T. destruct (big_exp p m e P F T) as (E & M & TE & LE).
  assert (SM : same (dsub (m, e) (2 ^ k, 63 - k)) (m - 2 ^ (63 - e), e)).
  { unfold same, dsub, dadd. cbn [fst snd]. set (mn := Z.min e (63 - k)). rewrite (Z.min_l mn e) by lia. rewrite Z.sub_diag, Z.pow_0_r, Z.mul_1_r.
    rewrite Z.mul_sub_distr_r, <- Z.pow_add_r by lia. rewrite Z.mul_opp_l, <- Z.pow_add_r by lia. replace (k + (63 - k - mn)) with (63 - mn) by lia. replace (63 - e + (e - mn)) with (63 - mn) by lia. lia. }
  assert (FZ : fits p (m - 2 ^ (63 - e), e)). { unfold fits in *. cbn [fst] in *. pose proof (p2 (63 - e)). lia. }
  rewrite (trunc_same _ _ (R _ _ FZ SM)). rewrite TE. unfold trunc_dy. cbn [fst snd]. destruct (Z.leb_spec 0 e); [|lia].
  rewrite Z.mul_sub_distr_r, <- Z.pow_add_r by lia. f_equal. f_equal. lia.
Qed.
Lemma sub0 : forall p (rnd : dy -> dy) x, (forall y z, fits p z -> same y z -> same (rnd y) z) -> fits p x ->
  trunc_dy (rnd (dsub x (0, 0))) = trunc_dy x.
Proof.
  intros p rnd [m e] R F. apply trunc_same. apply R; [exact F|]. unfold same, dsub, dadd. cbn [fst snd].
  rewrite (Z.min_l (Z.min e 0) e) by lia. rewrite Z.sub_diag, Z.pow_0_r, Z.mul_1_r. change (- 0) with 0. rewrite Z.mul_0_l, Z.add_0_r. reflexivity.
Qed.
Lemma dle63 : forall x, fits 64 x -> trunc_dy x < 2 ^ 64 -> dle (2 ^ 23, 40) x = (2 ^ 63 <=? trunc_dy x).
Proof.
  intros [m e] F U. unfold dle, dsub, dadd, trunc_dy in *. unfold fits in F. cbn [fst snd] in *. destruct (Z.leb_spec 0 e).
  - set (mn := Z.min 40 e). assert (A : 2 ^ 23 * 2 ^ (40 - mn) = 2 ^ (63 - mn)) by (rewrite <- Z.pow_add_r by lia; f_equal; lia).
    assert (B : 2 ^ (63 - mn) * 2 ^ mn = 2 ^ 63) by (rewrite <- Z.pow_add_r by lia; f_equal; lia).
    assert (C : m * 2 ^ e = m * 2 ^ (e - mn) * 2 ^ mn) by (rewrite <- Z.mul_assoc, <- Z.pow_add_r by lia; f_equal; f_equal; lia).
    rewrite A, <- B, C. pose proof (p2 mn). set (a := 2 ^ (63 - mn)) in *. set (b := m * 2 ^ (e - mn)) in *. replace (- m * 2 ^ (e - mn)) with (- b) by (unfold b; ring).
    clearbody a b. apply eq_true_iff_eq. rewrite !Z.leb_le. split; intros; nia.
  - assert (2 ^ 1 <= 2 ^ (- e)) by (apply Z.pow_le_mono_r; lia). change (2 ^ 1) with 2 in H0.
    replace (Z.min 40 e) with e by lia. rewrite Z.sub_diag, Z.pow_0_r, Z.mul_1_r.
    assert (A : 2 ^ 64 <= 2 ^ 23 * 2 ^ (40 - e)) by (rewrite <- Z.pow_add_r by lia; apply Z.pow_le_mono_r; lia).
    assert (B : Z.quot m (2 ^ (- e)) <= Z.abs m / 2).
    { assert (Q : Z.quot m (2 ^ (- e)) <= Z.quot (Z.abs m) (2 ^ (- e))) by (apply Z.quot_le_mono; lia).
      rewrite (Z.quot_div_nonneg (Z.abs m)) in Q by lia. eapply Z.le_trans; [exact Q|]. apply Z.div_le_compat_l; lia. }
    assert (BB : Z.abs m / 2 < 9223372036854775808) by (apply Z.div_lt_upper_bound; [lia|]; change (2 * 9223372036854775808) with (2 ^ 64); lia).
    set (a := 2 ^ 23 * 2 ^ (40 - e)) in *. set (b := Z.quot m (2 ^ (- e))) in *. clearbody a b. change (2 ^ 63) with 9223372036854775808. change (2 ^ 64) with 18446744073709551616 in *.
    apply eq_true_iff_eq. rewrite !Z.leb_le. lia.
Qed.

(** ** Rounding *)
Lemma lor1 : forall a, Z.lor a 1 = if Z.odd a then a else a + 1.
Proof.
  intros a. assert (G : forall c, Z.lor (2 * c) 1 = 2 * c + 1).
  { intros c. assert (Q : Z.land (2 * c) 1 = 0); [|rewrite <- (Z.lxor_lor _ _ Q); symmetry; apply Z.add_nocarry_lxor; exact Q]. change 1 with (Z.ones 1). rewrite Z.land_ones by lia. change (2 ^ 1) with 2. rewrite Z.mul_comm. apply Z.mod_mul. lia. }
  destruct (Z.odd a) eqn:O.
  - apply Z.odd_spec in O. destruct O as [c ->]. rewrite <- G. rewrite <- Z.lor_assoc, Z.lor_diag. reflexivity.
  - assert (E : Z.even a = true) by (rewrite <- Z.negb_odd, O; reflexivity). apply Z.even_spec in E. destruct E as [c ->]. apply G.
Qed.
(** Rounding to odd first does not disturb rounding to nearest. *)
Lemma round_odd : forall p n, 1 <= p <= 60 -> 2 ^ 63 <= n < 2 ^ 64 -> 2 * rne p (Z.lor (n / 2) (n mod 2)) = rne p n.
Proof.
  intros p n P N.
  assert (L : Z.lor (n / 2) (n mod 2) = n / 2 + (if Z.odd n && negb (Z.odd (n / 2)) then 1 else 0)).
  { rewrite Zmod_odd. destruct (Z.odd n); [rewrite lor1; destruct (Z.odd (n / 2)); cbn [negb andb]; lia|]. rewrite Z.lor_0_r. cbn [andb]. lia. }
  set (t := Z.lor (n / 2) (n mod 2)) in *.
  set (k := 64 - p). assert (K : 4 <= k) by lia.
  set (h := 2 ^ (k - 2)). assert (HH : exists h', h = 2 * h' /\ 1 <= h'). { exists (2 ^ (k - 3)). split; [unfold h; rewrite <- (Z.pow_succ_r 2 (k - 3)) by lia; f_equal; lia|pose proof (p2 (k - 3)); lia]. }
  destruct HH as (h' & EH & H1).
  assert (K1 : 2 ^ (k - 1) = 2 * h). { unfold h. rewrite <- Z.pow_succ_r by lia. f_equal. lia. }
  assert (K0 : 2 ^ k = 4 * h). { replace k with (k - 1 + 1) by lia. rewrite Z.pow_add_r by lia. rewrite K1. ring. }
  pose proof (Z.div_mod n (2 ^ k)) as DM. pose proof (Z.mod_pos_bound n (2 ^ k) (p2 k ltac:(lia))) as MB.
  set (q := n / 2 ^ k) in *. set (r := n mod 2 ^ k) in *. specialize (DM ltac:(lia)). rewrite K0 in DM, MB.
  assert (ND : n / 2 = 2 * h * q + r / 2). { replace n with (r + 2 * h * q * 2) by lia. rewrite Z.div_add by lia. lia. }
  assert (ON : Z.odd n = Z.odd r). { rewrite DM. replace (4 * h * q + r) with (r + 2 * (2 * h * q)) by ring. apply Z.odd_add_mul_2. }
  assert (OD : Z.odd (n / 2) = Z.odd (r / 2)). { rewrite ND. replace (2 * h * q + r / 2) with (r / 2 + 2 * (h * q)) by ring. apply Z.odd_add_mul_2. }
  rewrite ON, OD, ND in L. set (d := if Z.odd r && negb (Z.odd (r / 2)) then 1 else 0) in *.
  assert (D : (d = 0 \/ d = 1) /\ (d = 1 -> Z.odd r = true /\ Z.odd (r / 2) = false) /\ (Z.odd r = true -> Z.odd (r / 2) = false -> d = 1)).
  { unfold d. destruct (Z.odd r), (Z.odd (r / 2)); cbn [andb negb]; repeat split; try lia; try discriminate; auto. }
  destruct D as (D01 & D1 & D2).
  pose proof (Z.div_mod r 2 ltac:(lia)) as R2. pose proof (Z.mod_pos_bound r 2 ltac:(lia)) as R2b. rewrite Zmod_odd in R2, R2b.
  set (s := r / 2) in *.
  assert (SO : exists s', s = 2 * s' + (if Z.odd s then 1 else 0)). { exists (s / 2). rewrite <- Zmod_odd. apply Z.div_mod. lia. }
  destruct SO as (s' & SO).
  assert (RB : 0 <= s + d < 2 * h). { destruct (Z.odd r), (Z.odd s); lia. }
  assert (LN : Z.log2 n = 63). { apply Z.log2_unique; [lia|]. exact N. }
  assert (QB : 2 ^ (p - 1) <= q < 2 ^ p).
  { assert (A1 : 2 ^ (p - 1) * 2 ^ k = 2 ^ 63) by (rewrite <- Z.pow_add_r by lia; f_equal; lia). assert (A2 : 2 ^ p * 2 ^ k = 2 ^ 64) by (rewrite <- Z.pow_add_r by lia; f_equal; lia).
    rewrite <- A1, <- A2, K0 in N. split; nia. }
  assert (TB : 2 ^ 62 <= t < 2 ^ 63).
  { rewrite L. assert (A1 : 2 ^ (p - 1) * (2 * h) = 2 ^ 62) by (rewrite <- K1, <- Z.pow_add_r by lia; f_equal; lia). assert (A2 : 2 ^ p * (2 * h) = 2 ^ 63) by (rewrite <- K1, <- Z.pow_add_r by lia; f_equal; lia).
    rewrite <- A1, <- A2. split; nia. }
  assert (LT : Z.log2 t = 62). { apply Z.log2_unique; [lia|]. exact TB. }
  assert (P0 : 0 < 2 ^ (p - 1)) by (apply p2; lia).
  assert (QT : t / (2 * h) = q). { symmetry. apply (Z.div_unique t (2 * h) q (s + d)); [left; exact RB|lia]. }
  assert (RT : t mod (2 * h) = s + d). { symmetry. apply (Z.mod_unique t (2 * h) q (s + d)); [left; exact RB|lia]. }
  unfold rne. change (2 ^ 62) with 4611686018427387904 in *. change (2 ^ 63) with 9223372036854775808 in *.
  rewrite (Z.abs_eq t), (Z.abs_eq n) by lia. rewrite LT, LN.
  replace (63 + 1 - p) with k by lia. replace (62 + 1 - p) with (k - 1) by lia.
  destruct (Z.leb_spec k 0); [lia|]. destruct (Z.leb_spec (k - 1) 0); [lia|].
  replace (k - 1 - 1) with (k - 2) by lia. rewrite K1, K0. fold h. rewrite QT, RT. rewrite <- K0. fold q r. rewrite K0.
  rewrite (Z.sgn_pos t), (Z.sgn_pos n) by lia.
  assert (U : (h <? s + d) || (s + d =? h) && Z.odd q = ((2 * h <? r) || (r =? 2 * h) && Z.odd q)).
  { assert (A : (h <? s + d) = (2 * h <? r)). { apply eq_true_iff_eq. rewrite !Z.ltb_lt. destruct (Z.odd r), (Z.odd s); split; intros; lia. }
    assert (B : (s + d =? h) = (r =? 2 * h)). { apply eq_true_iff_eq. rewrite !Z.eqb_eq. destruct (Z.odd r), (Z.odd s); split; intros; lia. }
    rewrite A, B. reflexivity. }
  rewrite U. destruct (_ || _); ring.
Qed.
(** A rounded value fits, and so does its double. *)
Lemma rne_fits : forall p n j, 1 <= p -> 0 <= j -> exists z, fits p z /\ same z (rne p n * 2 ^ j, 0).
Proof.
  intros p n j P J.
  assert (G : forall m k, 0 <= k -> Z.abs m <= 2 ^ p -> exists z, fits p z /\ same z (m * 2 ^ k * 2 ^ j, 0)).
  { intros m k K M.
    assert (S0 : forall a e, 0 <= e -> same (a, e) (a * 2 ^ e, 0)). { intros a e E. unfold same. cbn [fst snd]. rewrite Z.min_r by lia. rewrite Z.sub_0_r, Z.sub_diag, Z.pow_0_r. lia. }
    destruct (Z.eq_dec (Z.abs m) (2 ^ p)) as [EQ|NE].
    - exists (Z.sgn m, p + k + j). split.
      + unfold fits. cbn [fst]. assert (1 < 2 ^ p) by (apply Z.pow_gt_1; lia). destruct m; cbn; lia.
      + replace (m * 2 ^ k * 2 ^ j) with (Z.sgn m * 2 ^ (p + k + j)); [apply S0; lia|]. rewrite !Z.pow_add_r by lia. rewrite <- EQ. assert (SA : Z.sgn m * Z.abs m = m) by (destruct m; cbn; lia). rewrite <- SA at 3. ring.
    - exists (m, k + j). split; [unfold fits; cbn [fst]; lia|]. rewrite <- Z.mul_assoc, <- Z.pow_add_r by lia. apply S0. lia. }
  unfold rne. set (k := Z.log2 (Z.abs n) + 1 - p). destruct (Z.leb_spec k 0).
  - pose proof (G n 0 (Z.le_refl 0)) as X. rewrite Z.pow_0_r, Z.mul_1_r in X. apply X. clear X. destruct (Z.eq_dec n 0) as [->|N]; [cbn; pose proof (p2 p); lia|].
    pose proof (Z.log2_spec (Z.abs n) ltac:(lia)) as LS. assert (2 ^ Z.succ (Z.log2 (Z.abs n)) <= 2 ^ p) by (apply Z.pow_le_mono_r; lia). lia.
  - set (q := Z.abs n / 2 ^ k). set (b := _ || _). rewrite Z.mul_assoc. apply G; [lia|].
    assert (Q : 0 <= q < 2 ^ p).
    { split; [apply Z.div_pos; [lia|apply p2; lia]|]. apply Z.div_lt_upper_bound; [apply p2; lia|]. rewrite <- Z.pow_add_r by lia.
      replace (k + p) with (Z.succ (Z.log2 (Z.abs n))) by lia. apply Z.log2_spec. destruct (Z.eq_dec n 0) as [->|N]; [exfalso; revert H; unfold k; change (Z.log2 (Z.abs 0)) with 0; lia|lia]. }
    rewrite Z.abs_mul. assert (Z.abs (Z.sgn n) <= 1) by (destruct n; cbn; lia). destruct b; nia.
Qed.
