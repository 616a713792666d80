(** Bit-level lemmas on Z used throughout. *)
From Coq Require Import ZArith Lia Bool.
Local Open Scope Z_scope.

Lemma pow2_pos k : 0 <= k -> 0 < 2 ^ k.
Proof. intros; apply Z.pow_pos_nonneg; lia. Qed.

Lemma testbit_small x k n : 0 <= x < 2 ^ k -> 0 <= k -> k <= n -> Z.testbit x n = false.
Proof.
  intros H Hk Hn. destruct (Z.eq_dec x 0) as [->|]; [apply Z.bits_0|].
  apply Z.bits_above_log2; [lia|].
  assert (Z.log2 x < k) by (apply Z.log2_lt_pow2; lia). lia.
Qed.

Lemma lor_shift_add a x k : 0 <= k -> 0 <= x < 2 ^ k -> Z.lor (a * 2 ^ k) x = a * 2 ^ k + x.
Proof.
  intros Hk Hx. symmetry.
  rewrite <- Z.shiftl_mul_pow2 by auto.
  assert (E : Z.land (Z.shiftl a k) x = 0).
  { apply Z.bits_inj'. intros n Hn. rewrite Z.land_spec, Z.bits_0.
    destruct (Z_lt_ge_dec n k).
    - rewrite Z.shiftl_spec_low by auto. reflexivity.
    - rewrite (testbit_small x k n) by lia. apply andb_false_r. }
  rewrite Z.add_nocarry_lxor, Z.lxor_lor by auto. reflexivity.
Qed.

Lemma lor_add_const c a x k : c = a * 2 ^ k -> 0 <= k -> 0 <= x < 2 ^ k -> Z.lor c x = c + x.
Proof. intros ->. apply lor_shift_add. Qed.

Lemma land_ones_mod x k : 0 <= k -> Z.land x (2 ^ k - 1) = x mod 2 ^ k.
Proof.
  intros H. replace (2 ^ k - 1) with (Z.ones k) by (rewrite Z.ones_equiv; lia).
  apply Z.land_ones; auto.
Qed.

Lemma land_const_mod x m k : 0 <= k -> m = 2 ^ k - 1 -> Z.land x m = x mod 2 ^ k.
Proof. intros H ->. apply land_ones_mod; auto. Qed.

Lemma shiftr_div x k : 0 <= k -> Z.shiftr x k = x / 2 ^ k.
Proof. intros; apply Z.shiftr_div_pow2; auto. Qed.

Lemma shiftl_mul x k : 0 <= k -> Z.shiftl x k = x * 2 ^ k.
Proof. intros; apply Z.shiftl_mul_pow2; auto. Qed.

Lemma mod_bound x k : 0 <= k -> 0 <= x mod 2 ^ k < 2 ^ k.
Proof. intros. apply Z.mod_pos_bound. apply pow2_pos; auto. Qed.

(** Bits of x mod 2^k. *)
Lemma testbit_mod x k n : 0 <= k -> 0 <= n ->
  Z.testbit (x mod 2 ^ k) n = (n <? k) && Z.testbit x n.
Proof.
  intros Hk Hn. rewrite <- Z.land_ones, Z.land_spec by auto.
  destruct (Z.ltb_spec n k).
  - rewrite Z.ones_spec_low by lia. rewrite andb_true_r. reflexivity.
  - rewrite Z.ones_spec_high by lia. rewrite andb_false_r. reflexivity.
Qed.

Lemma mod_eq_bits x y k : 0 <= k ->
  (forall n, 0 <= n < k -> Z.testbit x n = Z.testbit y n) -> x mod 2 ^ k = y mod 2 ^ k.
Proof.
  intros Hk H. apply Z.bits_inj'. intros n Hn. rewrite !testbit_mod by auto.
  destruct (Z.ltb_spec n k); [|reflexivity]. rewrite H by lia. reflexivity.
Qed.

Lemma mod_mod_le x a b : 0 <= a <= b -> (x mod 2 ^ b) mod 2 ^ a = x mod 2 ^ a.
Proof.
  intros H. apply mod_eq_bits; [lia|]. intros n Hn. rewrite testbit_mod by lia.
  destruct (Z.ltb_spec n b); [reflexivity|lia].
Qed.

Lemma mod_mod_ge x a b : 0 <= a <= b -> (x mod 2 ^ a) mod 2 ^ b = x mod 2 ^ a.
Proof.
  intros H. apply Z.mod_small. pose proof (mod_bound x a ltac:(lia)).
  assert (2 ^ a <= 2 ^ b) by (apply Z.pow_le_mono_r; lia). lia.
Qed.
