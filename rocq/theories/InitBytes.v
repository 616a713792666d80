(** Buffers of bytes: bits of the accesses. *)
From Coq Require Import ZArith List Bool Lia.
From Verif Require Import Base BitLemmas InitSpec InitModel.
Import ListNotations.
Local Open Scope Z_scope.

Lemma byte_nth l j : bytes_ok l -> 0 <= nth j l 0 < 256.
Proof.
  intros H. destruct (lt_dec j (length l)) as [L|L].
  - unfold bytes_ok in H. rewrite Forall_forall in H. apply H, nth_In, L.
  - rewrite nth_overflow by lia. lia.
Qed.

Lemma to_bytes_length n z : length (to_bytes n z) = n.
Proof. revert z. induction n; intros z; cbn [to_bytes length]; auto. Qed.

Lemma to_bytes_ok n z : bytes_ok (to_bytes n z).
Proof.
  revert z. induction n; intros z; constructor; [|apply IHn].
  apply Z.mod_pos_bound; lia.
Qed.

Lemma to_bytes_bit n z j b : (j < n)%nat -> 0 <= b < 8 ->
  Z.testbit (nth j (to_bytes n z) 0) b = Z.testbit z (8 * Z.of_nat j + b).
Proof.
  revert z j. induction n; intros z j L B; [lia|]. cbn [to_bytes]. destruct j as [|j]; cbn [nth].
  - change 256 with (2 ^ 8). rewrite testbit_mod by lia. destruct (Z.ltb_spec b 8); [|lia].
    replace (8 * Z.of_nat 0 + b) with b by lia. reflexivity.
  - rewrite IHn by lia. change 256 with (2 ^ 8). rewrite Z.div_pow2_bits by lia. f_equal; lia.
Qed.

Lemma of_bytes_range l : bytes_ok l -> 0 <= of_bytes l < 2 ^ (8 * Z.of_nat (length l)).
Proof.
  induction 1 as [|b l B _ IH]; cbn [of_bytes length]; [lia|].
  replace (8 * Z.of_nat (S (length l))) with (8 + 8 * Z.of_nat (length l)) by lia.
  rewrite Z.pow_add_r by lia. change (2 ^ 8) with 256. lia.
Qed.

Lemma of_bytes_bit l k : bytes_ok l -> 0 <= k -> Z.testbit (of_bytes l) k = bit_at l k.
Proof.
  intros H. revert k. induction H as [|b l B H IH]; intros k K; cbn [of_bytes].
  - unfold bit_at. rewrite Z.bits_0. destruct (Z.to_nat (k / 8)); cbn [nth]; rewrite Z.bits_0, andb_false_r; auto.
  - replace (b + 256 * of_bytes l) with (Z.lor (of_bytes l * 2 ^ 8) b).
    2:{ rewrite lor_shift_add by (change (2 ^ 8) with 256; lia). change (2 ^ 8) with 256; lia. }
    rewrite Z.lor_spec. unfold bit_at. replace (0 <=? k) with true by (symmetry; apply Z.leb_le; lia).
    cbn [andb]. destruct (Z.ltb_spec k 8) as [L|L].
    + rewrite Z.mul_pow2_bits_low by lia. rewrite Z.div_small, Z.mod_small by lia. reflexivity.
    + rewrite Z.mul_pow2_bits by lia. rewrite (testbit_small b 8) by (change (2 ^ 8) with 256; lia).
      rewrite orb_false_r, IH by lia. unfold bit_at. replace (0 <=? k - 8) with true by (symmetry; apply Z.leb_le; lia).
      cbn [andb]. assert (D : k / 8 = (k - 8) / 8 + 1) by (replace k with ((k - 8) + 1 * 8) at 1 by lia; apply Z.div_add; lia).
      assert (M : k mod 8 = (k - 8) mod 8) by (replace k with ((k - 8) + 1 * 8) at 1 by lia; apply Z.mod_add; lia).
      assert (0 <= (k - 8) / 8) by (apply Z.div_pos; lia).
      rewrite D, M. replace (Z.to_nat ((k - 8) / 8 + 1)) with (S (Z.to_nat ((k - 8) / 8))) by lia. reflexivity.
Qed.

Lemma nth_skip {A} (l : list A) i j d : nth j (skipn i l) d = nth (i + j) l d.
Proof.
  revert l. induction i; intros l; [reflexivity|]. destruct l; cbn [skipn plus nth]; [destruct j; reflexivity|apply IHi].
Qed.
Lemma nth_first {A} (l : list A) n j d : (j < n)%nat -> nth j (firstn n l) d = nth j l d.
Proof.
  revert l j. induction n; intros l j L; [lia|]. destruct l; cbn [firstn]; [reflexivity|].
  destruct j; cbn [nth]; [reflexivity|apply IHn; lia].
Qed.

Lemma div8 a b : 0 <= b < 8 -> (8 * a + b) / 8 = a.
Proof. intros. replace (8 * a + b) with (b + a * 8) by lia. rewrite Z.div_add, Z.div_small by lia. lia. Qed.
Lemma mod8 a b : 0 <= b < 8 -> (8 * a + b) mod 8 = b.
Proof. intros. replace (8 * a + b) with (b + a * 8) by lia. rewrite Z.mod_add, Z.mod_small by lia. lia. Qed.
Lemma bit_split k : exists a b, k = 8 * a + b /\ 0 <= b < 8.
Proof. exists (k / 8), (k mod 8). split; [apply Z.div_mod; lia|apply Z.mod_pos_bound; lia]. Qed.

Lemma bit_at_eq buf a b : 0 <= b < 8 -> 0 <= a -> bit_at buf (8 * a + b) = Z.testbit (nth (Z.to_nat a) buf 0) b.
Proof.
  intros B A. unfold bit_at. rewrite div8, mod8 by lia.
  replace (0 <=? 8 * a + b) with true by (symmetry; apply Z.leb_le; lia). reflexivity.
Qed.
Lemma bit_at_neg buf k : k < 0 -> bit_at buf k = false.
Proof. intros. unfold bit_at. destruct (Z.leb_spec 0 k); [lia|reflexivity]. Qed.
Lemma bit_at_out buf k : 8 * Z.of_nat (length buf) <= k -> bit_at buf k = false.
Proof.
  intros. destruct (bit_split k) as (a & b & -> & B). rewrite bit_at_eq by lia.
  rewrite nth_overflow by lia. apply Z.bits_0.
Qed.

Lemma slice_ok buf o n : bytes_ok buf -> bytes_ok (firstn n (skipn o buf)).
Proof.
  intros H. unfold bytes_ok in *. rewrite Forall_forall in *. intros x I. apply H.
  rewrite <- (firstn_skipn o buf). apply in_or_app. right.
  rewrite <- (firstn_skipn n (skipn o buf)). apply in_or_app. left. exact I.
Qed.
Lemma slice_len (buf : list Z) o n : (o + n <= length buf)%nat -> length (firstn n (skipn o buf)) = n.
Proof. intros. rewrite firstn_length, skipn_length. lia. Qed.

Lemma rd_ok buf o n : bytes_ok buf -> 0 <= o -> 0 <= n -> o + n <= Z.of_nat (length buf) ->
  exists v, rd_buf buf o n = Ok v /\ v = of_bytes (firstn (Z.to_nat n) (skipn (Z.to_nat o) buf)) /\
    0 <= v < 2 ^ (8 * n) /\
    forall k, 0 <= k < 8 * n -> Z.testbit v k = bit_at buf (8 * o + k).
Proof.
  intros B O N L. unfold rd_buf.
  replace ((0 <=? o) && (o + n <=? Z.of_nat (length buf))) with true.
  2:{ symmetry. apply andb_true_intro. split; apply Z.leb_le; lia. }
  eexists. split; [reflexivity|]. split; [reflexivity|]. split.
  - pose proof (of_bytes_range _ (slice_ok buf (Z.to_nat o) (Z.to_nat n) B)) as H.
    rewrite slice_len in H by lia. replace (8 * Z.of_nat (Z.to_nat n)) with (8 * n) in H by lia. exact H.
  - intros k K. rewrite of_bytes_bit by (try apply slice_ok; try exact B; lia).
    destruct (bit_split k) as (a & b & -> & Hb).
    replace (8 * o + (8 * a + b)) with (8 * (o + a) + b) by lia.
    rewrite !bit_at_eq by lia. rewrite nth_first, nth_skip by lia.
    do 2 f_equal. lia.
Qed.

Lemma wr_ok buf o n v : bytes_ok buf -> 0 <= o -> 0 <= n -> o + n <= Z.of_nat (length buf) ->
  exists buf', wr_buf buf o n v = Ok buf' /\ length buf' = length buf /\ bytes_ok buf' /\
    forall k, bit_at buf' k = if within (8 * o) (8 * n) k then Z.testbit v (k - 8 * o) else bit_at buf k.
Proof.
  intros B O N L. unfold wr_buf.
  replace ((0 <=? o) && (o + n <=? Z.of_nat (length buf))) with true.
  2:{ symmetry. apply andb_true_intro. split; apply Z.leb_le; lia. }
  eexists. split; [reflexivity|]. split; [|split].
  - rewrite !app_length, firstn_length, skipn_length, to_bytes_length. lia.
  - unfold bytes_ok. apply Forall_app. split; [|apply Forall_app; split].
    + apply (slice_ok buf 0); auto.
    + apply to_bytes_ok.
    + unfold bytes_ok in B. rewrite Forall_forall in *. intros x I. apply B.
      rewrite <- (firstn_skipn (Z.to_nat (o + n)) buf). apply in_or_app; auto.
  - intros k. unfold within. destruct (Z.ltb_spec k 0) as [K|K].
    { rewrite !bit_at_neg by lia. destruct (Z.leb_spec (8 * o) k); [lia|reflexivity]. }
    destruct (bit_split k) as (a & b & -> & Hb). rewrite !bit_at_eq by lia.
    destruct (Z.leb_spec (8 * o) (8 * a + b)) as [L1|L1]; cbn [andb].
    + rewrite app_nth2 by (rewrite firstn_length; lia). rewrite firstn_length.
      destruct (Z.ltb_spec (8 * a + b) (8 * o + 8 * n)).
      * rewrite app_nth1 by (rewrite to_bytes_length; lia). rewrite to_bytes_bit by lia.
        f_equal. lia.
      * rewrite app_nth2 by (rewrite to_bytes_length; lia). rewrite to_bytes_length, nth_skip.
        do 2 f_equal. lia.
    + rewrite app_nth1 by (rewrite firstn_length; lia). rewrite nth_first by lia. reflexivity.
Qed.
