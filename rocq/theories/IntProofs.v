(** Proofs about typing, conversions and constant folding of integer expressions. *)
From Coq Require Import ZArith List Bool Lia.
From Verif Require Import Base BitLemmas IntSpec IntLemmas IntModel IntTyped.
Local Open Scope Z_scope.

Lemma ity_mty t : ity (mty t) = t.
Proof. destruct t; reflexivity. Qed.

Lemma is_ty_mty t : is_ty (mty t).
Proof. unfold is_ty. rewrite ity_mty. reflexivity. Qed.
Global Hint Resolve is_ty_mty : core.

Lemma is_ty_inv t : is_ty t -> exists i, t = mty i /\ ity t = i.
Proof. intros H. exists (ity t). split; [symmetry; exact H|reflexivity]. Qed.

Lemma arith_inv t : arith_ty t -> exists i, t = mty i /\ ity t = i /\ 32 <= iwidth i /\ i <> TBool
  /\ iwidth i = 8 * sz t /\ isigned i = negb (uns t).
Proof.
  intros [H S]. destruct (is_ty_inv t H) as [i [-> E]]. exists i. rewrite E.
  destruct i; cbn in *; repeat split; try lia; discriminate.
Qed.

(** eval_sign_extend is conversion followed by representation. *)
Lemma ese_spec i x : i <> TBool -> - two63 <= x < two63 ->
  eval_sign_extend (mty i) x = rep64 (conv i x).
Proof.
  intros N R. rewrite conv_nb by auto.
  assert (S : forall k, 1 <= k <= 64 -> rep64 (sx k x) = sx k x).
  { intros k Hk. apply rep64_id. pose proof (sx_range k x ltac:(lia)).
    assert (2 ^ (k - 1) <= 2 ^ 63) by (apply Z.pow_le_mono_r; lia). unfold two63 in *. lia. }
  assert (U : forall k, 1 <= k <= 63 -> rep64 (x mod 2 ^ k) = x mod 2 ^ k).
  { intros k Hk. apply rep64_id. pose proof (mod_bound x k ltac:(lia)).
    assert (2 ^ k <= 2 ^ 63) by (apply Z.pow_le_mono_r; lia). unfold two63 in *. lia. }
  destruct i; try congruence; unfold eval_sign_extend, trunc; cbn [mty sz uns ty_pchar ty_char
    ty_uchar ty_short ty_ushort ty_int ty_uint ty_long ty_ulong ty_llong ty_ullong isigned iwidth];
  cbn [Z.eqb Pos.eqb]; try rewrite sx_sext by lia; rewrite ?S, ?U by lia; try reflexivity.
  all: try (rewrite sx_id; [reflexivity|lia|exact R]).
  all: symmetry; rewrite <- (rep64_id x R) at 2; apply rep64_cong; apply Z.mod_mod; lia.
Qed.

Lemma ese_bool x : eval_sign_extend ty_bool x = x mod 256.
Proof. reflexivity. Qed.

Lemma rep64_is_conv i v : in_range i v -> rep64 (conv i (rep64 v)) = rep64 v.
Proof. intros. rewrite conv_rep64_id by auto. reflexivity. Qed.

(** Values of well-typed trees are in range. *)
Lemma fld_range t w v : 1 <= w <= iwidth t -> fmin t w <= v <= fmax t w -> in_range t v.
Proof.
  unfold fmin, fmax. intros W H. apply in_range_nb. destruct (isigned t).
  - assert (2 ^ (w - 1) <= 2 ^ (iwidth t - 1)) by (apply Z.pow_le_mono_r; lia). lia.
  - assert (2 ^ w <= 2 ^ iwidth t) by (apply Z.pow_le_mono_r; lia). lia.
Qed.

Lemma wrap_range t z v : wrap_or_undef t z = Some v -> in_range t v.
Proof.
  unfold wrap_or_undef. destruct (isigned t).
  - destruct (in_rangeb t z) eqn:E; [|discriminate]. intros [= <-]. apply in_rangeb_spec; auto.
  - intros [= <-]. apply conv_range.
Qed.

Lemma bitop_range (f : Z -> Z -> Z)
  (Fs : forall w x y, 1 <= w -> sx w (f x y) = f (sx w x) (sx w y))
  (Fm : forall w x y, 0 <= w -> f x y mod 2 ^ w = f (x mod 2 ^ w) (y mod 2 ^ w)) t x y :
  t <> TBool -> in_range t x -> in_range t y -> in_range t (f x y).
Proof.
  intros N Hx Hy. pose proof (iwidth_pos t) as W.
  replace (f x y) with (conv t (f x y)); [apply conv_range|].
  rewrite conv_nb by auto. apply in_range_nb in Hx, Hy.
  destruct (isigned t).
  - rewrite Fs by lia. rewrite !sx_id by lia. reflexivity.
  - rewrite Fm by lia. rewrite !Z.mod_small by lia. reflexivity.
Qed.

Lemma rem_range t x y : t <> TBool -> in_range t x -> in_range t y -> y <> 0 -> in_range t (Z.rem x y).
Proof.
  intros N Hx Hy Ny. apply in_range_nb in Hx, Hy. apply in_range_nb.
  pose proof (Z.rem_bound_abs x y Ny) as B.
  destruct (isigned t).
  - destruct (Z_lt_ge_dec x 0).
    + pose proof (Z.rem_bound_neg_pos x y). pose proof (Z.rem_nonpos x y Ny ltac:(lia)). lia.
    + pose proof (Z.rem_nonneg x y Ny ltac:(lia)). lia.
  - pose proof (Z.rem_nonneg x y Ny ltac:(lia)). lia.
Qed.

Lemma c_bin_range o t x y v : t <> TBool -> in_range t x -> in_range t y ->
  c_bin o t x y = Some v -> in_range t v.
Proof.
  intros N Hx Hy. destruct o; cbn [c_bin]; try apply wrap_range.
  - destruct (y =? 0); [discriminate|]. apply wrap_range.
  - destruct (Z.eqb_spec y 0); [discriminate|]. destruct (in_rangeb t (Z.quot x y)); [|discriminate].
    intros [= <-]. apply rem_range; auto.
  - intros [= <-]. apply (bitop_range Z.land); auto using sx_land, mod_land.
  - intros [= <-]. apply (bitop_range Z.lor); auto using sx_lor, mod_lor.
  - intros [= <-]. apply (bitop_range Z.lxor); auto using sx_lxor, mod_lxor.
Qed.

Lemma div_pow_range t x n : in_range t x -> 0 <= n -> in_range t (x / 2 ^ n).
Proof.
  intros H Hn. unfold in_range in *.
  pose proof (pow2_pos n Hn). pose proof (iwidth_pos t).
  assert (imin t <= 0 <= imax t).
  { unfold imin, imax. pose proof (pow2_pos (iwidth t - 1) ltac:(lia)).
    pose proof (pow2_pos (iwidth t) ltac:(lia)). destruct (isigned t); lia. }
  split.
  - apply Z.div_le_lower_bound; [lia|]. nia.
  - destruct (Z_lt_ge_dec x 0).
    + assert (x / 2 ^ n < 0) by (apply Z.div_lt_upper_bound; lia). lia.
    + assert (x / 2 ^ n <= x) by (apply Z.div_le_upper_bound; [lia|nia]). lia.
Qed.

Lemma c_shift_range l t x n v : in_range t x -> c_shift l t x n = Some v -> in_range t v.
Proof.
  unfold c_shift. intros H. destruct (Z.leb_spec 0 n); [|discriminate].
  destruct (Z.ltb_spec n (iwidth t)); [|discriminate]. cbn [andb]. intros [= <-]. destruct l.
  - apply conv_range.
  - apply div_pow_range; auto.
Qed.

Lemma b2z_int b : in_range TInt (b2z b).
Proof. unfold in_range. destruct b; cbn; lia. Qed.

Lemma teval_range env n : wtn n -> venv env n -> forall v, teval env n = Some v ->
  in_range (ity (nty n)) v.
Proof.
  induction n; cbn [wtn venv teval nty]; intros W E r T.
  - injection T as <-. apply conv_range.
  - injection T as <-. auto.
  - injection T as <-. eapply fld_range; [apply W|apply E].
  - destruct W as [A [<- W]]. auto.
  - destruct (teval env n); [|discriminate]. eapply wrap_range; eauto.
  - destruct (teval env n); [|discriminate]. injection T as <-. apply conv_range.
  - destruct (teval env n); [|discriminate]. injection T as <-. apply b2z_int.
  - destruct W as [A [Ea [Eb [Wa Wb]]]]. destruct E as [E1 E2].
    destruct (arith_inv t A) as [i [-> [Ei [_ [N _]]]]]. rewrite Ei in *.
    destruct (teval env n1) eqn:T1; [|discriminate]. destruct (teval env n2) eqn:T2; [|discriminate].
    specialize (IHn1 Wa E1 _ eq_refl). specialize (IHn2 Wb E2 _ eq_refl).
    rewrite Ea, Ei in IHn1. rewrite Eb, Ei in IHn2. exact (c_bin_range _ _ _ _ _ N IHn1 IHn2 T).
  - destruct W as [A [Ea [Wa Wb]]]. destruct E as [E1 E2].
    destruct (teval env n1) eqn:T1; [|discriminate]. destruct (teval env n2) eqn:T2; [|discriminate].
    specialize (IHn1 Wa E1 _ eq_refl). rewrite Ea in IHn1. exact (c_shift_range _ _ _ _ _ IHn1 T).
  - destruct W as [A [Ea [Wa Wb]]]. destruct E as [E1 E2].
    destruct (teval env n1) eqn:T1; [|discriminate]. destruct (teval env n2) eqn:T2; [|discriminate].
    cbn [opt2] in T. destruct (z <? 0); [discriminate|].
    specialize (IHn1 Wa E1 _ eq_refl). rewrite Ea in IHn1. exact (c_shift_range _ _ _ _ _ IHn1 T).
  - destruct W as [A [Ea [U [Wa Wb]]]]. destruct E as [E1 E2].
    destruct (teval env n1) eqn:T1; [|discriminate]. destruct (teval env n2) eqn:T2; [|discriminate].
    specialize (IHn1 Wa E1 _ eq_refl). rewrite Ea in IHn1. exact (c_shift_range _ _ _ _ _ IHn1 T).
  - destruct (teval env n1); [|discriminate]. destruct (teval env n2); [|discriminate].
    injection T as <-. apply b2z_int.
  - destruct (teval env n1); [|discriminate]. destruct (z =? 0).
    + injection T as <-. apply (b2z_int false).
    + destruct (teval env n2); [|discriminate]. injection T as <-. apply b2z_int.
  - destruct (teval env n1); [|discriminate]. destruct (negb (z =? 0)).
    + injection T as <-. apply (b2z_int true).
    + destruct (teval env n2); [|discriminate]. injection T as <-. apply b2z_int.
  - destruct W as [A [Ea [Eb [Wc [Wa Wb]]]]]. destruct E as [E0 [E1 E2]].
    destruct (teval env n1); [|discriminate]. destruct (z =? 0).
    + rewrite <- Eb. auto.
    + rewrite <- Ea. auto.
  - destruct W as [<- [Wa Wb]]. destruct E. destruct (teval env n1); [|discriminate]. auto.
  - destruct (teval env n); [|discriminate]. injection T as <-. apply conv_range.
Qed.
