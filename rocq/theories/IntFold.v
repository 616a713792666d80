(** Correctness of the constant evaluator on typed trees. *)
From Coq Require Import ZArith List Bool Lia.
From Verif Require Import Base BitLemmas IntSpec IntLemmas IntModel IntTyped IntProofs.
Local Open Scope Z_scope.

Lemma h64_spec c z : match h64 c z with Ok r => r = rep64 z | UB => strict c = true | Abort => False end.
Proof.
  unfold h64. destruct (Z.leb_spec (- two63) z); cbn [andb].
  - destruct (Z.ltb_spec z two63).
    + rewrite rep64_id by lia. reflexivity.
    + destruct (strict c); [reflexivity|apply sext64_rep].
  - destruct (strict c); [reflexivity|apply sext64_rep].
Qed.

Lemma h_shl_spec c x n : 0 <= n < 64 ->
  match h_shl c x n with Ok r => r = rep64 (x * 2 ^ n) | UB => strict c = true | Abort => False end.
Proof.
  intros H. unfold h_shl.
  destruct ((0 <=? n) && (n <? 64) && (0 <=? x) && (x * 2 ^ n <? two63)) eqn:E.
  - rewrite !andb_true_iff, !Z.leb_le, !Z.ltb_lt in E. rewrite rep64_id; [reflexivity|].
    pose proof (pow2_pos n ltac:(lia)). unfold two63 in *. nia.
  - destruct (strict c); [reflexivity|]. rewrite (Z.mod_small n 64) by lia. apply sext64_rep.
Qed.

Lemma h_shr_spec c w x n : 0 <= n < w -> h_shr c w x n = Ok (x / 2 ^ n).
Proof.
  intros H. unfold h_shr. destruct (Z.leb_spec 0 n); [|lia]. destruct (Z.ltb_spec n w); [|lia].
  reflexivity.
Qed.

Lemma wrap_conv t z v : wrap_or_undef t z = Some v -> v = conv t z.
Proof.
  unfold wrap_or_undef. destruct (isigned t).
  - destruct (in_rangeb t z) eqn:E; [|discriminate]. intros [= <-]. symmetry. apply conv_id.
    apply in_rangeb_spec; auto.
  - congruence.
Qed.

Definition agrees (c : cfg) (n : node) (o : outcome Z) (v : Z) : Prop :=
  match o with Ok r => r = rep64 v | UB => strict c = true | Abort => ~ nclosed c n end.

(** Truncation step shared by + - * << ~ and unary -. *)
Lemma ese_step c i z z' v n : i <> TBool -> v = conv i z -> z' mod 2 ^ 64 = z mod 2 ^ 64 ->
  forall o, match o with Ok r => r = rep64 z' | UB => strict c = true | Abort => False end ->
  agrees c n (do r <- o; Ok (eval_sign_extend (mty i) r)) v.
Proof.
  intros N -> E o H. destruct o as [a| |]; cbn [bind agrees]; [|exact H|contradiction]. subst a.
  rewrite ese_spec by (auto using rep64_range). f_equal. apply conv_cong; auto.
  pose proof (iwidth_pos i). rewrite rep64_mod by lia.
  rewrite <- (mod_mod_le z' (iwidth i) 64), <- (mod_mod_le z (iwidth i) 64) by lia. congruence.
Qed.

Lemma rep64_add_mod x y : (rep64 x + rep64 y) mod 2 ^ 64 = (x + y) mod 2 ^ 64.
Proof. rewrite Zplus_mod, !rep64_mod, <- Zplus_mod by lia. reflexivity. Qed.
Lemma rep64_sub_mod x y : (rep64 x - rep64 y) mod 2 ^ 64 = (x - y) mod 2 ^ 64.
Proof. rewrite Zminus_mod, !rep64_mod, <- Zminus_mod by lia. reflexivity. Qed.
Lemma rep64_mul_mod x y : (rep64 x * rep64 y) mod 2 ^ 64 = (x * y) mod 2 ^ 64.
Proof. rewrite Zmult_mod, !rep64_mod, <- Zmult_mod by lia. reflexivity. Qed.
Lemma rep64_scale_mod x k : (rep64 x * k) mod 2 ^ 64 = (x * k) mod 2 ^ 64.
Proof. rewrite Zmult_mod, rep64_mod, <- Zmult_mod by lia. reflexivity. Qed.

Lemma signed_rep i x : isigned i = true -> in_range i x -> rep64 x = x.
Proof.
  intros S H. apply rep64_id. destruct i; try discriminate; unfold in_range, imin, imax, two63 in *;
  cbn in *; lia.
Qed.
Lemma unsigned_bound i x : isigned i = false -> in_range i x -> 0 <= x < two64.
Proof.
  intros S H. destruct i; try discriminate; unfold in_range, imin, imax, two64 in *; cbn in *; lia.
Qed.
Lemma unsigned_rep i x : isigned i = false -> in_range i x -> u64 (rep64 x) = x.
Proof. intros S H. apply rep64_u64. eapply unsigned_bound; eauto. Qed.

Lemma rep_zero i x : in_range i x -> (rep64 x =? 0) = (x =? 0).
Proof. intros H. apply rep64_zero. eapply in_range_64; eauto. Qed.

Lemma div_case c i x y v n : i <> TBool -> 32 <= iwidth i -> in_range i x -> in_range i y ->
  c_bin BDiv i x y = Some v ->
  agrees c n (if rep64 y =? 0 then Abort
       else if negb (isigned i) then Ok (i64 (u64 (rep64 x) / u64 (rep64 y)))
       else if (rep64 x =? - two63) && (rep64 y =? -1) then Ok (- two63)
       else Ok (Z.quot (rep64 x) (rep64 y))) v.
Proof.
  intros N W Hx Hy. cbn [c_bin]. rewrite (rep_zero i) by auto.
  destruct (Z.eqb_spec y 0); [discriminate|]. intros T.
  destruct (isigned i) eqn:S; cbn [negb].
  - rewrite !(signed_rep i) by auto.
    unfold wrap_or_undef in T. rewrite S in T.
    destruct (in_rangeb i (Z.quot x y)) eqn:R; [|discriminate]. injection T as <-.
    destruct (Z.eqb_spec x (- two63)) as [->|]; cbn [andb].
    + destruct (Z.eqb_spec y (-1)) as [->|].
      * exfalso. apply in_rangeb_spec in R. change (Z.quot (- two63) (-1)) with two63 in R.
        destruct i; try discriminate; unfold in_range, imin, imax, two63 in *; cbn in *; lia.
      * cbn [agrees]. rewrite (signed_rep i); auto. apply in_rangeb_spec; auto.
    + cbn [agrees]. rewrite (signed_rep i); auto. apply in_rangeb_spec; auto.
  - rewrite !(unsigned_rep i) by auto. cbn [agrees]. unfold i64. rewrite sext64_rep.
    pose proof (unsigned_bound i x S Hx). pose proof (unsigned_bound i y S Hy).
    apply wrap_conv in T. rewrite T. rewrite Z.quot_div_nonneg by lia.
    rewrite conv_id; [reflexivity|]. apply in_range_nb. apply in_range_nb in Hx. rewrite S in *.
    assert (0 <= x / y <= x); [|lia]. split; [apply Z.div_pos; lia|].
    apply Z.div_le_upper_bound; [lia|]. nia.
Qed.

Lemma mod_case c i x y v n : i <> TBool -> 32 <= iwidth i -> in_range i x -> in_range i y ->
  c_bin BMod i x y = Some v ->
  agrees c n (if rep64 y =? 0 then Abort
       else if negb (isigned i) then Ok (i64 (u64 (rep64 x) mod u64 (rep64 y)))
       else if (rep64 x =? - two63) && (rep64 y =? -1) then Ok 0
       else Ok (Z.rem (rep64 x) (rep64 y))) v.
Proof.
  intros N W Hx Hy T. pose proof (c_bin_range _ _ _ _ _ N Hx Hy T) as RV.
  revert T. cbn [c_bin]. rewrite (rep_zero i) by auto.
  destruct (Z.eqb_spec y 0); [discriminate|].
  destruct (in_rangeb i (Z.quot x y)) eqn:R; [|discriminate]. intros [= <-].
  destruct (isigned i) eqn:S; cbn [negb].
  - rewrite (signed_rep i x), (signed_rep i y) by auto.
    destruct (Z.eqb_spec x (- two63)) as [->|]; cbn [andb].
    + destruct (Z.eqb_spec y (-1)) as [->|].
      * exfalso. apply in_rangeb_spec in R. change (Z.quot (- two63) (-1)) with two63 in R.
        destruct i; try discriminate; unfold in_range, imin, imax, two63 in *; cbn in *; lia.
      * cbn [agrees]. rewrite (signed_rep i); auto.
    + cbn [agrees]. rewrite (signed_rep i); auto.
  - rewrite !(unsigned_rep i) by auto. cbn [agrees]. unfold i64. rewrite sext64_rep.
    pose proof (unsigned_bound i x S Hx). pose proof (unsigned_bound i y S Hy).
    rewrite Z.rem_mod_nonneg by lia. reflexivity.
Qed.

Lemma cmp_case i o x y : in_range i x -> in_range i y ->
  eval_cmp o (negb (isigned i)) (rep64 x) (rep64 y) = rep64 (b2z (c_cmp o x y)).
Proof.
  intros Hx Hy.
  assert (E : (rep64 x =? rep64 y) = (x =? y)).
  { destruct (Z.eqb_spec x y) as [->|]; [apply Z.eqb_refl|].
    apply Z.eqb_neq. intros E. apply (rep64_inj i) in E; auto. }
  assert (B : forall b, z_of_bool b = rep64 (b2z b)) by (intros []; reflexivity).
  unfold eval_cmp. rewrite B. destruct (isigned i) eqn:S; cbn [negb].
  - destruct o; cbn [c_cmp]; rewrite ?E, ?(signed_rep i x), ?(signed_rep i y) by auto; reflexivity.
  - rewrite !(unsigned_rep i) by auto. destruct o; cbn [c_cmp]; rewrite ?E; reflexivity.
Qed.

Lemma sx_div_field v w off : 1 <= w -> 0 <= off -> w + off <= 64 ->
  rep64 (v * 2 ^ (64 - w - off)) / 2 ^ (64 - w) = sx w (v / 2 ^ off).
Proof.
  intros Hw Ho H. rewrite <- !Z.shiftr_div_pow2, <- Z.shiftl_mul_pow2 by lia.
  apply Z.bits_inj'. intros n Hn. rewrite Z.shiftr_spec by lia. rewrite rep64_sx, !sx_bits by lia.
  destruct (Z.ltb_spec (n + (64 - w)) 64), (Z.ltb_spec n w); try lia;
  rewrite Z.shiftl_spec, Z.shiftr_spec by lia; f_equal; lia.
Qed.

Lemma mod_div_field v w off : 1 <= w -> 0 <= off -> w + off <= 64 ->
  (v * 2 ^ (64 - w - off)) mod 2 ^ 64 / 2 ^ (64 - w) = (v / 2 ^ off) mod 2 ^ w.
Proof.
  intros Hw Ho H. rewrite <- !Z.shiftr_div_pow2, <- Z.shiftl_mul_pow2 by lia.
  apply Z.bits_inj'. intros n Hn. rewrite Z.shiftr_spec by lia. rewrite !testbit_mod by lia.
  destruct (Z.ltb_spec (n + (64 - w)) 64), (Z.ltb_spec n w); try lia; cbn [andb]; auto.
  rewrite Z.shiftl_spec, Z.shiftr_spec by lia; f_equal; lia.
Qed.

Lemma field_sx t w off raw : isigned t = true -> 1 <= w ->
  field_value t w off raw = sx w (raw / 2 ^ off).
Proof.
  intros S W. unfold field_value. rewrite S. cbn [andb].
  set (b := raw / 2 ^ off). rewrite <- sx_sext by lia. unfold sext.
  destruct (Z.leb_spec (2 ^ (w - 1)) (b mod 2 ^ w)), (Z.ltb_spec (b mod 2 ^ w) (2 ^ (w - 1))); lia.
Qed.

(** Low bits only matter. *)
Lemma div_mod_low x y off w : 0 <= off -> 0 <= w -> x mod 2 ^ (off + w) = y mod 2 ^ (off + w) ->
  (x / 2 ^ off) mod 2 ^ w = (y / 2 ^ off) mod 2 ^ w.
Proof.
  intros Ho Hw E. apply mod_eq_bits; [lia|]. intros n Hn.
  rewrite <- !Z.shiftr_div_pow2, !Z.shiftr_spec by lia.
  pose proof (testbit_mod x (off + w) (n + off) ltac:(lia) ltac:(lia)) as A.
  pose proof (testbit_mod y (off + w) (n + off) ltac:(lia) ltac:(lia)) as B.
  rewrite E in A. destruct (Z.ltb_spec (n + off) (off + w)); [|lia]. cbn [andb] in *. congruence.
Qed.

Lemma ese_low i raw k : 0 <= raw < 2 ^ (8 * sz (mty i)) -> 0 <= k <= 8 * sz (mty i) ->
  eval_sign_extend (mty i) (i64 raw) mod 2 ^ k = raw mod 2 ^ k.
Proof.
  intros R K. unfold i64. rewrite sext64_rep.
  destruct (ityp_eqb i TBool) eqn:EB.
  - destruct i; try discriminate. rewrite ese_bool. cbn in R, K.
    change 256 with (2 ^ 8). rewrite mod_mod_le by lia. apply rep64_mod. lia.
  - assert (N : i <> TBool) by (destruct i; discriminate).
    rewrite ese_spec by auto using rep64_range.
    assert (W : iwidth i = 8 * sz (mty i)) by (destruct i; try discriminate; reflexivity).
    pose proof (iwidth_pos i).
    rewrite rep64_mod by lia.
    rewrite <- (mod_mod_le _ k (iwidth i)) by lia. rewrite conv_mod by auto.
    rewrite mod_mod_le by lia. apply rep64_mod. lia.
Qed.

Lemma bit_case c i w off raw n :
  1 <= w <= iwidth i -> 0 <= off -> off + w <= 8 * sz (mty i) -> 0 <= raw < 2 ^ (8 * sz (mty i)) ->
  agrees c n
    (do s <- h_shl c (eval_sign_extend (mty i) (i64 raw)) (64 - w - off);
     if uns (mty i) then do r <- h_shr c 64 (u64 s) (64 - w); Ok (i64 r)
     else h_shr c 64 s (64 - w)) (field_value i w off raw).
Proof.
  intros W O S R.
  assert (S8 : 8 * sz (mty i) <= 64) by (destruct i; cbn; lia).
  set (v := eval_sign_extend (mty i) (i64 raw)).
  assert (L : (v / 2 ^ off) mod 2 ^ w = (raw / 2 ^ off) mod 2 ^ w).
  { apply div_mod_low; [lia|lia|]. apply ese_low; [exact R|lia]. }
  pose proof (h_shl_spec c v (64 - w - off) ltac:(lia)) as H.
  destruct (h_shl c v (64 - w - off)) as [s| |]; cbn [bind agrees]; [|exact H|contradiction].
  subst s. rewrite !h_shr_spec by lia.
  assert (U : uns (mty i) = negb (isigned i)) by (destruct i; reflexivity). rewrite U.
  destruct (isigned i) eqn:SG; cbn [negb bind agrees].
  - rewrite sx_div_field, field_sx by (auto; lia).
    rewrite (sx_cong w (v / 2 ^ off) (raw / 2 ^ off)) by exact L.
    symmetry. apply rep64_id. pose proof (sx_range w (raw / 2 ^ off) ltac:(lia)).
    assert (2 ^ (w - 1) <= 2 ^ 63) by (apply Z.pow_le_mono_r; lia). unfold two63. lia.
  - unfold i64, u64, trunc. rewrite sext64_rep. f_equal.
    rewrite rep64_mod by lia. rewrite mod_div_field by lia. rewrite L.
    unfold field_value. rewrite SG. reflexivity.
Qed.

Lemma nbin_bind c n o1 o2 (a b : node) x y f v :
  agrees c a o1 x -> agrees c b o2 y ->
  (nclosed c n -> nclosed c a /\ nclosed c b) ->
  agrees c n (f (rep64 x) (rep64 y)) v ->
  agrees c n (do p <- o1; do q <- o2; f p q) v.
Proof.
  intros A B C F. destruct o1; cbn [bind agrees] in *.
  - subst. destruct o2; cbn [bind agrees] in *; [subst; exact F|exact B|tauto].
  - exact A.
  - tauto.
Qed.

Theorem eval2_ok c env n : wtn n -> venv env n -> kenv c env n ->
  forall v, teval env n = Some v -> agrees c n (eval2 c n) v.
Proof.
  induction n; intros W E K r T; pose proof (teval_range env _ W E _ T) as RR;
  cbn [wtn venv kenv teval nty] in W, E, K, T, RR.
  - (* NNum *) injection T as <-. cbn [eval2 agrees]. tauto.
  - (* NVar *) injection T as <-. cbn [eval2]. destruct (known c x) as [raw|] eqn:Kx.
    + destruct (K raw eq_refl) as [R [-> B]]. unfold obj_value. cbn [agrees].
      destruct (is_ty_inv t W) as [i [-> Ei]]. rewrite Ei in *. unfold i64. rewrite sext64_rep.
      destruct (ityp_eqb i TBool) eqn:EB.
      * destruct i; try discriminate. cbn [mty sz ty_bool kd] in R, B. specialize (B eq_refl).
        assert (D : raw = 0 \/ raw = 1) by lia. destruct D as [-> | ->]; reflexivity.
      * assert (N : i <> TBool) by (destruct i; discriminate).
        rewrite ese_spec by auto using rep64_range. f_equal. apply conv_cong; auto.
        apply rep64_mod. pose proof (iwidth_pos i). lia.
    + cbn [agrees nclosed]. rewrite Kx. congruence.
  - (* NBit *) injection T as <-. cbn [eval2]. destruct (known c x) as [raw|] eqn:Kx.
    + destruct (K raw eq_refl) as [R ->]. destruct W as [IT [W [O S]]].
      destruct (is_ty_inv t IT) as [i [-> Ei]]. rewrite Ei in *. apply bit_case; auto.
    + cbn [agrees nclosed]. rewrite Kx. congruence.
  - (* NPos *) cbn [eval2]. specialize (IHn (proj2 (proj2 W)) E K _ T).
    destruct (eval2 c n); exact IHn.
  - (* NNeg *) destruct W as [A [EA W]]. destruct (teval env n) eqn:T1; [|discriminate].
    specialize (IHn W E K _ eq_refl). cbn [eval2].
    destruct (arith_inv t A) as [i [-> [Ei [W32 [NB _]]]]]. rewrite Ei in *.
    apply wrap_conv in T.
    destruct (eval2 c n) as [x| |]; cbn [bind agrees] in IHn |- *; [subst x|exact IHn|exact IHn].
    refine (ese_step c i (- z) (- rep64 z) r _ NB T _ _ (h64_spec c _)).
    pose proof (rep64_sub_mod 0 z) as Q. rewrite (rep64_id 0) in Q by (unfold two63; lia). exact Q.
  - (* NBitNot *) destruct W as [A [EA W]]. destruct (teval env n) eqn:T1; [|discriminate].
    specialize (IHn W E K _ eq_refl). cbn [eval2].
    destruct (arith_inv t A) as [i [-> [Ei [W32 [NB _]]]]]. rewrite Ei in *.
    injection T as <-.
    destruct (eval2 c n) as [x| |]; cbn [bind agrees] in IHn |- *; [subst x|exact IHn|exact IHn].
    refine (ese_step c i (- z - 1) (Z.lnot (rep64 z)) _ (NBitNot (mty i) n) NB eq_refl _ (Ok (Z.lnot (rep64 z))) _).
    + unfold Z.lnot. pose proof (rep64_sub_mod (-1) z) as Q.
      rewrite (rep64_id (-1)) in Q by (unfold two63; lia).
      replace (Z.pred (- rep64 z)) with (-1 - rep64 z) by lia.
      replace (- z - 1) with (-1 - z) by lia. exact Q.
    + symmetry. apply rep64_id. unfold Z.lnot. pose proof (rep64_range z). lia.
  - (* NNot *) destruct (teval env n) eqn:T1; [|discriminate]. injection T as <-.
    pose proof (teval_range env _ W E _ T1) as R1. specialize (IHn W E K _ eq_refl). cbn [eval2].
    destruct (eval2 c n) as [x| |]; cbn [bind agrees] in IHn |- *; [subst x|exact IHn|exact IHn].
    rewrite (rep_zero _ _ R1). destruct (z =? 0); reflexivity.
  - (* NBin *) destruct W as [A [Ea [Eb [Wa Wb]]]]. destruct E as [E1 E2]. destruct K as [K1 K2].
    destruct (arith_inv t A) as [i [-> [Ei [W32 [NB [_ US]]]]]]. rewrite Ei in *.
    destruct (teval env n1) as [x|] eqn:T1; [|discriminate].
    destruct (teval env n2) as [y|] eqn:T2; [|discriminate]. cbn [opt2] in T.
    pose proof (teval_range env _ Wa E1 _ T1) as R1. rewrite Ea, Ei in R1.
    pose proof (teval_range env _ Wb E2 _ T2) as R2. rewrite Eb, Ei in R2.
    specialize (IHn1 Wa E1 K1 _ eq_refl). specialize (IHn2 Wb E2 K2 _ eq_refl).
    assert (CL : nclosed c (NBin o (mty i) n1 n2) -> nclosed c n1 /\ nclosed c n2) by (cbn; tauto).
    assert (UI : uns (mty i) = negb (isigned i)) by (destruct i; reflexivity).
    destruct o; cbn [eval2].
    + apply (nbin_bind c _ _ _ n1 n2 x y (fun p q => do r0 <- h64 c (p + q); Ok (eval_sign_extend (mty i) r0))); auto.
      exact (ese_step c i (x + y) _ r _ NB (wrap_conv _ _ _ T) (rep64_add_mod x y) _ (h64_spec c _)).
    + apply (nbin_bind c _ _ _ n1 n2 x y (fun p q => do r0 <- h64 c (p - q); Ok (eval_sign_extend (mty i) r0))); auto.
      exact (ese_step c i (x - y) _ r _ NB (wrap_conv _ _ _ T) (rep64_sub_mod x y) _ (h64_spec c _)).
    + apply (nbin_bind c _ _ _ n1 n2 x y (fun p q => do r0 <- h64 c (p * q); Ok (eval_sign_extend (mty i) r0))); auto.
      exact (ese_step c i (x * y) _ r _ NB (wrap_conv _ _ _ T) (rep64_mul_mod x y) _ (h64_spec c _)).
    + eapply (nbin_bind c _ _ _ n1 n2 x y); eauto. cbv beta. rewrite UI. apply div_case; auto.
    + eapply (nbin_bind c _ _ _ n1 n2 x y); eauto. cbv beta. rewrite UI. apply mod_case; auto.
    + apply (nbin_bind c _ _ _ n1 n2 x y (fun p q => Ok (Z.land p q))); auto.
      assert (T' : r = Z.land x y) by (cbn in T; congruence). rewrite T'.
      exact (eq_sym (sx_land 64 x y ltac:(lia))).
    + apply (nbin_bind c _ _ _ n1 n2 x y (fun p q => Ok (Z.lor p q))); auto.
      assert (T' : r = Z.lor x y) by (cbn in T; congruence). rewrite T'.
      exact (eq_sym (sx_lor 64 x y ltac:(lia))).
    + apply (nbin_bind c _ _ _ n1 n2 x y (fun p q => Ok (Z.lxor p q))); auto.
      assert (T' : r = Z.lxor x y) by (cbn in T; congruence). rewrite T'.
      exact (eq_sym (sx_lxor 64 x y ltac:(lia))).
  - (* NShl *) destruct W as [A [Ea [Wa Wb]]]. destruct E as [E1 E2]. destruct K as [K1 K2].
    destruct (arith_inv t A) as [i [-> [Ei [W32 [NB [_ US]]]]]]. rewrite Ei in *.
    destruct (teval env n1) as [x|] eqn:T1; [|discriminate].
    destruct (teval env n2) as [y|] eqn:T2; [|discriminate]. cbn [opt2] in T.
    specialize (IHn1 Wa E1 K1 _ eq_refl). specialize (IHn2 Wb E2 K2 _ eq_refl).
    unfold c_shift in T. destruct (Z.leb_spec 0 y); [|discriminate].
    destruct (Z.ltb_spec y (iwidth i)); [|discriminate]. cbn [andb] in T. injection T as <-.
    pose proof (iwidth_pos i). cbn [eval2].
    apply (nbin_bind c _ _ _ n1 n2 x y (fun p q => do r0 <- h_shl c p q; Ok (eval_sign_extend (mty i) r0))); auto.
    rewrite (rep64_id y) by (unfold two63; lia).
    refine (ese_step c i (x * 2 ^ y) _ _ _ NB eq_refl (rep64_scale_mod x _) _ (h_shl_spec c _ y _)). lia.
  - (* NShr *) destruct W as [A [Ea [Wa Wb]]]. destruct E as [E1 E2]. destruct K as [K1 K2].
    destruct (arith_inv t A) as [i [-> [Ei [W32 [NB [WS US]]]]]]. rewrite Ei in *.
    destruct (teval env n1) as [x|] eqn:T1; [|discriminate].
    destruct (teval env n2) as [y|] eqn:T2; [|discriminate]. cbn [opt2] in T.
    pose proof (teval_range env _ Wa E1 _ T1) as R1. rewrite Ea, Ei in R1.
    specialize (IHn1 Wa E1 K1 _ eq_refl). specialize (IHn2 Wb E2 K2 _ eq_refl).
    destruct (Z.ltb_spec x 0); [discriminate|].
    unfold c_shift in T. destruct (Z.leb_spec 0 y); [|discriminate].
    destruct (Z.ltb_spec y (iwidth i)); [|discriminate]. cbn [andb] in T. injection T as <-.
    pose proof (iwidth_pos i). cbn [eval2].
    apply (nbin_bind c _ _ _ n1 n2 x y (fun p q => if sz (mty i) =? 4 then h_shr c 32 (trunc 32 p) q
      else do r <- h_shr c 64 (u64 p) q; Ok (i64 r))); auto.
    rewrite (rep64_id y) by (unfold two63; lia). unfold trunc, u64, trunc.
    pose proof (in_range_64 _ _ R1) as X64. unfold two63, two64 in X64.
    destruct (Z.eqb_spec (sz (mty i)) 4) as [Z4|Z4].
    + rewrite rep64_mod by lia. apply in_range_nb in R1.
      replace (iwidth i) with 32 in * by lia.
      rewrite Z.mod_small by (destruct (isigned i); lia).
      rewrite h_shr_spec by lia. cbn [agrees]. symmetry. apply rep64_id.
      pose proof (Z.div_pos x (2 ^ y) ltac:(lia) ltac:(apply pow2_pos; lia)).
      assert (x / 2 ^ y <= x) by (apply Z.div_le_upper_bound; [apply pow2_pos; lia|pose proof (pow2_pos y ltac:(lia)); nia]).
      unfold two63. destruct (isigned i); lia.
    + assert (iwidth i = 64) by (destruct i; try discriminate; cbn in *; lia).
      rewrite rep64_mod by lia. rewrite Z.mod_small by lia.
      rewrite h_shr_spec by lia. cbn [bind agrees]. unfold i64. apply sext64_rep.
  - (* NSar *) destruct W as [A [Ea [UN [Wa Wb]]]]. destruct E as [E1 E2]. destruct K as [K1 K2].
    destruct (arith_inv t A) as [i [-> [Ei [W32 [NB [WS US]]]]]]. rewrite Ei in *.
    rewrite UN in US. cbn [negb] in US.
    destruct (teval env n1) as [x|] eqn:T1; [|discriminate].
    destruct (teval env n2) as [y|] eqn:T2; [|discriminate]. cbn [opt2] in T.
    pose proof (teval_range env _ Wa E1 _ T1) as R1. rewrite Ea, Ei in R1.
    specialize (IHn1 Wa E1 K1 _ eq_refl). specialize (IHn2 Wb E2 K2 _ eq_refl).
    unfold c_shift in T. destruct (Z.leb_spec 0 y); [|discriminate].
    destruct (Z.ltb_spec y (iwidth i)); [|discriminate]. cbn [andb] in T. injection T as <-.
    pose proof (iwidth_pos i). cbn [eval2].
    apply (nbin_bind c _ _ _ n1 n2 x y (fun p q => if sz (mty i) =? 4 then h_shr c 32 (sext 32 p) q
      else h_shr c 64 p q)); auto.
    rewrite (rep64_id y) by (unfold two63; lia). rewrite (signed_rep i x) by auto.
    destruct (Z.eqb_spec (sz (mty i)) 4) as [Z4|Z4].
    + rewrite sx_sext by lia. apply in_range_nb in R1 as R1'. rewrite US in R1'.
      replace (iwidth i) with 32 in * by lia.
      rewrite sx_id by lia. rewrite h_shr_spec by lia. cbn [agrees]. symmetry.
      apply (signed_rep i); auto.
    + assert (iwidth i = 64) by (destruct i; try discriminate; cbn in *; lia).
      rewrite h_shr_spec by lia. cbn [agrees]. symmetry. apply (signed_rep i); auto.
  - (* NCmp *) destruct W as [A [Eb [Wa Wb]]]. destruct E as [E1 E2]. destruct K as [K1 K2].
    destruct (arith_inv _ A) as [i [Mi [Ei [W32 [NB [WS US]]]]]].
    destruct (teval env n1) as [x|] eqn:T1; [|discriminate].
    destruct (teval env n2) as [y|] eqn:T2; [|discriminate]. cbn [opt2] in T. injection T as <-.
    pose proof (teval_range env _ Wa E1 _ T1) as R1. rewrite Ei in R1.
    pose proof (teval_range env _ Wb E2 _ T2) as R2. rewrite Eb, Ei in R2.
    specialize (IHn1 Wa E1 K1 _ eq_refl). specialize (IHn2 Wb E2 K2 _ eq_refl). cbn [eval2].
    apply (nbin_bind c _ _ _ n1 n2 x y (fun p q => Ok (eval_cmp o (uns (nty n1)) p q))); auto.
    cbn [agrees]. replace (uns (nty n1)) with (negb (isigned i)).
    + apply cmp_case; auto.
    + rewrite US. apply negb_involutive.
  - (* NLogAnd *) destruct W as [Wa Wb]. destruct E as [E1 E2]. destruct K as [K1 K2].
    destruct (teval env n1) as [x|] eqn:T1; [|discriminate].
    pose proof (teval_range env _ Wa E1 _ T1) as R1.
    specialize (IHn1 Wa E1 K1 _ eq_refl). cbn [eval2].
    destruct (eval2 c n1) as [p| |]; cbn [bind agrees nclosed] in IHn1 |- *; [subst p|exact IHn1|tauto].
    rewrite (rep_zero _ _ R1). destruct (x =? 0).
    + injection T as <-. reflexivity.
    + destruct (teval env n2) as [y|] eqn:T2; [|discriminate]. injection T as <-.
      pose proof (teval_range env _ Wb E2 _ T2) as R2. specialize (IHn2 Wb E2 K2 _ eq_refl).
      destruct (eval2 c n2) as [q| |]; cbn [bind agrees nclosed] in IHn2 |- *; [subst q|exact IHn2|tauto].
      rewrite (rep_zero _ _ R2). destruct (y =? 0); reflexivity.
  - (* NLogOr *) destruct W as [Wa Wb]. destruct E as [E1 E2]. destruct K as [K1 K2].
    destruct (teval env n1) as [x|] eqn:T1; [|discriminate].
    pose proof (teval_range env _ Wa E1 _ T1) as R1.
    specialize (IHn1 Wa E1 K1 _ eq_refl). cbn [eval2].
    destruct (eval2 c n1) as [p| |]; cbn [bind agrees nclosed] in IHn1 |- *; [subst p|exact IHn1|tauto].
    rewrite (rep_zero _ _ R1). destruct (x =? 0); cbn [negb] in T.
    + destruct (teval env n2) as [y|] eqn:T2; [|discriminate]. injection T as <-.
      pose proof (teval_range env _ Wb E2 _ T2) as R2. specialize (IHn2 Wb E2 K2 _ eq_refl).
      destruct (eval2 c n2) as [q| |]; cbn [bind agrees nclosed] in IHn2 |- *; [subst q|exact IHn2|tauto].
      rewrite (rep_zero _ _ R2). destruct (y =? 0); reflexivity.
    + injection T as <-. reflexivity.
  - (* NCond *) destruct W as [A [Ea [Eb [Wc [Wa Wb]]]]]. destruct E as [E0 [E1 E2]]. destruct K as [K0 [K1 K2]].
    destruct (teval env n1) as [x|] eqn:T1; [|discriminate].
    pose proof (teval_range env _ Wc E0 _ T1) as R1.
    specialize (IHn1 Wc E0 K0 _ eq_refl). cbn [eval2].
    destruct (eval2 c n1) as [p| |]; cbn [bind agrees nclosed] in IHn1 |- *; [subst p|exact IHn1|tauto].
    rewrite (rep_zero _ _ R1). destruct (x =? 0).
    + specialize (IHn3 Wb E2 K2 _ T). destruct (eval2 c n3); cbn [agrees nclosed] in *; tauto.
    + specialize (IHn2 Wa E1 K1 _ T). destruct (eval2 c n2); cbn [agrees nclosed] in *; tauto.
  - (* NComma *) destruct W as [Eb [Wa Wb]]. destruct E as [E1 E2]. destruct K as [K1 K2].
    destruct (teval env n1) as [x|] eqn:T1; [|discriminate].
    specialize (IHn1 Wa E1 K1 _ eq_refl). specialize (IHn2 Wb E2 K2 _ T). cbn [eval2].
    destruct (is_var n1).
    + destruct (eval2 c n2); cbn [agrees nclosed] in *; tauto.
    + destruct (eval2 c n1); cbn [bind agrees nclosed] in *; [|exact IHn1|tauto].
      destruct (eval2 c n2); cbn [agrees nclosed] in *; tauto.
  - (* NCast *) destruct W as [A W]. destruct (teval env n) as [x|] eqn:T1; [|discriminate].
    injection T as <-. pose proof (teval_range env _ W E _ T1) as R1.
    specialize (IHn W E K _ eq_refl). cbn [eval2].
    destruct (eval2 c n) as [p| |]; cbn [bind agrees nclosed] in IHn |- *; [subst p|exact IHn|exact IHn].
    destruct (is_ty_inv t A) as [i [-> Ei]]. rewrite Ei in *.
    destruct (ityp_eqb i TBool) eqn:EB.
    + destruct i; try discriminate. cbn [is_bool kd mty ty_bool agrees]. rewrite (rep_zero _ _ R1).
      unfold conv. destruct (x =? 0); reflexivity.
    + assert (N : i <> TBool) by (destruct i; discriminate).
      replace (is_bool (mty i)) with false by (destruct i; try discriminate; reflexivity).
      cbn [agrees]. rewrite ese_spec by auto using rep64_range. f_equal.
      apply conv_rep64. eapply in_range_64; eauto.
Qed.
