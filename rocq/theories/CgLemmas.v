(** Machine lemmas for the code generation proofs. *)
From Coq Require Import ZArith List Bool Lia Morphisms Setoid.
From Verif Require Import Base BitLemmas IntSpec IntLemmas IntModel IntTyped IntProofs IntFold X86 CgModel.
Import ListNotations.
Local Open Scope Z_scope.

(** ** Congruence modulo 2^n *)
Definition eqm (n a b : Z) : Prop := a mod 2 ^ n = b mod 2 ^ n.

Lemma eqm_refl n a : eqm n a a. Proof. reflexivity. Qed.
Lemma eqm_sym n a b : eqm n a b -> eqm n b a. Proof. unfold eqm. congruence. Qed.
Lemma eqm_trans n a b c : eqm n a b -> eqm n b c -> eqm n a c. Proof. unfold eqm. congruence. Qed.
Lemma eqm_le n k a b : 0 <= k <= n -> eqm n a b -> eqm k a b.
Proof.
  unfold eqm. intros H E. rewrite <- (mod_mod_le a k n), <- (mod_mod_le b k n) by lia. congruence.
Qed.
Lemma eqm_mod n a : 0 <= n -> eqm n (a mod 2 ^ n) a.
Proof. intros. unfold eqm. apply Z.mod_mod. pose proof (pow2_pos n H). lia. Qed.
Lemma eqm_mod_le n k a : 0 <= k <= n -> eqm k (a mod 2 ^ n) a.
Proof. intros. eapply eqm_le; [|apply eqm_mod]; lia. Qed.
Lemma eqm_add n a b c d : eqm n a b -> eqm n c d -> eqm n (a + c) (b + d).
Proof. unfold eqm. intros A B. rewrite (Zplus_mod a), (Zplus_mod b), A, B. reflexivity. Qed.
Lemma eqm_sub n a b c d : eqm n a b -> eqm n c d -> eqm n (a - c) (b - d).
Proof. unfold eqm. intros A B. rewrite (Zminus_mod a), (Zminus_mod b), A, B. reflexivity. Qed.
Lemma eqm_mul n a b c d : eqm n a b -> eqm n c d -> eqm n (a * c) (b * d).
Proof. unfold eqm. intros A B. rewrite (Zmult_mod a), (Zmult_mod b), A, B. reflexivity. Qed.
Lemma eqm_opp n a b : eqm n a b -> eqm n (- a) (- b).
Proof. intros. apply (eqm_sub n 0 0 a b); auto. apply eqm_refl. Qed.
Lemma eqm_land n a b c d : 0 <= n -> eqm n a b -> eqm n c d -> eqm n (Z.land a c) (Z.land b d).
Proof. unfold eqm. intros H A B. rewrite !mod_land by auto. congruence. Qed.
Lemma eqm_lor n a b c d : 0 <= n -> eqm n a b -> eqm n c d -> eqm n (Z.lor a c) (Z.lor b d).
Proof. unfold eqm. intros H A B. rewrite !mod_lor by auto. congruence. Qed.
Lemma eqm_lxor n a b c d : 0 <= n -> eqm n a b -> eqm n c d -> eqm n (Z.lxor a c) (Z.lxor b d).
Proof. unfold eqm. intros H A B. rewrite !mod_lxor by auto. congruence. Qed.
Lemma eqm_conv t z : t <> TBool -> eqm (iwidth t) (conv t z) z.
Proof. intros. apply conv_mod; auto. Qed.
Lemma eqm_rep64 v k : 0 <= k <= 64 -> eqm k (rep64 v) v.
Proof. intros. apply rep64_mod; auto. Qed.
Lemma eqm_sext n v : 1 <= n -> eqm n (sext n v) v.
Proof. intros. rewrite sx_sext by auto. apply sx_mod; auto. Qed.

Lemma eqm_wrap t z v : t <> TBool -> wrap_or_undef t z = Some v -> eqm (iwidth t) z v.
Proof. intros N H. rewrite (wrap_conv _ _ _ H). apply eqm_sym, eqm_conv; auto. Qed.

Lemma nbits_pos s : 8 <= nbits s <= 64. Proof. destruct s; cbn; lia. Qed.
Lemma nbits_nbytes s : nbits s = 8 * Z.of_nat (nbytes s). Proof. destruct s; reflexivity. Qed.

(** ** Signed reading *)
Lemma sgn_mod n a : 1 <= n -> sgn n (a mod 2 ^ n) = sx n a.
Proof. intros. rewrite <- sx_sext by auto. reflexivity. Qed.

Lemma sgn_val i x a : isigned i = true -> in_range i x -> eqm (iwidth i) a x ->
  sgn (iwidth i) (a mod 2 ^ iwidth i) = x.
Proof.
  intros S R E. pose proof (iwidth_pos i). rewrite sgn_mod by lia. rewrite (sx_cong _ _ _ E).
  apply in_range_nb in R. rewrite S in R. apply sx_id; lia.
Qed.

Lemma unsigned_val i x a : 0 <= x -> in_range i x -> eqm (iwidth i) a x ->
  a mod 2 ^ iwidth i = x.
Proof.
  intros S R E. rewrite E. apply Z.mod_small. apply in_range_nb in R.
  pose proof (pow2_half (iwidth i) ltac:(pose proof (iwidth_pos i); lia)).
  pose proof (pow2_pos (iwidth i - 1) ltac:(pose proof (iwidth_pos i); lia)).
  destruct (isigned i); lia.
Qed.

(** ** Comparison flags *)
Lemma flags_signed i o x y a b : isigned i = true -> in_range i x -> in_range i y ->
  eqm (iwidth i) a x -> eqm (iwidth i) b y ->
  cond_holds (cmp_cc o false) (sub_flags (iwidth i) (a mod 2 ^ iwidth i) (b mod 2 ^ iwidth i))
  = c_cmp o x y.
Proof.
  intros S Rx Ry Ea Eb. pose proof (iwidth_pos i) as Hn.
  unfold sub_flags. rewrite (sgn_val i x a), (sgn_val i y b) by auto. rewrite Ea, Eb.
  apply in_range_nb in Rx, Ry. rewrite S in Rx, Ry.
  rewrite <- Zminus_mod.
  pose proof (pow2_half (iwidth i) ltac:(lia)) as P2. set (H := 2 ^ (iwidth i - 1)) in *.
  rewrite P2. assert (HP : 0 < H) by (apply pow2_pos; lia).
  assert (R : (x - y) mod (2 * H) = if x - y <? 0 then x - y + 2 * H else x - y).
  { destruct (Z.ltb_spec (x - y) 0).
    - rewrite <- (Z.mod_add _ 1) by lia. rewrite Z.mod_small; lia.
    - apply Z.mod_small. lia. }
  rewrite R. clear R. destruct (Z.ltb_spec (x - y) 0);
  destruct o; cbn [cmp_cc cond_holds c_cmp zf sf of];
    repeat match goal with
    | |- context [?u =? ?w] => destruct (Z.eqb_spec u w)
    | |- context [?u <? ?w] => destruct (Z.ltb_spec u w)
    | |- context [?u <=? ?w] => destruct (Z.leb_spec u w)
    end; cbn; try reflexivity; lia.
Qed.

Lemma flags_unsigned i o x y a b : 0 <= x -> 0 <= y -> in_range i x -> in_range i y ->
  eqm (iwidth i) a x -> eqm (iwidth i) b y ->
  cond_holds (cmp_cc o true) (sub_flags (iwidth i) (a mod 2 ^ iwidth i) (b mod 2 ^ iwidth i))
  = c_cmp o x y.
Proof.
  intros Px Py Rx Ry Ea Eb. pose proof (iwidth_pos i) as Hn.
  rewrite (unsigned_val i x a), (unsigned_val i y b) by auto.
  unfold sub_flags.
  assert (Bx : x < 2 ^ iwidth i) by (rewrite <- (unsigned_val i x x) at 1 by (auto; reflexivity); apply mod_bound; lia).
  assert (By : y < 2 ^ iwidth i) by (rewrite <- (unsigned_val i y y) at 1 by (auto; reflexivity); apply mod_bound; lia).
  set (H := 2 ^ iwidth i) in *.
  assert (R : (x - y) mod H = if x - y <? 0 then x - y + H else x - y).
  { destruct (Z.ltb_spec (x - y) 0).
    - rewrite <- (Z.mod_add _ 1) by lia. rewrite Z.mod_small; lia.
    - apply Z.mod_small. lia. }
  rewrite R. clear R. destruct (Z.ltb_spec (x - y) 0);
  destruct o; cbn [cmp_cc cond_holds c_cmp zf cf];
    repeat match goal with
    | |- context [?u =? ?w] => destruct (Z.eqb_spec u w)
    | |- context [?u <? ?w] => destruct (Z.ltb_spec u w)
    | |- context [?u <=? ?w] => destruct (Z.leb_spec u w)
    end; cbn; try reflexivity; lia.
Qed.

Lemma flags_cmp i o x y a b : in_range i x -> in_range i y ->
  eqm (iwidth i) a x -> eqm (iwidth i) b y ->
  cond_holds (cmp_cc o (negb (isigned i)))
    (sub_flags (iwidth i) (a mod 2 ^ iwidth i) (b mod 2 ^ iwidth i)) = c_cmp o x y.
Proof.
  intros Rx Ry Ea Eb. destruct (isigned i) eqn:S; cbn [negb].
  - apply flags_signed; auto.
  - apply flags_unsigned; auto; apply in_range_nb in Rx, Ry; rewrite S in *; lia.
Qed.

Lemma test_flags n a : 1 <= n -> and_flags n (a mod 2 ^ n) (a mod 2 ^ n) = sub_flags n (a mod 2 ^ n) 0.
Proof.
  intros H. unfold and_flags, sub_flags. rewrite Z.land_diag, Z.sub_0_r, Z.mod_mod.
  2: pose proof (pow2_pos n ltac:(lia)); lia.
  pose proof (pow2_half n H). pose proof (pow2_pos (n - 1) ltac:(lia)).
  pose proof (mod_bound a n ltac:(lia)).
  f_equal.
  - destruct (Z.ltb_spec (a mod 2 ^ n) 0); [lia|reflexivity].
  - unfold sgn. destruct (Z.ltb_spec 0 (2 ^ (n - 1))); [|lia].
    destruct (Z.ltb_spec (a mod 2 ^ n) (2 ^ (n - 1))).
    all: repeat match goal with
    | |- context [?u <? ?w] => destruct (Z.ltb_spec u w)
    | |- context [?u <=? ?w] => destruct (Z.leb_spec u w)
    end; cbn; try reflexivity; lia.
Qed.

(** ** Memory *)
Lemma loadn_range k a f : 0 <= loadn k a f < 2 ^ (8 * Z.of_nat k).
Proof.
  revert a. induction k; intros a; cbn [loadn]; [cbn; lia|].
  replace (8 * Z.of_nat (S k)) with (8 * Z.of_nat k + 8) by lia. rewrite Z.pow_add_r by lia.
  specialize (IHk (a + 1)). pose proof (Z.mod_pos_bound (f a) 256 ltac:(lia)).
  change (2 ^ 8) with 256. lia.
Qed.

Lemma loadn_ext k a f g : (forall x, a <= x < a + Z.of_nat k -> f x = g x) -> loadn k a f = loadn k a g.
Proof.
  revert a. induction k; intros a H; cbn [loadn]; [reflexivity|].
  rewrite (H a) by lia. rewrite (IHk (a + 1)); [reflexivity|]. intros. apply H. lia.
Qed.

Lemma loadn_low k j a f : (j <= k)%nat -> loadn j a f = loadn k a f mod 2 ^ (8 * Z.of_nat j).
Proof.
  revert j a. induction k; intros j a H.
  - destruct j; [|lia]. cbn. reflexivity.
  - destruct j; [cbn [loadn]; change (8 * Z.of_nat 0) with 0; rewrite Z.mod_1_r; reflexivity|].
    cbn [loadn]. rewrite (IHk j (a + 1)) by lia.
    replace (8 * Z.of_nat (S j)) with (8 + 8 * Z.of_nat j) by lia. rewrite Z.pow_add_r by lia.
    change (2 ^ 8) with 256. set (q := loadn k (a + 1) f).
    pose proof (Z.mod_pos_bound (f a) 256 ltac:(lia)).
    pose proof (pow2_pos (8 * Z.of_nat j) ltac:(lia)).
    rewrite Z.rem_mul_r by lia.
    replace (f a mod 256 + 256 * q) with (f a mod 256 + q * 256) by lia.
    rewrite Z.mod_add, Z.div_add, Z.mod_mod by lia.
    rewrite (Z.div_small (f a mod 256) 256) by lia. rewrite Z.add_0_l. reflexivity.
Qed.

Lemma loadn_high k i a f : (i <= k)%nat ->
  loadn (k - i) (a + Z.of_nat i) f = loadn k a f / 2 ^ (8 * Z.of_nat i).
Proof.
  revert k a. induction i; intros k a H.
  - rewrite Nat.sub_0_r. change (8 * Z.of_nat 0) with 0. rewrite Z.div_1_r, Z.add_0_r. reflexivity.
  - destruct k; [lia|]. cbn [loadn Nat.sub].
    replace (a + Z.of_nat (S i)) with (a + 1 + Z.of_nat i) by lia. rewrite IHi by lia.
    replace (8 * Z.of_nat (S i)) with (8 + 8 * Z.of_nat i) by lia. rewrite Z.pow_add_r by lia.
    pose proof (pow2_pos (8 * Z.of_nat i) ltac:(lia)). change (2 ^ 8) with 256.
    rewrite <- Z.div_div by lia. f_equal.
    replace (f a mod 256 + 256 * loadn k (a + 1) f) with (f a mod 256 + loadn k (a + 1) f * 256) by lia.
    pose proof (Z.mod_pos_bound (f a) 256 ltac:(lia)).
    rewrite Z.div_add by lia. rewrite (Z.div_small (f a mod 256) 256) by lia. lia.
Qed.

(** Part of a little-endian number. *)
Lemma loadn_part k i j a f : (i + j <= k)%nat ->
  loadn j (a + Z.of_nat i) f = (loadn k a f / 2 ^ (8 * Z.of_nat i)) mod 2 ^ (8 * Z.of_nat j).
Proof. intros H. rewrite <- loadn_high by lia. apply loadn_low. lia. Qed.

Lemma loadn_storen k a v f : loadn k a (storen k a v f) = v mod 2 ^ (8 * Z.of_nat k).
Proof.
  revert a v f. induction k; intros a v f.
  - cbn. rewrite Z.mod_1_r. reflexivity.
  - cbn [loadn].
    assert (E : loadn k (a + 1) (storen (S k) a v f) = loadn k (a + 1) (storen k (a + 1) (v / 256) f)).
    { apply loadn_ext. intros x Hx. unfold storen.
      destruct (Z.leb_spec a x); [|lia]. destruct (Z.ltb_spec x (a + Z.of_nat (S k))); [|lia].
      destruct (Z.leb_spec (a + 1) x); [|lia]. destruct (Z.ltb_spec x (a + 1 + Z.of_nat k)); [|lia].
      cbn [andb]. replace (8 * (x - a)) with (8 + 8 * (x - (a + 1))) by lia.
      rewrite Z.pow_add_r by lia. change (2 ^ 8) with 256.
      pose proof (pow2_pos (8 * (x - (a + 1))) ltac:(lia)).
      rewrite Z.div_div by lia. reflexivity. }
    rewrite E, IHk. unfold storen. rewrite Z.leb_refl.
    destruct (Z.ltb_spec a (a + Z.of_nat (S k))); [|lia]. cbn [andb].
    rewrite Z.sub_diag. change (8 * 0) with 0. rewrite Z.div_1_r, Z.mod_mod by lia.
    replace (8 * Z.of_nat (S k)) with (8 + 8 * Z.of_nat k) by lia. rewrite Z.pow_add_r by lia.
    pose proof (pow2_pos (8 * Z.of_nat k) ltac:(lia)). change (2 ^ 8) with 256.
    rewrite Z.rem_mul_r by lia. reflexivity.
Qed.

Lemma storen_other k a v f x : x < a \/ a + Z.of_nat k <= x -> storen k a v f x = f x.
Proof.
  intros H. unfold storen. destruct (Z.leb_spec a x); [|reflexivity].
  destruct (Z.ltb_spec x (a + Z.of_nat k)); [lia|reflexivity].
Qed.

(** ** Running code *)
Lemma label_eqb_eq a b : label_eqb a b = true <-> a = b.
Proof.
  destruct a as [k x], b as [k' y]. unfold label_eqb. cbn [fst snd].
  rewrite andb_true_iff, Z.eqb_eq. split.
  - intros [H ->]. destruct k, k'; try discriminate; reflexivity.
  - intros [= -> ->]. split; [destruct k'; reflexivity|reflexivity].
Qed.

Lemma label_eqb_refl a : label_eqb a a = true.
Proof. apply label_eqb_eq. reflexivity. Qed.

Lemma run_app sym c1 c2 j m :
  run sym (c1 ++ c2) j m =
  match run sym c1 j m with Some (j', m') => run sym c2 j' m' | None => None end.
Proof.
  revert j m. induction c1 as [|i c1 IH]; intros j m; [reflexivity|].
  cbn [app run]. destruct j as [l|].
  - destruct i; auto. destruct (label_eqb l l0); auto.
  - destruct i; auto;
    try (match goal with |- context [exec1 sym ?i m] => destruct (exec1 sym i m); auto end).
    destruct (fl m); auto.
Qed.

Lemma run_skip sym c l m : ~ In l (labels c) -> run sym c (Some l) m = Some (Some l, m).
Proof.
  induction c as [|i c IH]; intros H; [reflexivity|].
  cbn [run]. unfold labels in *. cbn [flat_map] in H. rewrite in_app_iff in H.
  destruct i; auto. destruct (label_eqb l l0) eqn:E; auto.
  apply label_eqb_eq in E. subst. cbn in H. tauto.
Qed.

Lemma labels_app a b : labels (a ++ b) = labels a ++ labels b.
Proof. apply flat_map_app. Qed.

(** ** From the straight-line view to the program counter *)
Lemma steps_trans sym p s1 s2 s3 : steps sym p s1 s2 -> steps sym p s2 s3 -> steps sym p s1 s3.
Proof. induction 1; eauto using steps. Qed.

Lemma find_label_app l a b :
  find_label l (a ++ b) =
  match find_label l a with
  | Some k => Some k
  | None => match find_label l b with Some k => Some (length a + k)%nat | None => None end
  end.
Proof.
  induction a as [|i a IH]; cbn [app find_label].
  - destruct (find_label l b); reflexivity.
  - rewrite IH. destruct i; try (destruct (find_label l a); [reflexivity|];
      destruct (find_label l b); cbn [length Nat.add]; reflexivity).
    destruct (label_eqb l l0); [reflexivity|].
    destruct (find_label l a); [reflexivity|]. destruct (find_label l b); reflexivity.
Qed.

Lemma find_label_notin l a : ~ In l (labels a) -> find_label l a = None.
Proof.
  induction a as [|i a IH]; cbn [find_label]; intros H; [reflexivity|].
  unfold labels in H. cbn [flat_map] in H. rewrite in_app_iff in H.
  rewrite IH by (unfold labels; tauto). destruct i; auto.
  destruct (label_eqb l l0) eqn:E; auto. apply label_eqb_eq in E. subst. cbn in H. tauto.
Qed.

Lemma run_steps sym code : forall pre post j m m',
  NoDup (labels (pre ++ code ++ post)) ->
  run sym code j m = Some (None, m') ->
  match j with
  | None => steps sym (pre ++ code ++ post) (length pre, m) (length (pre ++ code), m')
  | Some l => exists k, find_label l (pre ++ code ++ post) = Some k /\
                steps sym (pre ++ code ++ post) (k, m) (length (pre ++ code), m')
  end.
Proof.
  induction code as [|i code IH]; intros pre post j m m' ND R.
  - cbn [run] in R. injection R as -> ->. rewrite app_nil_r. constructor.
  - assert (EP : pre ++ (i :: code) ++ post = (pre ++ [i]) ++ code ++ post) by (rewrite <- app_assoc; reflexivity).
    assert (EL : length (pre ++ i :: code) = length ((pre ++ [i]) ++ code)) by (rewrite <- app_assoc; reflexivity).
    assert (LP : length (pre ++ [i]) = S (length pre)) by (rewrite app_length; cbn; lia).
    assert (NT : nth_error (pre ++ (i :: code) ++ post) (length pre) = Some i).
    { rewrite nth_error_app2, Nat.sub_diag by lia. reflexivity. }
    pose proof (fun j m => IH (pre ++ [i]) post j m m' ltac:(rewrite <- EP; exact ND)) as IH'.
    rewrite <- EP, <- EL in IH'. clear IH.
    assert (EX : forall m1, step sym (pre ++ (i :: code) ++ post) (length pre, m) = Some (S (length pre), m1) ->
              run sym code None m1 = Some (None, m') ->
              steps sym (pre ++ (i :: code) ++ post) (length pre, m) (length (pre ++ i :: code), m')).
    { intros m1 S1 R1. econstructor; [exact S1|]. rewrite <- LP. apply (IH' None). exact R1. }
    assert (JM : forall l, run sym code (Some l) m = Some (None, m') -> exists k,
              find_label l (pre ++ (i :: code) ++ post) = Some k /\
              steps sym (pre ++ (i :: code) ++ post) (k, m) (length (pre ++ i :: code), m')).
    { intros l R1. apply (IH' (Some l)). exact R1. }
    cbn [run] in R. destruct j as [l|].
    + destruct i; try (apply JM; exact R).
      destruct (label_eqb l l0) eqn:E; [|apply JM; exact R].
      apply label_eqb_eq in E. subst l0. exists (length pre). split.
      * rewrite find_label_app. rewrite find_label_notin.
        -- cbn [app find_label]. rewrite label_eqb_refl. f_equal. lia.
        -- rewrite !labels_app in ND. intros IN. unfold labels in ND at 2. cbn [flat_map lab_of app] in ND.
           apply NoDup_remove_2 in ND. apply ND. apply in_or_app. left. exact IN.
      * apply (EX m); [|exact R]. unfold step. rewrite NT. reflexivity.
    + destruct i; try (match type of R with context [exec1 sym ?i m] =>
        destruct (exec1 sym i m) as [m1|] eqn:E; [|discriminate]; apply (EX m1); [|exact R];
        unfold step; rewrite NT, E; reflexivity end).
      * destruct (JM l R) as [k [F S]]. econstructor; [|exact S]. unfold step. rewrite NT, F. reflexivity.
      * destruct (fl m) as [f|] eqn:F; [|discriminate]. destruct (cond_holds c f) eqn:CH.
        -- destruct (JM l R) as [k [FL S]]. econstructor; [|exact S]. unfold step. rewrite NT, F, CH, FL. reflexivity.
        -- apply (EX m); [|exact R]. unfold step. rewrite NT, F, CH. reflexivity.
      * apply (EX m); [|exact R]. unfold step. rewrite NT. reflexivity.
Qed.
