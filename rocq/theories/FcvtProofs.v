From Coq Require Import ZArith List Bool Lia.
From Verif Require Import Base BitLemmas IntSpec IntLemmas IntModel IntTyped X86 CgModel CgLemmas FcvtSpec FcvtModel FcvtMath.
Import ListNotations.
Local Open Scope Z_scope.

Lemma cvtt_in : forall n v, - 2 ^ (n - 1) <= v < 2 ^ (n - 1) -> cvtt_int n v = v mod 2 ^ n.
Proof. intros n v H. unfold cvtt_int. destruct (Z.leb_spec (- 2 ^ (n - 1)) v), (Z.ltb_spec v (2 ^ (n - 1))); try lia. reflexivity. Qed.
Lemma mm : forall a n k, 0 <= n <= k -> (a mod 2 ^ k) mod 2 ^ n = a mod 2 ^ n.
Proof. intros a n k H. apply eqm_mod_le. lia. Qed.
Lemma sgn_small : forall n a, 1 <= n -> - 2 ^ (n - 1) <= a < 2 ^ (n - 1) -> sgn n (a mod 2 ^ n) = a.
Proof. intros n a N H. rewrite sgn_mod by lia. apply sx_id; lia. Qed.
Lemma load_other : forall n k a b v f, a + Z.of_nat n <= b \/ b + Z.of_nat k <= a -> loadn n a (storen k b v f) = loadn n a f.
Proof. intros n k a b v f H. apply loadn_ext. intros x X. apply storen_other. lia. Qed.
Lemma load_low : forall k j a v f, (j <= k)%nat -> loadn j a (storen k a v f) = v mod 2 ^ (8 * Z.of_nat j).
Proof. intros k j a v f H. rewrite (loadn_low k j) by exact H. rewrite loadn_storen. apply mm. lia. Qed.
Lemma rc_bits : forall a, 0 <= a -> (Z.lor a 3072 mod 2 ^ 16 / 2 ^ 10) mod 4 = 3.
Proof.
  intros a H. assert (E : (Z.lor a 3072 mod 2 ^ 16 / 2 ^ 10) mod 2 ^ 2 = 3); [|exact E].
  rewrite <- (Z.land_ones _ 16), <- Z.shiftr_div_pow2, <- Z.land_ones by lia.
  rewrite Z.land_lor_distr_l, Z.shiftr_lor, Z.land_lor_distr_l. change (Z.land (Z.shiftr (Z.land 3072 (Z.ones 16)) 10) (Z.ones 2)) with (Z.ones 2).
  apply Z.bits_inj'. intros i I. rewrite Z.lor_spec, Z.land_spec. change 3 with (Z.ones 2). destruct (Z.testbit (Z.ones 2) i); rewrite ?andb_false_r, ?orb_true_r; reflexivity.
Qed.

Section F.
Variable rnd : dy -> dy.
Lemma cvtt_range : forall s v, 0 <= cvtt_int (nbits s) v < 2 ^ nbits s.
Proof.
  intros s v. unfold cvtt_int. destruct (_ && _); [apply Z.mod_pos_bound, p2; destruct s; cbn; lia|]. destruct s; cbn; lia.
Qed.
Definition ldv (sg : bool) (t : size) (v : Z) : Z := match t with S8 => v | _ => (if sg then sgn (nbits t) v else v) mod 2 ^ 32 end.
Lemma f80_ok : forall s sg t m x r, fst_ m = x :: r -> 0 <= cw m < 2 ^ 16 -> (nbytes t <= nbytes s)%nat ->
  exists m', crun 64 rnd (from_f80 s (LdM sg t 0 RA)) m = Some m' /\ safe m m' /\ fst_ m' = r /\
    ra m' = ldv sg t (cvtt_int (nbits s) (trunc_dy x) mod 2 ^ nbits t) mod 2 ^ 64.
Proof.
  intros s sg t m x r ST CW NT. unfold from_f80.
  set (sp := rsp m - 24).
  set (c1 := Z.lor (cw m) 3072).
  set (v := cvtt_int (nbits s) (trunc_dy x)).
  set (M1 := storen 2 (sp + 14) (cw m) (mem m)).
  set (M2 := storen 2 (sp + 12) (c1 mod 2 ^ 64) M1).
  set (M3 := storen (nbytes s) (sp + 0) v M2).
  assert (NB : (nbytes s <= 8)%nat) by (destruct s; cbn; lia).
  assert (L1 : loadn 2 (sp + 14) M1 = cw m). { unfold M1. rewrite loadn_storen. apply Z.mod_small. exact CW. }
  assert (L2 : loadn 2 (sp + 12) M2 = c1 mod 2 ^ 16). { unfold M2. rewrite loadn_storen. apply (mm c1 16 64). lia. }
  assert (L3 : loadn 2 (sp + 14) M3 = cw m). { unfold M3. rewrite load_other by lia. unfold M2. rewrite load_other by lia. exact L1. }
  assert (L4 : loadn (nbytes t) (sp + 0) M3 = v mod 2 ^ nbits t). { unfold M3. rewrite load_low by exact NT. rewrite <- nbits_nbytes. reflexivity. }
  assert (RC3 : (c1 mod 2 ^ 16 / 2 ^ 10) mod 4 = 3) by (apply rc_bits; lia).
  assert (EO : Z.lor ((cw m mod 2 ^ 32) mod 2 ^ 64 mod 2 ^ 32) 3072 = c1). { unfold c1. rewrite !(Z.mod_small (cw m)) by lia. reflexivity. }
  eexists. split.
  - cbn [crun cexec put get put_mem put_sp put_cw put_st ra rc rd_ rsp x0 x1 fst_ cw be mem nbytes nbits].
    change (rsp m + -24) with sp. fold M1. rewrite L1. change (12 * 256) with 3072. rewrite EO. fold M2. rewrite L2, RC3, ST. cbn [Z.eqb Pos.eqb].
    cbn [crun cexec put get put_mem put_sp put_cw put_st ra rc rd_ rsp x0 x1 fst_ cw be mem nbytes nbits].
    fold v. fold M3. rewrite L3, L4. fold (ldv sg t (v mod 2 ^ nbits t)). reflexivity.
  - cbn [put_mem put_sp put_cw put_st ra rc rd_ rsp x0 x1 fst_ cw be mem]. split; [|split; reflexivity]. split; [|split].
    + cbn [rsp put_sp]. unfold sp. lia.
    + reflexivity.
    + intros a A. cbn [mem put_sp]. unfold M3, M2, M1. rewrite !storen_other by (unfold sp; lia). reflexivity.
Qed.

Lemma single63 : single_of 0x5F000000 = Some (2 ^ 23, 40). Proof. vm_compute. reflexivity. Qed.
Lemma double63 : double_of 0x43e0000000000000 = Some (2 ^ 52, 11). Proof. vm_compute. reflexivity. Qed.

(** float and double to an unsigned 64-bit integer. *)
Lemma land_m1 : forall a, 0 <= a < 2 ^ 64 -> Z.land ((-1) mod 2 ^ 64) a = a.
Proof. intros a A. change ((-1) mod 2 ^ 64) with (Z.ones 64). rewrite Z.land_comm, Z.land_ones by lia. apply Z.mod_small. exact A. Qed.
Lemma lor63 : forall a, 0 <= a < 2 ^ 63 -> Z.lor (2 ^ 63) a = 2 ^ 63 + a.
Proof.
  intros a A. assert (Q : Z.land (2 ^ 63) a = 0).
  { apply Z.bits_inj'. intros i I. rewrite Z.land_spec, Z.bits_0, Z.pow2_bits_eqb by lia. destruct (Z.eqb_spec 63 i); [|reflexivity]. subst i.
    rewrite Z.testbit_odd, Z.shiftr_div_pow2, Z.div_small by lia. reflexivity. }
  rewrite <- (Z.lxor_lor _ _ Q). symmetry. apply Z.add_nocarry_lxor. exact Q.
Qed.
Lemma lxor63 : forall a, 0 <= a < 2 ^ 63 -> Z.lxor (2 ^ 63) a = 2 ^ 63 + a.
Proof.
  intros a A. rewrite <- lor63 by exact A. apply Z.lxor_lor.
  apply Z.bits_inj'. intros i I. rewrite Z.land_spec, Z.bits_0, Z.pow2_bits_eqb by lia. destruct (Z.eqb_spec 63 i); [|reflexivity]. subst i.
  rewrite Z.testbit_odd, Z.shiftr_div_pow2, Z.div_small by lia. reflexivity.
Qed.

Lemma u64_ok : forall f m, f <> F80 -> exact_on (prec f) rnd -> fits (prec f) (x0 m) -> 0 <= trunc_dy (x0 m) < 2 ^ 64 ->
  exists m', crun (prec f) rnd (f_to_i f U64) m = Some m' /\ safe m m' /\ fst_ m' = fst_ m /\ ra m' = trunc_dy (x0 m).
Proof.
  intros f m NF EX FI TR. set (t := trunc_dy (x0 m)) in *.
  set (c := cvtt_int 64 t).
  assert (C : c = if t <? 2 ^ 63 then t else 2 ^ 63).
  { unfold c, cvtt_int. change (2 ^ (64 - 1)) with (2 ^ 63). destruct (Z.leb_spec (- 2 ^ 63) t); [|lia]. destruct (Z.ltb_spec t (2 ^ 63)); cbn [andb]; [|reflexivity]. apply Z.mod_small. lia. }
  assert (CR : 0 <= c < 2 ^ 64) by (rewrite C; destruct (Z.ltb_spec t (2 ^ 63)); lia).
  assert (P : 0 < prec f <= 64) by (destruct f; cbn; lia).
  assert (STEP : forall k, 0 <= k <= 63 ->
    Z.lor c (Z.land ((if 2 ^ 63 <=? c then -1 else 0) mod 2 ^ 64) (cvtt_int 64 (trunc_dy (rnd (dsub (x0 m) (2 ^ k, 63 - k)))) mod 2 ^ 64) mod 2 ^ 64) mod 2 ^ 64 = t).
  { intros k K. rewrite C. destruct (Z.ltb_spec t (2 ^ 63)).
    - destruct (Z.leb_spec (2 ^ 63) t); [lia|]. cbv iota. rewrite Z.mod_0_l, Z.lor_0_r by lia. apply Z.mod_small. lia.
    - rewrite (sub63 (prec f)) by (try assumption; fold t; lia). fold t. destruct (Z.leb_spec (2 ^ 63) (2 ^ 63)); [|lia]. cbv iota.
      rewrite cvtt_in by (change (2 ^ (64 - 1)) with (2 ^ 63); lia). rewrite !(Z.mod_small (t - 2 ^ 63)) by lia. rewrite land_m1 by lia. rewrite (Z.mod_small (t - 2 ^ 63)) by lia.
      rewrite lor63 by lia. rewrite Z.mod_small by lia. lia. }
  destruct f; [| |contradiction].
  - eexists. split.
    + cbn [f_to_i crun cexec put get put_x0 ra rc rd_ rsp x0 x1 fst_ cw be mem nbits]. change (0x5F000000 mod 2 ^ 64 mod 2 ^ 32) with 0x5F000000. rewrite single63.
      cbn [crun cexec put get put_x0 ra rc rd_ rsp x0 x1 fst_ cw be mem nbits]. fold t. fold c. rewrite !(Z.mod_small c) by lia. reflexivity.
    + split; [split; [|split]; reflexivity|]. split; [reflexivity|]. cbn [ra]. exact (STEP 23 ltac:(lia)).
  - eexists. split.
    + cbn [f_to_i crun cexec put get put_x0 ra rc rd_ rsp x0 x1 fst_ cw be mem nbits]. change (0x43e0000000000000 mod 2 ^ 64) with 0x43e0000000000000. rewrite double63.
      cbn [crun cexec put get put_x0 ra rc rd_ rsp x0 x1 fst_ cw be mem nbits]. fold t. fold c. rewrite !(Z.mod_small c) by lia. reflexivity.
    + split; [split; [|split]; reflexivity|]. split; [reflexivity|]. cbn [ra]. exact (STEP 52 ltac:(lia)).
Qed.

(** long double to an unsigned 64-bit integer. *)
Lemma shl63 : forall a b, (a / 256 * 256 + (if b : bool then 1 else 0)) mod 2 ^ 64 mod 2 = if b then 1 else 0.
Proof.
  intros a b. match goal with |- ?z mod 2 ^ 64 mod 2 = _ => change (z mod 2 ^ 64 mod 2 ^ 1 = if b then 1 else 0) end. rewrite mm by lia. change (2 ^ 1) with 2.
  replace (a / 256 * 256) with (a / 256 * 128 * 2) by ring. rewrite Z.add_comm, Z.mod_add by lia. destruct b; reflexivity.
Qed.
Lemma u64_f80 : forall m x r, fst_ m = x :: r -> exact_on 64 rnd -> fits 64 x -> 0 <= cw m < 2 ^ 16 -> 0 <= trunc_dy x < 2 ^ 64 ->
  exists m', crun 64 rnd (f_to_i F80 U64) m = Some m' /\ safe m m' /\ fst_ m' = r /\ ra m' = trunc_dy x.
Proof.
  intros m x r ST EX FI CW TR. set (t := trunc_dy x) in *. cbn [f_to_i].
  set (sp := rsp m - 16).
  set (c1 := Z.lor (cw m) 3072).
  set (b := 2 ^ 63 <=? t).
  set (y := rnd (dsub x (if b then (2 ^ 23, 40) else (0, 0)))).
  set (v := cvtt_int 64 (trunc_dy y)).
  assert (TY : trunc_dy y = if b then t - 2 ^ 63 else t).
  { unfold y, b, t. destruct (Z.leb_spec (2 ^ 63) (trunc_dy x)); [exact (sub63 64 rnd x 23 ltac:(lia) ltac:(lia) EX FI ltac:(fold t; lia))|apply (sub0 64); assumption]. }
  assert (V : v = if b then t - 2 ^ 63 else t).
  { unfold v. rewrite TY. unfold b. destruct (Z.leb_spec (2 ^ 63) t); (rewrite cvtt_in; [apply Z.mod_small; lia|change (2 ^ (64 - 1)) with (2 ^ 63); lia]). }
  set (M0 := storen 4 (sp + 12) 1593835520 (mem m)).
  set (M1 := storen 2 (sp + 4) (cw m) M0).
  set (M2 := storen 2 (sp + 6) (c1 mod 2 ^ 64) M1).
  set (M3 := storen 8 (sp + 8) v M2).
  assert (L0 : loadn 4 (sp + 12) M0 = 1593835520). { unfold M0. rewrite loadn_storen. reflexivity. }
  assert (L1 : loadn 2 (sp + 4) M1 = cw m). { unfold M1. rewrite loadn_storen. apply Z.mod_small. exact CW. }
  assert (L2 : loadn 2 (sp + 6) M2 = c1 mod 2 ^ 16). { unfold M2. rewrite loadn_storen. apply (mm c1 16 64). lia. }
  assert (L3 : loadn 2 (sp + 4) M3 = cw m). { unfold M3. rewrite load_other by lia. unfold M2. rewrite load_other by lia. exact L1. }
  assert (VR : 0 <= v < 2 ^ 63). { rewrite V. unfold b. destruct (Z.leb_spec (2 ^ 63) t); lia. }
  assert (L4 : loadn 8 (sp + 8) M3 = v). { unfold M3. rewrite loadn_storen. apply Z.mod_small. change (8 * Z.of_nat 8) with 64. lia. }
  assert (RC3 : (c1 mod 2 ^ 16 / 2 ^ 10) mod 4 = 3) by (apply rc_bits; lia).
  assert (EO : Z.lor ((cw m mod 2 ^ 32) mod 2 ^ 64 mod 2 ^ 32) 3072 = c1). { unfold c1. rewrite !(Z.mod_small (cw m)) by lia. reflexivity. }
  assert (DL : dle (2 ^ 23, 40) x = b) by (apply dle63; [exact FI|fold t; lia]).
  eexists. split.
  - cbn [crun cexec put get put_mem put_sp put_cw put_st put_be ra rc rd_ rsp x0 x1 fst_ cw be mem nbytes nbits].
    change (rsp m + -16) with sp. fold M0. rewrite L0, single63. cbv iota beta. cbn [crun cexec put get put_mem put_sp put_cw put_st put_be ra rc rd_ rsp x0 x1 fst_ cw be mem nbytes nbits].
    rewrite ST. cbn [crun cexec put get put_mem put_sp put_cw put_st put_be ra rc rd_ rsp x0 x1 fst_ cw be mem nbytes nbits].
    rewrite DL. fold y. fold M1. rewrite L1, EO. fold M2. rewrite L2, RC3. cbn [Z.eqb Pos.eqb].
    cbn [crun cexec put get put_mem put_sp put_cw put_st put_be ra rc rd_ rsp x0 x1 fst_ cw be mem nbytes nbits].
    fold v. fold M3. rewrite L3, L4, shl63. reflexivity.
  - cbn [put_mem put_sp put_cw put_st ra rc rd_ rsp x0 x1 fst_ cw be mem]. split; [|split; [reflexivity|]]. { split; [|split].
    + cbn [rsp put_sp]. unfold sp. lia.
    + reflexivity.
    + intros a A. cbn [mem put_sp]. unfold M3, M2, M1, M0. rewrite !storen_other by (unfold sp; lia). reflexivity. }
    destruct b.
    + rewrite Z.mul_1_l, (Z.mod_small (2 ^ 63)) by lia. rewrite lxor63 by exact VR. rewrite Z.mod_small by lia. lia.
    + change (0 * 2 ^ 63) with 0. rewrite Z.mod_0_l, Z.lxor_0_l by lia. rewrite Z.mod_small by lia. exact V.
Qed.

Lemma msm : forall a k n, 0 <= n <= k -> k <= 64 -> (a mod 2 ^ k) mod 2 ^ 64 mod 2 ^ n = a mod 2 ^ n.
Proof. intros a k n N K. rewrite (mm (a mod 2 ^ k) n 64) by lia. apply mm. lia. Qed.
Lemma m64 : forall a k, 0 <= k <= 64 -> (a mod 2 ^ k) mod 2 ^ 64 = a mod 2 ^ k.
Proof. intros a k K. apply Z.mod_small. pose proof (Z.mod_pos_bound a (2 ^ k) (p2 k ltac:(lia))). assert (2 ^ k <= 2 ^ 64) by (apply Z.pow_le_mono_r; lia). lia. Qed.

Lemma ext_ok : forall sg n t, 1 <= n <= 32 -> (if sg : bool then - 2 ^ (n - 1) <= t < 2 ^ (n - 1) else 0 <= t < 2 ^ n) ->
  (if sg then sgn n (t mod 2 ^ n) else t mod 2 ^ n) = t.
Proof. intros [|] n t N H; [apply sgn_small; lia|apply Z.mod_small; lia]. Qed.

Theorem to_int : forall f T x m, T <> TBool -> exact_on (prec f) rnd -> fits (prec f) x -> fval f m = Some x -> 0 <= cw m < 2 ^ 16 ->
  in_range T (trunc_dy x) -> (f = F80 -> ok80 T (trunc_dy x)) ->
  exists m', crun (prec f) rnd (f_to_i f (getTypeId (mty T))) m = Some m' /\ holds_int T (trunc_dy x) m' /\ safe m m' /\ popped f m m'.
Proof.
  intros f T x m NB EX FI FV CW IR OK.
  assert (E : f <> F80 \/ f = F80) by (destruct f; [left|left|right]; congruence).
  destruct E as [E|E].
  - assert (X : x0 m = x) by (destruct f; [| |contradiction]; injection FV as FV; exact FV).
    assert (SM : forall s sg, (s = S1 \/ s = S2) -> (if sg : bool then - 2 ^ (nbits s - 1) <= trunc_dy x < 2 ^ (nbits s - 1) else 0 <= trunc_dy x < 2 ^ nbits s) ->
      exists m', crun (prec f) rnd [Cvtt S4 RA; Ext sg s] m = Some m' /\ ra m' mod 2 ^ 32 = trunc_dy x mod 2 ^ 32 /\ safe m m' /\ fst_ m' = fst_ m).
    { intros s sg SS H. assert (NS : 1 <= nbits s <= 16) by (destruct SS; subst s; cbn; lia).
      assert (TB : - 2 ^ 31 <= trunc_dy x < 2 ^ 31).
      { assert (2 ^ nbits s <= 2 ^ 16) by (apply Z.pow_le_mono_r; lia). assert (2 ^ (nbits s - 1) <= 2 ^ 15) by (apply Z.pow_le_mono_r; lia). destruct sg; lia. }
      eexists. split; [cbn [crun cexec put ra rc rd_ rsp x0 x1 fst_ cw be mem]; reflexivity|]. split; [|split; [split; [|split]; reflexivity|reflexivity]].
      cbn [ra]. rewrite X. change (nbits S4) with 32. rewrite cvtt_in by (change (32 - 1) with 31; lia). rewrite (msm (trunc_dy x) 32 (nbits s)) by lia. rewrite ext_ok by (try lia; exact H).
      rewrite m64 by lia. apply Z.mod_mod. lia. }
    assert (S4_ : - 2 ^ 31 <= trunc_dy x < 2 ^ 31 -> exists m', crun (prec f) rnd [Cvtt S4 RA] m = Some m' /\ ra m' mod 2 ^ 32 = trunc_dy x mod 2 ^ 32 /\ safe m m' /\ fst_ m' = fst_ m).
    { intros H. eexists. split; [cbn [crun cexec put ra rc rd_ rsp x0 x1 fst_ cw be mem]; reflexivity|]. split; [|split; [split; [|split]; reflexivity|reflexivity]].
      cbn [ra]. rewrite X. change (nbits S4) with 32. rewrite cvtt_in by (change (32 - 1) with 31; lia). apply msm; lia. }
    assert (S8_ : forall n, 0 <= n <= 64 -> - 2 ^ 63 <= trunc_dy x < 2 ^ 63 -> exists m', crun (prec f) rnd [Cvtt S8 RA] m = Some m' /\ ra m' mod 2 ^ n = trunc_dy x mod 2 ^ n /\ safe m m' /\ fst_ m' = fst_ m).
    { intros n N H. eexists. split; [cbn [crun cexec put ra rc rd_ rsp x0 x1 fst_ cw be mem]; reflexivity|]. split; [|split; [split; [|split]; reflexivity|reflexivity]].
      cbn [ra]. rewrite X. change (nbits S8) with 64. rewrite cvtt_in by (change (64 - 1) with 63; lia). apply msm; lia. }
    assert (U8_ : 0 <= trunc_dy x < 2 ^ 64 -> exists m', crun (prec f) rnd (f_to_i f U64) m = Some m' /\ ra m' mod 2 ^ 64 = trunc_dy x mod 2 ^ 64 /\ safe m m' /\ fst_ m' = fst_ m).
    { intros H. destruct (u64_ok f m E EX) as (m' & R1 & R2 & R3 & R4); [rewrite X; exact FI|rewrite X; exact H|]. exists m'. split; [exact R1|]. split; [rewrite R4, X; reflexivity|]. split; assumption. }
    assert (PP : forall m', fst_ m' = fst_ m -> popped f m m') by (intros m' P; destruct f; [exact P|exact P|contradiction]).
    assert (W : exists m', crun (prec f) rnd (f_to_i f (getTypeId (mty T))) m = Some m' /\ holds_int T (trunc_dy x) m' /\ safe m m' /\ fst_ m' = fst_ m).
    { unfold in_range in IR. unfold holds_int. destruct T; cbv [imin imax isigned iwidth] in IR; [contradiction| | | | | | | | | | |];
        cbn [mty getTypeId regbits];
        try exact (U8_ ltac:(lia)).
      all: destruct f; [| |contradiction]; cbn [f_to_i].
      all: try (apply (SM S1 true); [auto|cbn [nbits]; lia]); try (apply (SM S1 false); [auto|cbn [nbits]; lia]); try (apply (SM S2 true); [auto|cbn [nbits]; lia]); try (apply (SM S2 false); [auto|cbn [nbits]; lia]).
      all: try (apply S4_; lia). all: try (apply S8_; lia). }
    destruct W as (m' & W1 & W2 & W3 & W4). exists m'. auto.
  - subst f. cbn [fval prec popped] in *. destruct (fst_ m) as [|x' r] eqn:ST; [discriminate|]. injection FV as FV. subst x'. specialize (OK eq_refl). cbn [tl].
    assert (G : forall s sg t n v, (nbytes t <= nbytes s)%nat -> 0 <= n <= 64 ->
      ldv sg t (cvtt_int (nbits s) (trunc_dy x) mod 2 ^ nbits t) mod 2 ^ 64 mod 2 ^ n = v ->
      exists m', crun 64 rnd (from_f80 s (LdM sg t 0 RA)) m = Some m' /\ ra m' mod 2 ^ n = v /\ safe m m' /\ fst_ m' = r).
    { intros s sg t n v NT N H. destruct (f80_ok s sg t m x r ST CW NT) as (m' & R1 & R2 & R3 & R4). exists m'. split; [exact R1|]. split; [rewrite R4; exact H|]. split; assumption. }
    assert (U8_ : 0 <= trunc_dy x < 2 ^ 64 -> exists m', crun 64 rnd (f_to_i F80 U64) m = Some m' /\ ra m' mod 2 ^ 64 = trunc_dy x mod 2 ^ 64 /\ safe m m' /\ fst_ m' = r).
    { intros H. destruct (u64_f80 m x r ST EX FI CW H) as (m' & R1 & R2 & R3 & R4). exists m'. split; [exact R1|]. split; [rewrite R4; reflexivity|]. split; assumption. }
    set (t := trunc_dy x) in *. clearbody t.
    assert (K : forall s sg q, (nbytes q <= nbytes s)%nat -> q <> S8 -> - 2 ^ (nbits s - 1) <= t < 2 ^ (nbits s - 1) ->
      (if sg : bool then - 2 ^ (nbits q - 1) <= t < 2 ^ (nbits q - 1) else q = S4 \/ 0 <= t < 2 ^ nbits q) ->
      ldv sg q (cvtt_int (nbits s) t mod 2 ^ nbits q) mod 2 ^ 64 mod 2 ^ 32 = t mod 2 ^ 32).
    { intros s sg q NQ Q8 TS TQ. rewrite cvtt_in by exact TS. rewrite (mm t (nbits q) (nbits s)) by (rewrite !nbits_nbytes; lia).
      assert (NQ1 : 1 <= nbits q <= 32) by (destruct q; [| | |contradiction]; cbn; lia).
      replace (ldv sg q (t mod 2 ^ nbits q)) with (t mod 2 ^ 32).
      - rewrite m64 by lia. apply Z.mod_mod. lia.
      - unfold ldv. destruct sg.
        + rewrite sgn_small by lia. destruct q; [| | |contradiction]; reflexivity.
        + destruct TQ as [->|TQ]; [cbn [nbits]; symmetry; apply Z.mod_mod; lia|]. rewrite (Z.mod_small t (2 ^ nbits q)) by exact TQ. destruct q; [| | |contradiction]; reflexivity. }
    unfold in_range in IR. unfold holds_int. destruct T; cbv [imin imax isigned iwidth] in IR; [contradiction| | | | | | | | | | |];
      cbn [mty getTypeId regbits ok80] in *; cbn [f_to_i].
    all: try exact (U8_ ltac:(lia)).
    all: try (apply G; [cbn; lia|lia|]; apply K; [cbn; lia|discriminate|cbn [nbits]; lia|cbn [nbits]; try lia; auto]).
    all: apply G; [cbn; lia|lia|]; unfold ldv; cbn [nbits]; rewrite cvtt_in by (change (64 - 1) with 63; lia); rewrite !Z.mod_mod by lia; reflexivity.
Qed.

Lemma rne_small : forall n p, 1 <= p -> Z.abs n < 2 ^ p -> rne p n = n.
Proof.
  intros n p P H. unfold rne. destruct (Z.leb_spec (Z.log2 (Z.abs n) + 1 - p) 0) as [L|L]; [reflexivity|].
  destruct (Z.eq_dec n 0) as [->|N]; [cbn in L; lia|]. pose proof (Z.log2_lt_pow2 (Z.abs n) p ltac:(lia)). lia.
Qed.
Lemma same_refl : forall x, same x x. Proof. intros. reflexivity. Qed.
Lemma add64 : forall n, 2 ^ 63 <= n < 2 ^ 64 -> same (dadd (n - 2 ^ 64, 0) (2 ^ 23, 41)) (n, 0).
Proof. intros n N. unfold same, dadd. cbn [fst snd]. change (Z.min 0 41) with 0. change (Z.min 0 0) with 0. change (41 - 0) with 41. change (0 - 0) with 0. change (2 ^ 23 * 2 ^ 41) with (2 ^ 64). rewrite !Z.pow_0_r. lia. Qed.
Lemma dbl : forall z, same (dadd (z, 0) (z, 0)) (2 * z, 0).
Proof. intros z. unfold same, dadd. cbn [fst snd]. change (Z.min 0 0) with 0. cbn [fst snd]. change (0 - 0) with 0. rewrite !Z.pow_0_r. lia. Qed.
Lemma same_sym : forall a b, same a b -> same b a.
Proof. intros a b H. unfold same in *. rewrite (Z.min_comm (snd b)). symmetry. exact H. Qed.
Lemma same_trans : forall a b c, same a b -> same b c -> same a c.
Proof.
  intros [a ea] [b eb] [c ec]. unfold same. cbn [fst snd]. intros H1 H2.
  set (e1 := Z.min ea eb) in *. set (e2 := Z.min eb ec) in *. set (e3 := Z.min ea ec). set (e := Z.min e1 e2).
  assert (A1 : a * 2 ^ (ea - e) = b * 2 ^ (eb - e)).
  { replace (ea - e) with ((ea - e1) + (e1 - e)) by lia. replace (eb - e) with ((eb - e1) + (e1 - e)) by lia. rewrite !Z.pow_add_r by lia. rewrite !Z.mul_assoc, H1. reflexivity. }
  assert (A2 : b * 2 ^ (eb - e) = c * 2 ^ (ec - e)).
  { replace (ec - e) with ((ec - e2) + (e2 - e)) by lia. replace (eb - e) with ((eb - e2) + (e2 - e)) by lia. rewrite !Z.pow_add_r by lia. rewrite !Z.mul_assoc, H2. reflexivity. }
  rewrite A2 in A1. assert (E : 0 < 2 ^ (e3 - e)) by (apply p2; lia).
  apply (Z.mul_cancel_r _ _ (2 ^ (e3 - e))); [lia|]. rewrite <- !Z.mul_assoc, <- !Z.pow_add_r by lia.
  replace (ea - e3 + (e3 - e)) with (ea - e) by lia. replace (ec - e3 + (e3 - e)) with (ec - e) by lia. exact A1.
Qed.

Lemma u64_f : forall f n m, f <> F80 -> exact_on (prec f) rnd -> 0 <= n < 2 ^ 64 -> ra m = n ->
  exists m' y, crun (prec f) rnd (i_to_f U64 f) m = Some m' /\ x0 m' = y /\ same y (rne (prec f) n, 0) /\ safe m m' /\ fst_ m' = fst_ m.
Proof.
  intros f n m NF EX N A.
  assert (P : 1 <= prec f <= 60) by (destruct f; [cbn; lia|cbn; lia|contradiction]).
  assert (EC : crun (prec f) rnd (i_to_f U64 f) m =
    crun (prec f) rnd (if 2 ^ 63 <=? n then [MovRR S8 RA RD; AndI 1 RA; Shr1 RD; OrRR RA RD; Cvtsi S8 RD; AddX] else [Cvtsi S8 RA]) m).
  { rewrite <- A. destruct f; [| |contradiction]; cbn [i_to_f crun cexec]; destruct (2 ^ 63 <=? ra m); reflexivity. }
  rewrite EC. destruct (Z.leb_spec (2 ^ 63) n) as [B|B].
  - set (k := Z.lor (n / 2) (n mod 2)).
    assert (KR : 0 <= k < 2 ^ 63).
    { split; [apply Z.lor_nonneg; split; [apply Z.div_pos; lia|apply Z.mod_pos_bound; lia]|]. assert (n / 2 < 2 ^ 63) by (apply Z.div_lt_upper_bound; lia).
      assert (0 <= n / 2) by (apply Z.div_pos; lia). unfold k. rewrite Zmod_odd. destruct (Z.odd n); [|rewrite Z.lor_0_r; assumption].
      rewrite lor1. destruct (Z.odd (n / 2)) eqn:O; [assumption|]. assert (n / 2 <> 2 ^ 63 - 1) by (intros Q; rewrite Q in O; vm_compute in O; discriminate). lia. }
    eexists. eexists. split; [|split; [reflexivity|]].
    + cbn [crun cexec put get put_x0 ra rc rd_ rsp x0 x1 fst_ cw be mem nbits]. rewrite A.
      rewrite !(Z.mod_small n (2 ^ 64)) by lia.
      rewrite (Z.mod_small (n / 2)) by (split; [apply Z.div_pos; lia|apply Z.div_lt_upper_bound; lia]).
      replace (Z.land (n mod 2 ^ 32) 1 mod 2 ^ 64) with (n mod 2).
      2:{ change 1 with (Z.ones 1). rewrite Z.land_ones by lia. rewrite (mm n 1 32) by lia. rewrite m64 by lia. reflexivity. }
      rewrite (Z.lor_comm (n mod 2)). fold k. rewrite !(Z.mod_small k) by lia. reflexivity.
    + cbn [put_x0 x0 ra rc rd_ rsp fst_ cw mem]. split; [|split; [split; [|split]; reflexivity|reflexivity]].
      assert (SG : sgn 64 k = k). { rewrite <- (Z.mod_small k (2 ^ 64)) at 1 by lia. apply sgn_small; [lia|]. change (64 - 1) with 63. lia. }
      rewrite SG. destruct (rne_fits (prec f) k 1) as (z & Z1 & Z2); [lia|lia|].
      apply (same_trans _ z).
      * apply EX; [exact Z1|]. eapply same_trans; [apply dbl|]. apply same_sym. rewrite Z.mul_comm. exact Z2.
      * rewrite <- round_odd by lia. fold k. rewrite Z.mul_comm. exact Z2.
  - eexists. eexists. split; [cbn [crun cexec]; reflexivity|]. split; [reflexivity|]. cbn [put_x0 x0 get nbits]. split; [|split; [split; [|split]; reflexivity|reflexivity]].
    rewrite A, sgn_small by (try (change (64 - 1) with 63); lia). apply same_refl.
Qed.
Lemma u64_80 : forall n m, exact_on 64 rnd -> 0 <= n < 2 ^ 64 -> ra m = n ->
  exists m' y, crun 64 rnd (i_to_f U64 F80) m = Some m' /\ fst_ m' = y :: fst_ m /\ same y (n, 0) /\ safe m m'.
Proof.
  intros n m EX N A. cbn [i_to_f]. set (sp := rsp m - 8). set (M1 := storen 8 sp n (mem m)).
  assert (L1 : loadn 8 sp M1 = n). { unfold M1. rewrite loadn_storen. apply Z.mod_small. exact N. }
  destruct (Z.leb_spec (2 ^ 63) n) as [B|B].
  - set (M2 := storen 4 (sp + 4) (1602224128 mod 2 ^ 64) M1).
    assert (L2 : loadn 4 (sp + 4) M2 = 1602224128). { unfold M2. rewrite loadn_storen. reflexivity. }
    assert (SG : sgn 64 n = n - 2 ^ 64). { unfold sgn. change (64 - 1) with 63. destruct (Z.ltb_spec n (2 ^ 63)); [lia|reflexivity]. }
    eexists. eexists. split; [|split; [|split]].
    + cbn [crun cexec put get put_mem put_sp put_cw put_st put_be ra rc rd_ rsp x0 x1 fst_ cw be mem nbytes nbits]. rewrite A. fold sp. fold M1. rewrite L1.
      destruct (Z.leb_spec (2 ^ 63) n); [|lia]. cbn [crun cexec put get put_mem put_sp put_cw put_st put_be ra rc rd_ rsp x0 x1 fst_ cw be mem nbytes nbits].
      fold M2. rewrite L2. change (single_of 1602224128) with (Some (2 ^ 23, 41)). rewrite SG. reflexivity.
    + reflexivity.
    + apply EX; [unfold fits; cbn [fst]; lia|]. apply add64. lia.
    + split; [|split]; [cbn [rsp put put_sp put_st put_mem]; unfold sp; lia|reflexivity|]. intros a Q. cbn [mem put put_sp put_st put_mem]. unfold M2, M1. rewrite !storen_other by (unfold sp; lia). reflexivity.
  - assert (SG : sgn 64 n = n). { unfold sgn. change (64 - 1) with 63. destruct (Z.ltb_spec n (2 ^ 63)); [reflexivity|lia]. }
    eexists. eexists. split; [|split; [|split]].
    + cbn [crun cexec put get put_mem put_sp put_cw put_st put_be ra rc rd_ rsp x0 x1 fst_ cw be mem nbytes nbits]. rewrite A. fold sp. fold M1. rewrite L1.
      destruct (Z.leb_spec (2 ^ 63) n); [lia|]. cbn [crun cexec put get put_mem put_sp put_cw put_st put_be ra rc rd_ rsp x0 x1 fst_ cw be mem nbytes nbits].
      rewrite SG. reflexivity.
    + reflexivity.
    + apply same_refl.
    + split; [|split]; [cbn [rsp put put_sp put_st put_mem]; unfold sp; lia|reflexivity|]. intros a Q. cbn [mem put put_sp put_st put_mem]. unfold M1. rewrite !storen_other by (unfold sp; lia). reflexivity.
Qed.

Theorem to_float : forall f T n m, exact_on (prec f) rnd -> in_range T n -> 0 <= ra m < 2 ^ 64 -> holds_int T n m ->
  exists m' y, crun (prec f) rnd (i_to_f (getTypeId (mty T)) f) m = Some m' /\ fval f m' = Some y /\ same y (rne (prec f) n, 0) /\ safe m m' /\ pushed f m m'.
Proof.
  intros f T n m EX IR RR HI.
  assert (H32 : regbits T = 32 -> ra m mod 2 ^ 32 = n mod 2 ^ 32) by (intros Q; unfold holds_int in HI; rewrite Q in HI; exact HI).
  assert (H64 : regbits T = 64 -> ra m = n mod 2 ^ 64) by (intros Q; unfold holds_int in HI; rewrite Q, (Z.mod_small (ra m)) in HI by lia; exact HI).
  assert (E : f <> F80 \/ f = F80) by (destruct f; [left|left|right]; congruence).
  unfold in_range in IR. destruct E as [E|E].
  - assert (W : exists m', crun (prec f) rnd (i_to_f (getTypeId (mty T)) f) m = Some m' /\ same (x0 m') (rne (prec f) n, 0) /\ safe m m' /\ fst_ m' = fst_ m).
    { assert (A4 : regbits T = 32 -> - 2 ^ 31 <= n < 2 ^ 31 -> exists m', crun (prec f) rnd [Cvtsi S4 RA] m = Some m' /\ same (x0 m') (rne (prec f) n, 0) /\ safe m m' /\ fst_ m' = fst_ m).
      { intros Q N. eexists. split; [cbn [crun cexec]; reflexivity|]. cbn [put_x0 x0 get nbits]. split; [|split; [split; [|split]; reflexivity|reflexivity]].
        rewrite (H32 Q), sgn_small by (try (change (32 - 1) with 31); lia). apply same_refl. }
      assert (A8 : regbits T = 64 -> - 2 ^ 63 <= n < 2 ^ 63 -> exists m', crun (prec f) rnd [Cvtsi S8 RA] m = Some m' /\ same (x0 m') (rne (prec f) n, 0) /\ safe m m' /\ fst_ m' = fst_ m).
      { intros Q N. eexists. split; [cbn [crun cexec]; reflexivity|]. cbn [put_x0 x0 get nbits]. split; [|split; [split; [|split]; reflexivity|reflexivity]].
        rewrite (H64 Q), Z.mod_mod, sgn_small by (try (change (64 - 1) with 63); lia). apply same_refl. }
      assert (U4 : regbits T = 32 -> 0 <= n < 2 ^ 32 -> exists m', crun (prec f) rnd [MovRR S4 RA RA; Cvtsi S8 RA] m = Some m' /\ same (x0 m') (rne (prec f) n, 0) /\ safe m m' /\ fst_ m' = fst_ m).
      { intros Q N. eexists. split; [cbn [crun cexec]; reflexivity|]. cbn [put put_x0 x0 get nbits ra]. split; [|split; [split; [|split]; reflexivity|reflexivity]].
        rewrite (H32 Q), (Z.mod_small n (2 ^ 32)), Z.mod_mod, sgn_small by (try (change (64 - 1) with 63); lia). apply same_refl. }
      assert (U8 : regbits T = 64 -> 0 <= n < 2 ^ 64 -> exists m', crun (prec f) rnd (i_to_f U64 f) m = Some m' /\ same (x0 m') (rne (prec f) n, 0) /\ safe m m' /\ fst_ m' = fst_ m).
      { intros Q N. destruct (u64_f f n m E EX N) as (m' & y & R1 & R2 & R3 & R4 & R5); [rewrite (H64 Q); apply Z.mod_small; exact N|]. exists m'. rewrite R2. auto. }
      destruct T; cbv [imin imax isigned iwidth] in IR; cbn [mty getTypeId regbits] in *; try (apply U8; [reflexivity|lia]).
      all: destruct f; [| |contradiction]; cbn [i_to_f].
      all: first [apply A4; [reflexivity|lia]|apply A8; [reflexivity|lia]|apply U4; [reflexivity|lia]]. }
    destruct W as (m' & W1 & W2 & W3 & W4). exists m', (x0 m'). split; [exact W1|]. split; [destruct f; [reflexivity|reflexivity|contradiction]|]. split; [exact W2|]. split; [exact W3|]. destruct f; [exact W4|exact W4|contradiction].
  - subst f. cbn [prec fval pushed] in *. rewrite rne_small; [|lia|destruct T; cbv [imin imax isigned iwidth] in IR; lia].
    assert (W : exists m' y, crun 64 rnd (i_to_f (getTypeId (mty T)) F80) m = Some m' /\ fst_ m' = y :: fst_ m /\ same y (n, 0) /\ safe m m').
    { assert (G : forall s mid v, crun 64 rnd mid m = Some (put RA v m) \/ (mid = [] /\ ra m = v mod 2 ^ 64) -> sgn (nbits s) (v mod 2 ^ nbits s) = n ->
        exists m' y, crun 64 rnd (mid ++ [Push; Fild s; Pop]) m = Some m' /\ fst_ m' = y :: fst_ m /\ same y (n, 0) /\ safe m m').
      { intros s mid v MID SG.
        assert (C : exists m1, crun 64 rnd (mid ++ [Push; Fild s; Pop]) m = crun 64 rnd [Push; Fild s; Pop] m1 /\ ra m1 = v mod 2 ^ 64 /\ rsp m1 = rsp m /\ cw m1 = cw m /\ mem m1 = mem m /\ fst_ m1 = fst_ m).
        { destruct MID as [MID|[MID Q]].
          - exists (put RA v m). split; [|repeat split; reflexivity]. clear - MID. revert MID. generalize (put RA v m). intros m2. revert m. induction mid as [|i l IH]; intros m H; [cbn in H; injection H as <-; reflexivity|].
            cbn [crun app] in *. destruct (cexec 64 rnd i m) as [m3|]; [|discriminate]. apply IH. exact H.
          - subst mid. exists m. repeat split; [exact Q]. }
        destruct C as (m1 & C1 & C2 & C3 & C4 & C5 & C6).
        eexists. eexists. split; [rewrite C1; cbn [crun cexec]; reflexivity|]. cbn [put put_st put_mem put_sp fst_ rsp mem ra]. rewrite C6. split; [reflexivity|].
        assert (NS : (nbytes s <= 8)%nat) by (destruct s; cbn; lia).
        rewrite load_low by exact NS. rewrite <- nbits_nbytes, C2. pose proof (nbits_pos s). rewrite (mm v (nbits s) 64) by lia. rewrite SG. split; [apply same_refl|].
        split; [|split]; [cbn [rsp]; lia|exact C4|]. intros a Q. cbn [mem]. rewrite storen_other by lia. rewrite C5. reflexivity. }
      assert (A4 : regbits T = 32 -> - 2 ^ 31 <= n < 2 ^ 31 -> exists m' y, crun 64 rnd [Push; Fild S4; Pop] m = Some m' /\ fst_ m' = y :: fst_ m /\ same y (n, 0) /\ safe m m').
      { intros Q N. apply (G S4 [] (ra m)); [right; split; [reflexivity|symmetry; apply Z.mod_small; lia]|]. cbn [nbits]. rewrite (H32 Q). apply sgn_small; [lia|]. change (32 - 1) with 31. lia. }
      assert (A8 : regbits T = 64 -> - 2 ^ 63 <= n < 2 ^ 63 -> exists m' y, crun 64 rnd [Push; Fild S8; Pop] m = Some m' /\ fst_ m' = y :: fst_ m /\ same y (n, 0) /\ safe m m').
      { intros Q N. apply (G S8 [] (ra m)); [right; split; [reflexivity|symmetry; apply Z.mod_small; lia]|]. cbn [nbits]. rewrite (H64 Q), Z.mod_mod by lia. apply sgn_small; [lia|]. change (64 - 1) with 63. lia. }
      assert (U4 : regbits T = 32 -> 0 <= n < 2 ^ 32 -> exists m' y, crun 64 rnd [MovRR S4 RA RA; Push; Fild S8; Pop] m = Some m' /\ fst_ m' = y :: fst_ m /\ same y (n, 0) /\ safe m m').
      { intros Q N. apply (G S8 [MovRR S4 RA RA] n).
        - left. cbn [crun cexec get nbits]. rewrite (H32 Q), (Z.mod_small n) by lia. reflexivity.
        - cbn [nbits]. apply sgn_small; [lia|]. change (64 - 1) with 63. lia. }
      assert (U8 : regbits T = 64 -> 0 <= n < 2 ^ 64 -> exists m' y, crun 64 rnd (i_to_f U64 F80) m = Some m' /\ fst_ m' = y :: fst_ m /\ same y (n, 0) /\ safe m m').
      { intros Q N. apply u64_80; [exact EX|exact N|]. rewrite (H64 Q). apply Z.mod_small. exact N. }
      destruct T; cbv [imin imax isigned iwidth] in IR; cbn [mty getTypeId regbits] in *; try (apply U8; [reflexivity|lia]); cbn [i_to_f].
      all: first [apply A4; [reflexivity|lia]|apply A8; [reflexivity|lia]|apply U4; [reflexivity|lia]]. }
    destruct W as (m' & y & W1 & W2 & W3 & W4). exists m', y. rewrite W2. cbn [tl]. auto.
Qed.
End F.
