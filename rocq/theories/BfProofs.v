(** Bit-field stores. *)
From Coq Require Import ZArith List Bool Lia.
From Verif Require Import Base BitLemmas IntSpec IntLemmas IntModel IntTyped IntProofs IntFold
  IntElab X86 CgModel CgLemmas CgSeq CgSeq2 CgSpec BfSpec BfModel.
Import ListNotations.
Local Open Scope Z_scope.

(** *** Registers an instruction leaves alone *)
Definition dst_is (r : reg) (o : opnd) : bool :=
  match o with R _ x => reg_eqb x r | _ => false end.
Definition writes (r : reg) (i : instr) : bool :=
  match i with
  | Nop => false
  | Mov _ _ d | Movx _ _ _ _ d | Alu _ _ _ d | Sh _ _ d => dst_is r d
  | _ => true
  end.
Definition keeps (r : reg) (c : list instr) : bool := forallb (fun i => negb (writes r i)) c.

Lemma land_shift x y : Z.land (x mod 2 ^ 8) (Z.shiftl y 8) = 0.
Proof.
  apply Z.bits_inj'. intros n H. rewrite Z.land_spec, testbit_mod, Z.bits_0 by lia.
  destruct (Z.ltb_spec n 8); cbn [andb]; [|reflexivity].
  rewrite Z.shiftl_spec, (Z.testbit_neg_r y) by lia. apply andb_false_r.
Qed.

Lemma ok_inj {A} (x y : A) : Ok x = Ok y -> x = y. Proof. congruence. Qed.

Section S.
Variable sym : nat -> Z.

Lemma putr_other s r x v m : reg_eqb x r = false -> rg (putr s x v m) r = rg m r.
Proof.
  intros H. assert (H' : reg_eqb r x = false) by (destruct r, x; try reflexivity; discriminate).
  destruct s; cbn; rewrite H'; reflexivity.
Qed.
Lemma wr_other s o v m m' r : dst_is r o = false -> wr sym s o v m = Some m' -> rg m' r = rg m r.
Proof.
  destruct o; cbn [wr dst_is]; intros H; [|discriminate|]; intros [= <-]; [apply putr_other; auto|reflexivity].
Qed.

Lemma noflags_inv o m' : noflags o = Some m' -> exists x, o = Some x /\ rg m' = rg x.
Proof. destruct o; [intros [= <-]; eauto|discriminate]. Qed.

Lemma exec1_keeps i m m' r : writes r i = false -> exec1 sym i m = Some m' -> rg m' r = rg m r.
Proof.
  destruct i; cbn [writes]; try discriminate; intros W; cbn [exec1].
  - intros [= <-]. reflexivity.
  - destruct (_ && _); [discriminate|]. destruct (osize _ _); [|discriminate].
    assert (K : match rd sym s src m with Some v => wr sym s dst v m | None => None end = Some m' -> rg m' r = rg m r).
    { destruct (rd _ _ _ _); [|discriminate]. apply wr_other; auto. }
    destruct src; auto. destruct dst; auto.
    destruct (size_eqb s S8);
    match goal with |- (if ?b then _ else _) = _ -> _ => destruct b; [apply wr_other; auto|discriminate] end.
  - destruct src; try discriminate; (destruct dst; try discriminate);
    (destruct (_ && _); [|discriminate]); (destruct (rd _ _ _ _); [|discriminate]);
    intros [= <-]; apply putr_other; auto.
  - destruct (_ && _); [discriminate|]. destruct (osize _ _); [|discriminate].
    destruct (rd sym s dst m), (rd sym s src m); try discriminate.
    destruct o; try (intros H; apply noflags_inv in H; destruct H as [x [H ->]]; revert H; apply wr_other; assumption);
    [| |]; [destruct (_ && _); [|discriminate];
     intros H; apply noflags_inv in H; destruct H as [x [H ->]]; revert H; apply wr_other; assumption| |];
    destruct dst; try discriminate; intros [= <-]; reflexivity.
  - destruct dst; try discriminate. destruct n; [destruct (_ && _); [|discriminate]|];
    intros [= <-]; cbn [rg setf]; apply putr_other; auto.
Qed.

Lemma run_keeps r c : forall m m', keeps r c = true -> run sym c None m = Some (None, m') -> rg m' r = rg m r.
Proof.
  induction c as [|i c IH]; intros m m' K; cbn [run].
  - intros [= <-]. reflexivity.
  - cbn [keeps forallb] in K. apply andb_true_iff in K. destruct K as [K1 K2]. apply negb_true_iff in K1.
    assert (G : match exec1 sym i m with Some m' => run sym c None m' | None => None end = Some (None, m') -> rg m' r = rg m r).
    { destruct (exec1 sym i m) eqn:E; [|discriminate]. intros H. rewrite (IH _ _ K2 H). eapply exec1_keeps; eauto. }
    destruct i; auto; discriminate.
Qed.

Local Notation slc := (slc sym).

(** [slc] for code that keeps a register. *)
Lemma slc_keep r c m Q : keeps r c = true -> slc c m Q -> slc c m (fun m' => Q m' /\ rg m' r = rg m r).
Proof. intros K [m' [A [B C]]]. exists m'. split; [auto|split; [auto|split; [auto|eapply run_keeps; eauto]]]. Qed.

Lemma keeps_and r s op tmp v : reg_eqb op r = false -> reg_eqb tmp r = false -> keeps r (imm_and s op tmp v) = true.
Proof.
  intros A B. unfold imm_and, imm_arith2. destruct (v =? 0); [|destruct (v =? -1); [reflexivity|destruct (in_imm_range v)]];
  unfold keeps; cbn [forallb writes dst_is]; rewrite ?A, ?B; reflexivity.
Qed.
Lemma keeps_load r t b o c : reg_eqb AX r = false -> load3 t b o = Ok c -> keeps r c = true.
Proof.
  intros A. unfold load3, load_extend_int, opsize_of. destruct (size_of (sz t)) as [s| |]; cbn [bind]; try discriminate.
  intros [= <-]. destruct s; unfold keeps; cbn [forallb writes dst_is]; rewrite A; reflexivity.
Qed.

Lemma and_cx s v m : big s -> imm_dom s v ->
  slc (imm_and s CX DX v) m (fun m' => eqm (nbits s) (rg m' CX) (Z.land (rg m CX) v) /\ rg m' AX = rg m AX).
Proof.
  intros Bs D. apply slc_keep; [apply keeps_and; reflexivity|]. pose proof (nbits_pos s) as NP. unfold imm_and.
  assert (E0 : eqm (nbits s) (getr s CX m) (rg m CX)) by (apply eqm_mod; lia).
  destruct (Z.eqb_spec v 0) as [->|].
  { destruct Bs as [-> | ->]; xgo; rewrite Z.lxor_nilpotent, Z.land_0_r; reflexivity. }
  destruct (Z.eqb_spec v (-1)) as [->|]; [apply slc_nil; rewrite Z.land_m1_r; apply eqm_refl|].
  unfold imm_arith2. destruct (in_imm_range v) eqn:K.
  - apply in_imm_spec in K. pose proof (imm32_ok s v Bs K) as K'. destruct Bs as [-> | ->]; cbn [imm_ok nbits] in K';
    eexists; (split; [xstep; rewrite K'; reflexivity|]; split; [prest|]);
    cbn [rg setf putr setr setm reg_eqb nbits]; (eapply eqm_trans; [apply eqm_mod; lia|]); apply eqm_land; auto; try lia; apply eqm_mod; lia.
  - assert (NK : ~ (- 2 ^ 31 <= v < 2 ^ 31)) by (intros Q; apply in_imm_spec in Q; congruence).
    destruct Bs as [-> | ->]; [cbn in D; contradiction|]. cbn [imm_dom size_eqb] in D.
    assert (KK : (-2 ^ 63 <=? v) && (v <? 2 ^ 64) = true).
    { destruct (Z.leb_spec (-2 ^ 63) v); [|lia]. destruct (Z.ltb_spec v (2 ^ 64)); [reflexivity|lia]. }
    eexists. split; [xstep; rewrite KK; reflexivity|]. split; [prest|].
    cbn [rg setf putr setr setm reg_eqb nbits]. unfold getr. cbn [rg setf putr setr setm reg_eqb nbits].
    eapply eqm_trans; [apply eqm_mod; lia|]. apply eqm_land; [lia|apply eqm_mod; lia|].
    eapply eqm_trans; apply eqm_mod; lia.
Qed.

(** The last two shifts: the field out of the unit. *)
Lemma extract_ok t w off s m x : is_ty t -> 1 <= w -> 0 <= off ->
  big s -> nbits s = (if sz t =? 8 then 64 else 32) -> off + w <= nbits s -> w < nbits s ->
  eqm (nbits s) (rg m AX) x ->
  slc ((if nbits s - w - off =? 0 then [] else [Sh XShl (CImm (nbits s - w - off)) (R s AX)])
       ++ [Sh (if uns t then XShr else XSar) (CImm (nbits s - w)) (R s AX)]) m
    (fun m' => eqm (nbits s) (rg m' AX) (field_value (ity t) w off x)).
Proof.
  intros T W O Bs NS OW WN E1. set (n := nbits s) in *. pose proof (nbits_pos s) as NP. fold n in NP.
  eapply slc_app with (Q := fun m' => eqm n (rg m' AX) (rg m AX * 2 ^ (n - w - off))).
  { destruct (Z.eqb_spec (n - w - off) 0) as [E0|N0].
    - apply slc_nil. rewrite E0, Z.pow_0_r, Z.mul_1_r. apply eqm_refl.
    - apply shl_imm_ok; auto. fold n. lia. }
  intros m2 _ E2.
  eapply slc_weak; [apply sh_imm_ok; [exact Bs|fold n; lia]|].
  intros m' _ ->. fold n. unfold getr. fold n.
  assert (E3 : eqm n (rg m2 AX) (x * 2 ^ (n - w - off))).
  { eapply eqm_trans; [exact E2|]. apply eqm_mul; [exact E1|apply eqm_refl]. }
  eapply eqm_trans; [apply eqm_mod; lia|].
  assert (RES : sh_res (if uns t then XShr else XSar) s (rg m2 AX mod 2 ^ n) (n - w) = field_value (ity t) w off x);
  [|rewrite RES; apply eqm_refl].
  assert (SU : isigned (ity t) = negb (uns t)).
  { destruct (is_ty_inv t T) as [i [-> _]]. destruct i; reflexivity. }
  destruct (uns t) eqn:UN; cbn [sh_res].
  - rewrite E3. rewrite mod_field by lia. unfold field_value. rewrite SU. reflexivity.
  - fold n. rewrite sgn_mod by lia. rewrite (sx_cong n _ _ E3). rewrite sx_field by lia.
    rewrite field_sx; [reflexivity|rewrite SU; reflexivity|lia].
Qed.

(** *** The new unit *)
Lemma mask_bits w off k : 0 <= w -> 0 <= off -> 0 <= k < 64 ->
  Z.testbit (i64 (trunc 64 (Z.lnot ((2 ^ w - 1) * 2 ^ off)))) k = negb ((off <=? k) && (k <? off + w)).
Proof.
  intros W O K. unfold i64, trunc. rewrite (sx_sext 64) by lia. rewrite sx_bits by lia.
  destruct (Z.ltb_spec k 64); [|lia]. rewrite testbit_mod by lia. destruct (Z.ltb_spec k 64); [|lia]. cbn [andb].
  rewrite Z.lnot_spec by lia. f_equal.
  replace (2 ^ w - 1) with (Z.ones w) by (rewrite Z.ones_equiv; lia).
  rewrite <- Z.shiftl_mul_pow2, Z.shiftl_spec by lia.
  destruct (Z.leb_spec off k); cbn [andb]; [|apply Z.testbit_neg_r; lia].
  destruct (Z.ltb_spec k (off + w)); [apply Z.ones_spec_low|apply Z.ones_spec_high]; lia.
Qed.

Definition unit_mask (t : ty) (w off : Z) : Z :=
  let msk := trunc 64 (Z.lnot ((2 ^ w - 1) * 2 ^ off)) in
  i64 (if (sz t =? 4) && (w + off =? 32) then trunc 32 msk else msk).

Lemma unit_mask_ok t w off s : is_ty t -> 1 <= w -> 0 <= off -> off + w <= 8 * sz t ->
  s = (if sz t =? 8 then S8 else S4) ->
  imm_dom s (unit_mask t w off) /\
  forall k, 0 <= k < nbits s -> Z.testbit (unit_mask t w off) k = negb ((off <=? k) && (k <? off + w)).
Proof.
  intros T W O OW ES.
  assert (SZ : sz t = 1 \/ sz t = 2 \/ sz t = 4 \/ sz t = 8).
  { destruct (is_ty_inv t T) as [i [-> _]]. destruct i; cbn; auto. }
  pose proof (mask_bits w off) as MB. unfold unit_mask in *. set (x := Z.lnot ((2 ^ w - 1) * 2 ^ off)) in *.
  assert (XV : x = - ((2 ^ (w + off) - 2 ^ off) + 1)).
  { unfold x. rewrite Z.pow_add_r by lia. unfold Z.lnot. lia. }
  pose proof (pow2_pos off O) as PO.
  assert (PW : 2 ^ (w + off) >= 2 * 2 ^ off).
  { rewrite Z.pow_add_r by lia. assert (2 ^ 1 <= 2 ^ w) by (apply Z.pow_le_mono_r; lia). change (2 ^ 1) with 2 in *. nia. }
  destruct (Z.eqb_spec (sz t) 8) as [E8|N8]; subst s.
  - destruct (Z.eqb_spec (sz t) 4); [lia|]. cbn [andb]. split.
    + unfold imm_dom. cbn [size_eqb]. unfold i64. rewrite (sx_sext 64) by lia. apply (sx_range 64). lia.
    + intros k K. apply MB; cbn in K; lia.
  - unfold imm_dom. cbn [size_eqb nbits]. destruct (Z.eqb_spec (sz t) 4) as [E4|N4]; cbn [andb].
    + destruct (Z.eqb_spec (w + off) 32) as [E32|N32].
      * assert (T32 : trunc 32 (trunc 64 x) = 2 ^ off - 1).
        { unfold trunc. rewrite mod_mod_le by lia. rewrite XV, E32.
          replace (- (2 ^ 32 - 2 ^ off + 1)) with ((2 ^ off - 1) + (-1) * 2 ^ 32) by lia.
          rewrite Z.mod_add by lia. apply Z.mod_small. change (2 ^ 32) with 4294967296 in *.
          assert (2 ^ off <= 2 ^ 31) by (apply Z.pow_le_mono_r; lia). change (2 ^ 31) with 2147483648 in *. lia. }
        assert (2 ^ off <= 2 ^ 31) by (apply Z.pow_le_mono_r; lia).
        assert (I6 : i64 (trunc 32 (trunc 64 x)) = 2 ^ off - 1).
        { rewrite T32. unfold i64. rewrite (sx_sext 64) by lia. apply sx_id; [lia|].
          change (2 ^ (64 - 1)) with 9223372036854775808. change (2 ^ 31) with 2147483648 in *. lia. }
        split; [rewrite I6; lia|]. intros k K. rewrite <- (MB k) by lia. unfold i64.
        rewrite !(sx_sext 64), !sx_bits by lia. destruct (Z.ltb_spec k 64); [|lia].
        unfold trunc at 1. rewrite testbit_mod by lia. destruct (Z.ltb_spec k 32); [reflexivity|lia].
      * assert (I6 : i64 (trunc 64 x) = x).
        { unfold i64, trunc. rewrite (sx_sext 64) by lia. rewrite (sx_cong 64 _ x) by (apply (eqm_mod 64); lia).
          apply sx_id; [lia|]. rewrite XV.
          assert (2 ^ (w + off) <= 2 ^ 31) by (apply Z.pow_le_mono_r; lia).
          change (2 ^ (64 - 1)) with 9223372036854775808. change (2 ^ 31) with 2147483648 in *. lia. }
        split; [|intros; apply MB; lia]. rewrite I6, XV.
        assert (2 ^ (w + off) <= 2 ^ 31) by (apply Z.pow_le_mono_r; lia). lia.
    + assert (I6 : i64 (trunc 64 x) = x).
        { unfold i64, trunc. rewrite (sx_sext 64) by lia. rewrite (sx_cong 64 _ x) by (apply (eqm_mod 64); lia).
          apply sx_id; [lia|]. rewrite XV.
          assert (2 ^ (w + off) <= 2 ^ 31) by (apply Z.pow_le_mono_r; lia).
          change (2 ^ (64 - 1)) with 9223372036854775808. change (2 ^ 31) with 2147483648 in *. lia. }
        split; [|intros; apply MB; lia]. rewrite I6, XV.
        assert (2 ^ (w + off) <= 2 ^ 31) by (apply Z.pow_le_mono_r; lia). lia.
Qed.

Lemma eqm_bits n a b k : eqm n a b -> 0 <= k < n -> Z.testbit a k = Z.testbit b k.
Proof.
  intros E K. assert (Z.testbit (a mod 2 ^ n) k = Z.testbit (b mod 2 ^ n) k) as H by (unfold eqm in E; congruence).
  rewrite !testbit_mod in H by lia. destruct (Z.ltb_spec k n); [exact H|lia].
Qed.

Lemma shl_cx s k m : big s -> 0 <= k < nbits s ->
  slc [Sh XShl (CImm k) (R s CX)] m (fun m' => eqm (nbits s) (rg m' CX) (rg m CX * 2 ^ k) /\ rg m' AX = rg m AX).
Proof.
  intros Bs H. pose proof (nbits_pos s).
  assert (K : (0 <=? k) && (k <? 256) = true).
  { destruct (Z.leb_spec 0 k); [|lia]. destruct (Z.ltb_spec k 256); [reflexivity|lia]. }
  assert (KM : k mod (if size_eqb s S8 then 64 else 32) = k).
  { apply Z.mod_small. destruct Bs as [-> | ->]; cbn in *; lia. }
  eexists. split; [|split].
  - cbn [run exec1]. rewrite K, KM. reflexivity.
  - destruct Bs as [-> | ->]; prest.
  - destruct Bs as [-> | ->]; (split; [|reflexivity]); cbn [rg setf putr setr reg_eqb nbits];
    (eapply eqm_trans; [apply eqm_mod; lia|]); (apply eqm_mul; [apply eqm_mod; cbn; lia|apply eqm_refl]).
Qed.

Lemma load_unit t b o m l a : is_ty t -> ea sym b o m = a -> load3 t b o = Ok l ->
  slc l m (fun m' => eqm (8 * sz t) (rg m' AX) (loadn (tysize t) a (mm m)) /\ rg m' CX = rg m CX).
Proof.
  intros T EA L. set (raw := loadn (tysize t) a (mm m)).
  apply slc_keep; [eapply keeps_load; eauto|].
  destruct (is_ty_inv t T) as [i [-> EI]].
  assert (U : exists u, is_ty u /\ ity u <> TBool /\ sz u = sz (mty i) /\ uns u = uns (mty i) /\
     load3 u b o = Ok l /\ iwidth (ity u) = 8 * sz (mty i)).
  { destruct (ityp_eqb i TBool) eqn:B.
    - destruct i; try discriminate. exists ty_uchar. repeat split; try discriminate. exact L.
    - exists (mty i). rewrite ity_mty. repeat split; auto.
      + destruct i; discriminate.
      + destruct i; try discriminate; reflexivity. }
  destruct U as [u [Tu [Nu [Su [Uu [Lu Wu]]]]]].
  assert (H : holds sym b o (tysize u) (conv (ity u) raw) m).
  { unfold CgSeq.holds. rewrite EA. replace (tysize u) with (tysize (mty i)) by (unfold tysize; congruence).
    fold raw. assert (TT : 8 * Z.of_nat (tysize (mty i)) = iwidth (ity u)).
    { unfold tysize. rewrite Z2Nat.id by (destruct i; cbn; lia). lia. }
    rewrite TT, (eqm_conv (ity u) raw Nu), <- TT. symmetry. apply Z.mod_small.
    unfold raw. apply loadn_range. }
  eapply slc_weak; [apply (load3_ok sym u b o _ m l Tu (conv_range _ _) H Lu)|].
  intros m' _ [A B]. rewrite <- Wu. eapply eqm_trans; [|apply eqm_conv; exact Nu].
  assert (WS : iwidth (ity u) <= 32 \/ sz u = 8) by (rewrite Wu, Su; destruct i; cbn; lia).
  pose proof (iwidth_pos (ity u)).
  destruct WS as [WS|WS]; [eapply eqm_le; [|exact A]; lia|]. eapply eqm_le; [|apply B; auto]. rewrite Wu, <- Su, WS. lia.
Qed.

Lemma value_ok t w s m code : is_ty t -> 1 <= w -> s = (if sz t =? 8 then S8 else S4) -> w < nbits s ->
  store_value t w = Ok code ->
  slc code m (fun m' => eqm (nbits s) (rg m' CX) (rg m AX mod 2 ^ w) /\ rg m' AX = rg m AX).
Proof.
  intros T W ES WN C. unfold store_value in C. rewrite <- ES in C. bnd C. rename a into one, E into L1. apply ok_inj in C.
  assert (Bs : big s) by (subst s; unfold big; destruct (sz t =? 8); auto).
  assert (W62 : w <= 62 /\ one = 2 ^ w).
  { unfold long_of in L1. destruct (_ && _) eqn:B; [|discriminate]. injection L1 as <-. split; auto.
    apply andb_true_iff in B. destruct B as [_ B]. apply Z.leb_le in B.
    destruct (Z_le_gt_dec w 62); [auto|]. exfalso.
    assert (2 ^ 63 <= 2 ^ w) by (apply Z.pow_le_mono_r; lia). change (2 ^ 63) with 9223372036854775808 in *. lia. }
  destruct W62 as [W62 ->].
  assert (DOM1 : imm_dom s (2 ^ w - 1)).
  { pose proof (pow2_pos w ltac:(lia)). unfold imm_dom. subst s. destruct (Z.eqb_spec (sz t) 8); cbn [size_eqb].
    - assert (2 ^ w <= 2 ^ 62) by (apply Z.pow_le_mono_r; lia). change (2 ^ 62) with 4611686018427387904 in *.
      change (2 ^ 63) with 9223372036854775808. lia.
    - assert (2 ^ w <= 2 ^ 31) by (apply Z.pow_le_mono_r; cbn in WN; lia). lia. }
  set (n := nbits s) in *. set (v := rg m AX). rewrite <- C.
  apply (slc_app sym [_]) with (Q := fun m' => eqm n (rg m' CX) v /\ rg m' AX = v).
  { unfold n, v. destruct Bs as [-> | ->]; xgo; (split; [|reflexivity]); (eapply eqm_trans; [apply eqm_mod; lia|]); apply eqm_mod; cbn; lia. }
  intros m1 PR1 [E1 A1]. eapply slc_weak; [apply and_cx; [exact Bs|exact DOM1]|]. intros m2 PR2 [E2 A2].
  split; [|congruence].
  eapply eqm_trans; [exact E2|]. replace (2 ^ w - 1) with (Z.ones w) by (rewrite Z.ones_equiv; lia).
  rewrite Z.land_ones by lia. fold n. unfold eqm. f_equal. apply (eqm_le n); [lia|exact E1].
Qed.

(** What a store does: registers, bytes outside the unit, the unit. *)
Definition stored_value (k : nat) (a w off v : Z) (m m' : mach) : Prop :=
  (forall r, r <> AX -> r <> CX -> r <> DX -> rg m' r = rg m r) /\
  (forall x, x < a \/ a + Z.of_nat k <= x -> mm m' x = mm m x) /\
  field_set w off (loadn k a (mm m)) v (loadn k a (mm m')).

Lemma unit_ok t w off p m code a s (void : bool) v :
  is_ty t -> 1 <= w -> 0 <= off -> off + w <= 8 * sz t -> p <> AX -> p <> CX -> p <> DX ->
  ea sym (BReg p) 0 m = a -> s = (if sz t =? 8 then S8 else S4) -> w < nbits s ->
  eqm (nbits s) (rg m CX) (v mod 2 ^ w) ->
  store_unit t w off p void = Ok code ->
  exists m', run sym code None m = Some (None, m') /\
    stored_value (tysize t) a w off v m m' /\
    (void = false -> eqm (nbits s) (rg m' AX) (field_value (ity t) w off (loadn (tysize t) a (mm m')))).
Proof.
  intros T W O OW P1 P2 P3 EA ES WN E2' C. unfold store_unit in C. rewrite <- ES in C. bnd C.
  rename a0 into ld, a1 into stc, E into LD, E0 into ST. apply ok_inj in C.
  assert (SZ : sz t = 1 \/ sz t = 2 \/ sz t = 4 \/ sz t = 8).
  { destruct (is_ty_inv t T) as [i [-> _]]. destruct i; cbn; auto. }
  assert (Bs : big s) by (subst s; unfold big; destruct (sz t =? 8); auto).
  assert (NS : nbits s = if sz t =? 8 then 64 else 32) by (subst s; destruct (sz t =? 8); reflexivity).
  pose proof (nbits_pos s) as NP.
  assert (N8 : 8 * sz t <= nbits s) by (rewrite NS; destruct (Z.eqb_spec (sz t) 8); lia).
  destruct (unit_mask_ok t w off s T W O OW ES) as [DOM2 MB].
  rewrite <- NS in C. fold (unit_mask t w off) in C.
  set (n := nbits s) in *. set (raw := loadn (tysize t) a (mm m)).
  set (um := unit_mask t w off) in *. clearbody um.
  rewrite !app_assoc in C. rewrite <- (app_assoc _ stc) in C.
  match type of C with ?x ++ stc ++ ?y = _ => set (pre := x) in C; set (post := y) in C end.
  (* up to the or *)
  assert (PRE : slc pre m
      (fun m' => eqm (8 * sz t) (rg m' AX) (Z.lor (Z.land raw um) ((v mod 2 ^ w) * 2 ^ off)))).
  { unfold pre. rewrite <- !app_assoc.
    eapply slc_app; [apply (load_unit t _ _ m ld a T EA LD)|]. intros m3 PR3 [E3 K3].
    fold raw in E3.
    eapply slc_app; [apply slc_keep with (r := CX); [apply keeps_and; reflexivity|apply imm_and_ok; [exact Bs|exact DOM2]]|].
    intros m4 PR4 [E4 K4]. fold n in E4.
    apply slc_app with (Q := fun m' => eqm n (rg m' CX) ((v mod 2 ^ w) * 2 ^ off) /\ rg m' AX = rg m4 AX).
    { destruct (Z.eqb_spec off 0) as [->|NO].
      - apply slc_nil. rewrite Z.pow_0_r, Z.mul_1_r, K4, K3. auto.
      - eapply slc_weak; [apply shl_cx; [exact Bs|fold n; lia]|]. intros m' _ [A B]. split; auto.
        fold n in A. eapply eqm_trans; [exact A|]. apply eqm_mul; [|apply eqm_refl]. rewrite K4, K3. exact E2'. }
    intros m5 PR5 [E5 A5].
    assert (OR : slc [Alu AOr None (R s CX) (R s AX)] m5 (fun m' => eqm n (rg m' AX) (Z.lor (rg m5 AX) (rg m5 CX)))).
    { unfold n. destruct Bs as [-> | ->]; xgo; (eapply eqm_trans; [apply eqm_mod; lia|]); apply eqm_lor; try lia; apply eqm_mod; cbn; lia. }
    eapply slc_weak; [exact OR|]. intros m' _ E6.
    eapply eqm_trans; [eapply eqm_le; [|exact E6]; lia|]. rewrite A5. apply eqm_lor; [lia| |].
    - eapply eqm_trans; [eapply eqm_le; [|exact E4]; lia|]. apply eqm_land; [lia|exact E3|apply eqm_refl].
    - eapply eqm_le; [|exact E5]. lia. }
  destruct PRE as [m6 [R6 [PR6 E6]]].
  (* the store *)
  assert (EA6 : ea sym (BReg p) 0 m6 = a).
  { rewrite <- EA. unfold ea. rewrite (proj1 PR6) by auto. reflexivity. }
  set (m7 := setm m6 (storen (tysize t) a (rg m6 AX) (mm m6))).
  assert (R7 : exists f, run sym stc None m6 = Some (None, setm m6 f) /\ (forall x, x < a \/ a + Z.of_nat (tysize t) <= x -> f x = mm m6 x) /\
     loadn (tysize t) a f = rg m6 AX mod 2 ^ (8 * sz t)).
  { unfold store3, size_of in ST. exists (storen (tysize t) a (rg m6 AX mod 2 ^ (8 * sz t)) (mm m6)).
    split; [|split].
    - unfold tysize. destruct SZ as [E|[E|[E|E]]]; rewrite E in ST |- *; cbn [bind] in ST; injection ST as <-;
      xstep; rewrite EA6; reflexivity.
    - intros x X. apply storen_other. auto.
    - rewrite loadn_storen. unfold tysize. rewrite Z2Nat.id by lia. apply mod_mod_le. lia. }
  clear m7. destruct R7 as [f [R7 [FO FU]]]. set (m7 := setm m6 f) in *.
  assert (NEW : field_set w off raw v (loadn (tysize t) a f)).
  { split; [apply loadn_range|]. intros k K. rewrite FU, testbit_mod by lia.
    destruct (Z.ltb_spec k (8 * sz t)) as [KL|KL]; cbn [andb].
    - rewrite (eqm_bits (8 * sz t) _ _ k E6) by lia. rewrite Z.lor_spec, Z.land_spec, MB by lia.
      rewrite <- Z.shiftl_mul_pow2, Z.shiftl_spec by lia.
      destruct (Z.leb_spec off k), (Z.ltb_spec k (off + w)); cbn [andb negb];
      rewrite ?andb_false_r, ?andb_true_r; cbn [orb].
      + rewrite testbit_mod by lia. destruct (Z.ltb_spec (k - off) w); [reflexivity|lia].
      + rewrite testbit_mod by lia. destruct (Z.ltb_spec (k - off) w); [lia|]. cbn [andb]. apply orb_false_r.
      + rewrite (Z.testbit_neg_r _ (k - off)) by lia. apply orb_false_r.
      + rewrite (Z.testbit_neg_r _ (k - off)) by lia. apply orb_false_r.
    - assert (Z.testbit raw k = false) as ->.
      { unfold raw. pose proof (loadn_range (tysize t) a (mm m)) as RG. assert (TS : Z.of_nat (tysize t) = sz t) by (unfold tysize; apply Z2Nat.id; lia). rewrite TS in RG.
        rewrite <- (Z.mod_small _ _ RG), testbit_mod by lia. destruct (Z.ltb_spec k (8 * sz t)); [lia|reflexivity]. }
      destruct (Z.leb_spec off k), (Z.ltb_spec k (off + w)); try reflexivity. lia. }
  assert (ST7 : stored_value (tysize t) a w off v m m7).
  { split; [|split].
    - intros r. apply (proj1 PR6).
    - intros x X. cbn [m7 mm setm]. rewrite FO by auto. rewrite (proj2 PR6). reflexivity.
    - exact NEW. }
  assert (POST : slc post m7 (fun m' => void = false -> eqm n (rg m' AX) (field_value (ity t) w off (loadn (tysize t) a f)))).
  { unfold post. destruct void.
    - apply slc_nil. discriminate.
    - eapply slc_weak; [apply (extract_ok t w off s m7 (rg m6 AX)); auto; try (fold n; lia); apply eqm_refl|].
      intros m' _ E _. fold n in E. eapply eqm_trans; [exact E|].
      assert (FV : field_value (ity t) w off (rg m6 AX) = field_value (ity t) w off (loadn (tysize t) a f)).
      { unfold field_value. rewrite FU. rewrite (div_mod_low (rg m6 AX) (rg m6 AX mod 2 ^ (8 * sz t)) off w); [reflexivity|lia|lia|].
        symmetry. apply mod_mod_le. lia. }
      rewrite FV. apply eqm_refl. }
  destruct POST as [m8 [R8 [PR8 E8]]]. exists m8. split; [|split].
  - rewrite <- C. rewrite run_app, R6, run_app, R7. exact R8.
  - destruct ST7 as [A [B F]]. split; [|split].
    + intros r X1 X2 X3. rewrite (proj1 PR8) by auto. auto.
    + intros x X. rewrite (proj2 PR8). auto.
    + rewrite (proj2 PR8). exact F.
  - rewrite (proj2 PR8). exact E8.
Qed.

Definition stored_unit (k : nat) (a w off : Z) (m m' : mach) : Prop := stored_value k a w off (rg m AX) m m'.

Lemma store_plain t w off p m code a s (void : bool) :
  is_ty t -> 1 <= w -> 0 <= off -> off + w <= 8 * sz t -> p <> AX -> p <> CX -> p <> DX ->
  ea sym (BReg p) 0 m = a -> s = (if sz t =? 8 then S8 else S4) -> w < nbits s ->
  store_merged t w off p void = Ok code ->
  exists m', run sym code None m = Some (None, m') /\
    stored_unit (tysize t) a w off m m' /\
    (void = false -> eqm (nbits s) (rg m' AX) (field_value (ity t) w off (loadn (tysize t) a (mm m')))).
Proof.
  intros T W O OW P1 P2 P3 EA ES WN C. unfold store_merged in C. bnd C. injection C as <-.
  destruct (value_ok t w s m a0 T W ES WN E) as [m1 [R1 [PR [C1 _]]]].
  assert (EA1 : ea sym (BReg p) 0 m1 = a).
  { rewrite <- EA. unfold ea. rewrite (proj1 PR) by auto. reflexivity. }
  destruct (unit_ok t w off p m1 a1 a s void (rg m AX) T W O OW P1 P2 P3 EA1 ES WN C1 E0) as [m2 [R2 [[A [B F]] V]]].
  exists m2. split; [rewrite run_app, R1; exact R2|]. split; [|exact V]. rewrite (proj2 PR) in B, F.
  split; [|split; [exact B|exact F]]. intros r X1 X2 X3. rewrite A by auto. apply (proj1 PR); auto.
Qed.

(** *** Bytes *)
Lemma loadn_bit k : forall a f n, 0 <= n < 8 * Z.of_nat k ->
  Z.testbit (loadn k a f) n = Z.testbit (f (a + n / 8)) (n mod 8).
Proof.
  induction k as [|k IH]; intros a f n H; [lia|]. cbn [loadn].
  assert (E : f a mod 256 + 256 * loadn k (a + 1) f = Z.lor (f a mod 2 ^ 8) (Z.shiftl (loadn k (a + 1) f) 8)).
  { rewrite <- Z.lxor_lor, <- Z.add_nocarry_lxor; [|apply land_shift|apply land_shift].
    rewrite Z.shiftl_mul_pow2 by lia. change (2 ^ 8) with 256. lia. }
  rewrite E, Z.lor_spec, Z.shiftl_spec, testbit_mod by lia.
  destruct (Z.ltb_spec n 8) as [L|L]; cbn [andb orb].
  - rewrite (Z.testbit_neg_r _ (n - 8)), orb_false_r by lia.
    rewrite Z.div_small, Z.mod_small, Z.add_0_r by lia. reflexivity.
  - rewrite IH by lia. f_equal; [f_equal|].
    + replace (n - 8) with (n + (-1) * 8) by lia. rewrite Z.div_add by lia. lia.
    + replace (n - 8) with (n + (-1) * 8) by lia. apply Z.mod_add. lia.
Qed.

(** Fields for which the value of the assignment is left with the wrong upper half. *)
Definition bad_result (t : ty) (w off : Z) : Prop :=
  sz t = 8 /\ off mod 8 = 0 /\ ((uns t = false /\ (w = 8 \/ w = 16)) \/ w = 32).

Lemma store_ok t w off p m code a void :
  is_ty t -> 1 <= w <= iwidth (ity t) -> 0 <= off -> off + w <= 8 * sz t -> p <> AX -> p <> CX -> p <> DX ->
  ea sym (BReg p) 0 m = a -> a + sz t <= 2 ^ 64 ->
  gen_bitfield_store t w off p void = Ok code ->
  exists m', run sym code None m = Some (None, m') /\ stored_unit (tysize t) a w off m m' /\
    (void = false -> ~ bad_result t w off ->
     eqm (if sz t =? 8 then 64 else 32) (rg m' AX) (field_value (ity t) w off (loadn (tysize t) a (mm m')))).
Proof.
  intros T W O OW P1 P2 P3 EA AB C.
  assert (A0 : 0 <= a) by (rewrite <- EA; apply mod_bound; lia).
  assert (SZ : sz t = 1 \/ sz t = 2 \/ sz t = 4 \/ sz t = 8).
  { destruct (is_ty_inv t T) as [i [-> _]]. destruct i; cbn; auto. }
  assert (SU : isigned (ity t) = negb (uns t)).
  { destruct (is_ty_inv t T) as [i [-> _]]. destruct i; reflexivity. }
  assert (IW : iwidth (ity t) <= 8 * sz t).
  { destruct (is_ty_inv t T) as [i [-> _]]. rewrite ity_mty. destruct i; cbn; lia. }
  assert (TT : Z.of_nat (tysize t) = sz t) by (unfold tysize; apply Z2Nat.id; lia).
  set (s := if sz t =? 8 then S8 else S4).
  assert (NS : nbits s = if sz t =? 8 then 64 else 32) by (subst s; destruct (sz t =? 8); reflexivity).
  unfold gen_bitfield_store in C.
  (* the general path *)
  assert (PL : store_merged t w off p void = Ok code -> w < nbits s -> exists m', run sym code None m = Some (None, m') /\ stored_unit (tysize t) a w off m m' /\
    (void = false -> ~ bad_result t w off ->
     eqm (if sz t =? 8 then 64 else 32) (rg m' AX) (field_value (ity t) w off (loadn (tysize t) a (mm m'))))).
  { intros D WN.
    destruct (store_plain t w off p m code a s void T (proj1 W) O OW P1 P2 P3 EA eq_refl WN D) as [m' [A [B F]]].
    exists m'. split; [exact A|split; [exact B|]]. intros V _. rewrite <- NS. auto. }
  destruct (bitwidth_to_ty w (uns t)) as [alt|] eqn:BW; cycle 1.
  { apply PL; [exact C|]. rewrite NS. unfold bitwidth_to_ty in BW.
    destruct (Z.eqb_spec w 64); [discriminate|]. destruct (Z.eqb_spec w 32); [discriminate|].
    destruct (Z.eqb_spec (sz t) 8); lia. }
  apply bitwidth_ty in BW. destruct BW as [Ta [Ua [Wa [Wi [Si [NBo WW]]]]]].
  destruct (Z.eqb_spec off (off / 8 * 8)) as [E8|N8]; cycle 1.
  { apply PL; [exact C|]. assert (off <> 0) by (intros ->; apply N8; reflexivity). rewrite NS. destruct (Z.eqb_spec (sz t) 8); lia. }
  clear PL.
  (* a whole number of bytes *)
  set (j := off / 8) in *. assert (J0 : 0 <= j) by lia.
  assert (TA : Z.of_nat (tysize alt) = sz alt) by (unfold tysize; apply Z2Nat.id; lia).
  assert (EA2 : ea sym (BReg p) j m = a + j).
  { unfold ea in *. rewrite Z.add_0_r in EA. rewrite <- Zplus_mod_idemp_l, EA. apply Z.mod_small. lia. }
  set (v := rg m AX).
  bnd C. rename a0 into stc. rename E into ST.
  set (f := storen (tysize alt) (a + j) (v mod 2 ^ w) (mm m)).
  assert (R1 : run sym stc None m = Some (None, setm m f)).
  { unfold store3, size_of in ST. unfold f, v, tysize.
    destruct WW as [EW|[EW|[EW|EW]]];
    first [assert (SA : sz alt = 1) by lia | assert (SA : sz alt = 2) by lia | assert (SA : sz alt = 4) by lia | assert (SA : sz alt = 8) by lia];
    rewrite SA in ST |- *; rewrite EW;
    cbn [bind Z.eqb Pos.eqb] in ST; injection ST as <-; xstep; rewrite EA2; reflexivity. }
  assert (FV : forall x, f x = if (a + j <=? x) && (x <? a + j + sz alt) then (v / 2 ^ (8 * (x - (a + j)))) mod 256 else mm m x).
  { intros x. unfold f, storen. rewrite TA. destruct (Z.leb_spec (a + j) x), (Z.ltb_spec x (a + j + sz alt)); cbn [andb]; auto.
    change 256 with (2 ^ 8). apply div_mod_low; [lia|lia|]. apply mod_mod_le. lia. }
  assert (NEW : field_set w off (loadn (tysize t) a (mm m)) v (loadn (tysize t) a f)).
  { split; [apply loadn_range|]. intros k K.
    destruct (Z_lt_ge_dec k (8 * sz t)) as [KL|KL]; cycle 1.
    { assert (HI : forall g, Z.testbit (loadn (tysize t) a g) k = false).
      { intros g. pose proof (loadn_range (tysize t) a g) as RG. rewrite TT in RG.
        rewrite <- (Z.mod_small _ _ RG), testbit_mod by lia. destruct (Z.ltb_spec k (8 * sz t)); [lia|reflexivity]. }
      rewrite !HI. destruct (Z.leb_spec off k), (Z.ltb_spec k (off + w)); try reflexivity. lia. }
    rewrite !loadn_bit by lia. rewrite FV.
    pose proof (Z.div_mod k 8 ltac:(lia)) as DM. pose proof (Z.mod_pos_bound k 8 ltac:(lia)) as MB.
    destruct (Z.leb_spec off k), (Z.ltb_spec k (off + w)); cbn [andb];
    destruct (Z.leb_spec (a + j) (a + k / 8)), (Z.ltb_spec (a + k / 8) (a + j + sz alt)); cbn [andb]; try lia; auto.
    change 256 with (2 ^ 8). rewrite testbit_mod by lia. destruct (Z.ltb_spec (k mod 8) 8); [|lia]. cbn [andb].
    rewrite <- Z.shiftr_div_pow2, Z.shiftr_spec by lia. f_equal. lia. }
  assert (ST7 : stored_unit (tysize t) a w off m (setm m f)).
  { split; [reflexivity|split; [|exact NEW]]. intros x X. cbn [mm setm]. rewrite FV.
    destruct (Z.leb_spec (a + j) x), (Z.ltb_spec x (a + j + sz alt)); cbn [andb]; auto. lia. }
  assert (FE : eqm w (field_value (ity t) w off (loadn (tysize t) a f)) v).
  { eapply eqm_trans; [apply field_eqm; lia|]. apply mod_eq_bits; [lia|]. intros k K.
    rewrite <- Z.shiftr_div_pow2, Z.shiftr_spec by lia. rewrite (proj2 NEW) by lia.
    destruct (Z.leb_spec off (k + off)), (Z.ltb_spec (k + off) (off + w)); try lia. cbn [andb]. f_equal. lia. }
  pose proof (field_range (ity t) w off (loadn (tysize t) a f) ltac:(lia)) as FR.
  set (fv := field_value (ity t) w off (loadn (tysize t) a f)) in *.
  destruct (negb void && (sz alt <? 4)) eqn:VV.
  - apply andb_true_iff in VV. destruct VV as [VV S4']. apply Z.ltb_lt in S4'.
    bnd C. injection C as <-. rename a0 into ex. rename E into EX.
    assert (W2 : w = 8 \/ w = 16) by lia.
    assert (RX : exists x, run sym ex None (setm m f) = Some (None, setr (setm m f) AX x) /\ x = (if uns t then v mod 2 ^ w else sx w v) mod 2 ^ 32).
    { eexists. split; [|reflexivity].
      unfold cast_extend_eax, size_of in EX. rewrite Ua in EX.
      destruct W2 as [EW|EW]; first [assert (SA : sz alt = 1) by lia | assert (SA : sz alt = 2) by lia];
      rewrite SA in EX; rewrite EW;
      cbn [bind Z.eqb Pos.eqb] in EX; injection EX as <-; destruct (uns t); xstep; cbn [Z.ltb Z.compare Pos.compare Pos.compare_cont andb putr];
      unfold getr; cbn [nbits setm rg]; try reflexivity; rewrite sgn_mod by lia; reflexivity. }
    destruct RX as [x [RX XV]]. exists (setr (setm m f) AX x). split; [rewrite run_app, R1; exact RX|]. split.
    { destruct ST7 as [A [B D]]. split; [|split; [exact B|exact D]]. intros r N1 N2 N3. cbn [rg setr setm]. destruct r; try congruence; reflexivity. }
    intros _ NBR. cbn [rg setr setm reg_eqb mm]. fold fv. rewrite XV.
    assert (VFV : (if uns t then v mod 2 ^ w else sx w v) = fv).
    { unfold fmin, fmax in FR. rewrite SU in FR. destruct (uns t); cbn [negb] in FR.
      - rewrite <- FE. apply Z.mod_small. lia.
      - rewrite <- (sx_cong w fv v FE). apply sx_id; lia. }
    rewrite VFV. destruct (Z.eqb_spec (sz t) 8) as [S8'|S8']; [|apply eqm_mod; lia].
    destruct (uns t) eqn:U.
    + rewrite Z.mod_small; [apply eqm_refl|]. unfold fmin, fmax in FR. rewrite SU in FR. cbn [negb] in FR.
      destruct W2 as [-> | ->]; lia.
    + exfalso. apply NBR. split; [exact S8'|split; [rewrite E8; apply Z.mod_mul; lia|left; auto]].
  - injection C as <-. exists (setm m f). split; [exact R1|]. split; [exact ST7|].
    intros V NBR. rewrite V in VV. cbn [negb andb] in VV. apply Z.ltb_ge in VV.
    cbn [rg setm mm]. fold fv. fold v. apply eqm_sym.
    destruct (Z.eqb_spec (sz t) 8) as [S8'|S8'].
    + destruct (Z.eq_dec w 64) as [->|N64]; [exact FE|]. exfalso. apply NBR. split; [exact S8'|split; [rewrite E8; apply Z.mod_mul; lia|right; lia]].
    + replace 32 with w by lia. exact FE.
Qed.
End S.

(** *** Reading fields of the new unit *)
Lemma set_read t w off old v new : 1 <= w -> 0 <= off -> field_set w off old v new ->
  field_value t w off new = field_conv t w v.
Proof.
  intros W O [_ F]. unfold field_value, field_conv.
  replace ((new / 2 ^ off) mod 2 ^ w) with (v mod 2 ^ w); [reflexivity|].
  apply mod_eq_bits; [lia|]. intros k K. rewrite <- Z.shiftr_div_pow2, Z.shiftr_spec, F by lia.
  destruct (Z.leb_spec off (k + off)), (Z.ltb_spec (k + off) (off + w)); try lia. cbn [andb]. f_equal. lia.
Qed.

Lemma set_other t w off w' off' old v new : 1 <= w' -> 0 <= off' -> apart w off w' off' -> field_set w off old v new ->
  field_value t w' off' new = field_value t w' off' old.
Proof.
  intros W O A [_ F]. unfold field_value.
  replace ((new / 2 ^ off') mod 2 ^ w') with ((old / 2 ^ off') mod 2 ^ w'); [reflexivity|].
  apply mod_eq_bits; [lia|]. intros k K. rewrite <- !Z.shiftr_div_pow2, !Z.shiftr_spec, F by lia.
  destruct (Z.leb_spec off (k + off')), (Z.ltb_spec (k + off') (off + w)); try reflexivity. destruct A; lia.
Qed.

Lemma store_total i w off p void : width_ok i w -> w <> 63 -> inside i w off ->
  exists code, gen_bitfield_store (mty i) w off p void = Ok code.
Proof.
  intros [W1 W2] N [O1 O2]. unfold gen_bitfield_store, store_merged, store_value, store_unit.
  assert (L : w < 63 -> long_of (2 ^ w) = Ok (2 ^ w)).
  { intros H. unfold long_of. pose proof (pow2_pos w ltac:(lia)).
    assert (2 ^ w <= 2 ^ 62) by (apply Z.pow_le_mono_r; lia). change (2 ^ 62) with 4611686018427387904 in *.
    destruct (Z.leb_spec (-9223372036854775808) (2 ^ w)), (Z.leb_spec (2 ^ w) 9223372036854775807); cbn [andb]; auto; lia. }
  assert (PL : w < 63 -> exists a b, load3 (mty i) (BReg p) 0 = Ok a /\ store3 (mty i) (BReg p) 0 = Ok b).
  { intros _. destruct i; repeat eexists. }
  destruct (bitwidth_to_ty w (uns (mty i))) as [alt|] eqn:BW.
  - destruct (Z.eqb_spec off (off / 8 * 8)).
    + assert (S : exists b, store3 alt (BReg p) (off / 8) = Ok b) by
        (unfold bitwidth_to_ty in BW; repeat match goal with H : (if ?b then _ else _) = Some _ |- _ => destruct b; [injection H as <-; destruct (uns (mty i)); eexists; reflexivity|] end; discriminate).
      destruct S as [b ->]. cbn [bind]. destruct (negb void && (sz alt <? 4)) eqn:V; [|eauto].
      apply andb_true_iff in V. destruct V as [_ V]. apply Z.ltb_lt in V. unfold cast_extend_eax.
      apply bitwidth_ty in BW. destruct BW as [_ [_ [B1 [_ [_ [_ B2]]]]]].
      assert (Q : sz alt = 1 \/ sz alt = 2) by lia. destruct Q as [-> | ->]; eexists; reflexivity.
    + assert (OO : off <> 0) by (intros ->; auto). assert (WW : w < 63) by (destruct i; cbn in *; lia).
      rewrite (L WW). cbn [bind]. destruct (PL WW) as [a [b [-> ->]]]. cbn [bind]. eauto.
  - assert (WW : w < 63).
    { unfold bitwidth_to_ty in BW. destruct (Z.eqb_spec w 64); [discriminate|]. destruct i; cbn in *; lia. }
    rewrite (L WW). cbn [bind]. destruct (PL WW) as [a [b [-> ->]]]. cbn [bind]. eauto.
Qed.

(** *** Statements over C types *)
Section T.
Variable sym : nat -> Z.

Lemma mty_facts i : is_ty (mty i) /\ ity (mty i) = i /\ sz (mty i) = isize i /\ 8 * isize i = Z.max 8 (iwidth i) /\
  tysize (mty i) = Z.to_nat (isize i).
Proof. destruct i; repeat split. Qed.

Lemma bf_store i w off p m a void code :
  width_ok i w -> inside i w off -> p <> AX -> p <> CX -> p <> DX ->
  rg m p mod 2 ^ 64 = a -> a + isize i <= 2 ^ 64 ->
  gen_bitfield_store (mty i) w off p void = Ok code ->
  exists m', run sym code None m = Some (None, m') /\
    (forall r, r <> AX -> r <> CX -> r <> DX -> rg m' r = rg m r) /\
    (forall x, x < a \/ a + isize i <= x -> mm m' x = mm m x) /\
    field_set w off (loadn (Z.to_nat (isize i)) a (mm m)) (rg m AX) (loadn (Z.to_nat (isize i)) a (mm m')) /\
    (void = false -> ~ bad_value i w off ->
     eqm (result_bits i) (rg m' AX) (field_conv i w (rg m AX))).
Proof.
  intros [W1 W2] [O1 O2] P1 P2 P3 EA AB C. destruct (mty_facts i) as [T [EI [ES [E8 ET]]]].
  assert (EA' : ea sym (BReg p) 0 m = a) by (unfold ea; rewrite Z.add_0_r; exact EA).
  assert (SP : 1 <= isize i) by (unfold isize; lia).
  destruct (store_ok sym (mty i) w off p m code a void T ltac:(rewrite EI; lia) O1 ltac:(rewrite ES; lia) P1 P2 P3 EA' ltac:(rewrite ES; lia) C)
    as [m' [R [[A [B F]] V]]].
  rewrite ET in *. exists m'. split; [exact R|]. split; [exact A|]. split; [|split; [exact F|]].
  - intros x X. apply B. rewrite Z2Nat.id by lia. exact X.
  - intros V0 NB. rewrite <- (set_read i w off _ _ _ W1 O1 F). 
    assert (NB' : ~ bad_result (mty i) w off).
    { intros [B1 [B2 B3]]. apply NB. split; [destruct i; cbn in *; congruence || lia|]. split; [exact B2|].
      destruct B3 as [[B3 B4]|B3]; [left; split; [destruct i; cbn in *; congruence|auto]|auto]. }
    specialize (V V0 NB'). rewrite EI in V.
    replace (result_bits i) with (if sz (mty i) =? 8 then 64 else 32) by (destruct i; reflexivity). exact V.
Qed.

Lemma bf_load i w off ofs m a code :
  width_ok i w -> inside i w off -> ~ bad_field i w off ->
  (rg m AX + ofs) mod 2 ^ 64 = a -> a + isize i <= 2 ^ 64 ->
  gen_bitfield_load (mty i) w off ofs = Ok code ->
  exists m', run sym code None m = Some (None, m') /\
    (forall r, r <> AX -> r <> CX -> r <> DX -> rg m' r = rg m r) /\ mm m' = mm m /\
    eqm (result_bits i) (rg m' AX) (field_value i w off (loadn (Z.to_nat (isize i)) a (mm m))).
Proof.
  intros [W1 W2] [O1 O2] NB EA AB C. destruct (mty_facts i) as [T [EI [ES [E8 ET]]]].
  assert (NB' : ~ bf_bad (mty i) w off).
  { intros [B1 [B2 [B3 B4]]]. apply NB. split; [|split; [|auto]]; destruct i; cbn in *; congruence || lia. }
  destruct (bitfield_load_ok sym (mty i) w off ofs m code a T ltac:(rewrite EI; lia) O1 ltac:(rewrite ES; lia) NB' EA ltac:(rewrite ES; lia) C)
    as [m' [R [[P1 P2] V]]].
  rewrite ET, EI in V. exists m'. split; [exact R|]. split; [exact P1|]. split; [exact P2|].
  eapply eqm_le; [|exact V]. split; destruct i; cbn; lia.
Qed.

Lemma bf_store_load i w off p m a void code m' m2 lcode :
  width_ok i w -> inside i w off -> ~ bad_field i w off -> p <> AX -> p <> CX -> p <> DX ->
  rg m p mod 2 ^ 64 = a -> a + isize i <= 2 ^ 64 ->
  gen_bitfield_store (mty i) w off p void = Ok code -> run sym code None m = Some (None, m') ->
  mm m2 = mm m' -> rg m2 AX mod 2 ^ 64 = a -> gen_bitfield_load (mty i) w off 0 = Ok lcode ->
  exists m3, run sym lcode None m2 = Some (None, m3) /\ mm m3 = mm m2 /\
    eqm (result_bits i) (rg m3 AX) (field_conv i w (rg m AX)).
Proof.
  intros W O NB P1 P2 P3 EA AB C R MM A2 L.
  destruct (bf_store i w off p m a void code W O P1 P2 P3 EA AB C) as [m1 [R1 [_ [_ [F _]]]]].
  assert (m1 = m') by congruence. subst m1.
  destruct (bf_load i w off 0 m2 a lcode W O NB ltac:(rewrite Z.add_0_r; exact A2) AB L) as [m3 [R3 [_ [M3 V]]]].
  exists m3. split; [exact R3|]. split; [exact M3|]. rewrite MM in V.
  rewrite (set_read i w off _ _ _ (proj1 W) (proj1 O) F) in V. exact V.
Qed.

Lemma bf_store_others i w off p m a void code m' :
  width_ok i w -> inside i w off -> p <> AX -> p <> CX -> p <> DX ->
  rg m p mod 2 ^ 64 = a -> a + isize i <= 2 ^ 64 ->
  gen_bitfield_store (mty i) w off p void = Ok code -> run sym code None m = Some (None, m') ->
  let u := loadn (Z.to_nat (isize i)) a (mm m) in
  let u' := loadn (Z.to_nat (isize i)) a (mm m') in
  field_value i w off u' = field_conv i w (rg m AX) /\
  forall i2 w2 off2, 1 <= w2 -> 0 <= off2 -> apart w off w2 off2 ->
    field_value i2 w2 off2 u' = field_value i2 w2 off2 u.
Proof.
  intros W O P1 P2 P3 EA AB C R u u'.
  destruct (bf_store i w off p m a void code W O P1 P2 P3 EA AB C) as [m1 [R1 [_ [_ [F _]]]]].
  assert (m1 = m') by congruence. subst m1. split.
  - apply (set_read i w off _ _ _ (proj1 W) (proj1 O) F).
  - intros. eapply set_other; eauto.
Qed.

Lemma load_total i w off ofs : width_ok i w -> inside i w off ->
  exists code, gen_bitfield_load (mty i) w off ofs = Ok code.
Proof.
  intros _ _. unfold gen_bitfield_load.
  destruct (bitwidth_to_ty w (uns (mty i))) as [alt|] eqn:BW.
  - destruct (off =? off / 8 * 8); [|destruct i; eexists; reflexivity].
    unfold bitwidth_to_ty in BW. repeat match goal with H : (if ?b then _ else _) = Some _ |- _ => destruct b; [injection H as <-; destruct (uns (mty i)); eexists; reflexivity|] end. discriminate.
  - destruct i; eexists; reflexivity.
Qed.
End T.
