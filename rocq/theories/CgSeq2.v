(** Effect of instruction sequences: comparison, division, shifts, bit-fields. *)
From Coq Require Import ZArith List Bool Lia.
From Verif Require Import Base BitLemmas IntSpec IntLemmas IntModel IntTyped IntProofs IntFold
  IntElab X86 CgModel CgLemmas CgSeq.
Import ListNotations.
Local Open Scope Z_scope.

Section S.
Variable sym : nat -> Z.
Local Notation slc := (slc sym).
Local Notation holds := (holds sym).

(** Registers the generated code never writes. *)
Definition callee (r : reg) : Prop := r = BX \/ r = BP \/ r = SP.
Definition stable (b : base) : Prop := match b with BReg r => callee r | BSym _ => True end.

Lemma callee_not r : callee r -> r <> AX /\ r <> CX /\ r <> DX.
Proof. intros [-> | [-> | ->]]; repeat split; discriminate. Qed.

Lemma holds_pres b o k x m m' : stable b -> pres m m' -> holds b o k x m -> holds b o k x m'.
Proof.
  intros S [P1 P2]. unfold CgSeq.holds, ea. rewrite P2. destruct b as [r|]; auto.
  rewrite P1 by (apply callee_not in S; tauto). auto.
Qed.

(** *** Comparisons: the flags decide every comparison of [x] and [y]. *)
Definition cmpf (i : ityp) (x y : Z) (m : mach) : Prop :=
  exists f, fl m = Some f /\
    forall o, cond_holds (cmp_cc o (negb (isigned i))) f = c_cmp o x y.

Lemma cmpf_intro i x y a b m : in_range i x -> in_range i y ->
  eqm (iwidth i) a x -> eqm (iwidth i) b y ->
  fl m = Some (sub_flags (iwidth i) (a mod 2 ^ iwidth i) (b mod 2 ^ iwidth i)) -> cmpf i x y m.
Proof. intros. eexists. split; [eassumption|]. intros. apply flags_cmp; auto. Qed.

Lemma mod_mod_n a n : 0 <= n -> (a mod 2 ^ n) mod 2 ^ n = a mod 2 ^ n.
Proof. intros. apply eqm_mod. auto. Qed.

(** cmp with residues read from anywhere. *)
Lemma cmp_gen i s suf src dst x y m : nbits s = iwidth i -> in_range i x -> in_range i y ->
  is_mem src && is_mem dst = false -> osize suf [src; dst] = Some s ->
  rd sym s dst m = Some (x mod 2 ^ nbits s) -> rd sym s src m = Some (y mod 2 ^ nbits s) ->
  (forall z, dst <> I z) ->
  slc [Alu ACmp suf src dst] m (fun m' => cmpf i x y m' /\ rg m' = rg m).
Proof.
  intros NB Rx Ry IM OS RD RS NI.
  exists (setf m (Some (sub_flags (nbits s) (x mod 2 ^ nbits s) (y mod 2 ^ nbits s)))).
  split; [|split].
  - cbn [run exec1]. rewrite IM, OS, RD, RS. destruct dst; try reflexivity. exfalso. eapply NI. reflexivity.
  - split; auto.
  - split; [|reflexivity]. apply (cmpf_intro i x y x y); auto using eqm_refl. cbn [fl setf]. rewrite NB. reflexivity.
Qed.

Lemma rd_reg s r x m : eqm (nbits s) (rg m r) x -> rd sym s (R s r) m = Some (x mod 2 ^ nbits s).
Proof. intros E. cbn [rd]. unfold getr. rewrite E. reflexivity. Qed.

Lemma rd_mem s b o x m : holds b o (nbytes s) x m -> rd sym s (M b o) m = Some (x mod 2 ^ nbits s).
Proof. intros E. cbn [rd]. rewrite E, nbits_nbytes. reflexivity. Qed.

Lemma rd_imm s v y m : big s -> - 2 ^ 31 <= v < 2 ^ 31 -> eqm (nbits s) v y ->
  rd sym s (I v) m = Some (y mod 2 ^ nbits s).
Proof. intros Bs E Q. cbn [rd]. rewrite imm32_ok by auto. rewrite Q. reflexivity. Qed.

Lemma cmp_reg i s r x y m : nbits s = iwidth i -> big s -> in_range i x -> in_range i y ->
  eqm (nbits s) (rg m r) x -> eqm (nbits s) (rg m AX) y ->
  slc [Alu ACmp None (R s AX) (R s r)] m (fun m' => cmpf i x y m').
Proof.
  intros NB Bs Rx Ry E1 E2. eapply slc_weak.
  - apply (cmp_gen i s None (R s AX) (R s r) x y); eauto using rd_reg; try discriminate; destruct Bs as [-> | ->]; reflexivity.
  - intros m' _ [Q _]; exact Q.
Qed.

Lemma cmp_mem i s b o x y m : nbits s = iwidth i -> big s -> in_range i x -> in_range i y ->
  holds b o (nbytes s) x m -> eqm (nbits s) (rg m AX) y ->
  slc [Alu ACmp None (R s AX) (M b o)] m (fun m' => cmpf i x y m').
Proof.
  intros NB Bs Rx Ry E1 E2. eapply slc_weak.
  - apply (cmp_gen i s None (R s AX) (M b o) x y); eauto using rd_reg, rd_mem; try discriminate;
    destruct Bs as [-> | ->]; reflexivity.
  - intros m' _ [Q _]; exact Q.
Qed.

Lemma eqm_eq n a b : a mod 2 ^ n = b mod 2 ^ n -> eqm n a b. Proof. auto. Qed.

Lemma imm_cmp_ok i s x y v m : nbits s = iwidth i -> big s -> in_range i x -> in_range i y ->
  eqm (nbits s) (rg m AX) x -> eqm (nbits s) v y -> imm_dom s v ->
  slc (imm_cmp s S8 AX DX v) m (fun m' => cmpf i x y m').
Proof.
  intros NB Bs Rx Ry E1 E2 D. unfold imm_cmp. pose proof (nbits_pos s) as NP.
  destruct (Z.eqb_spec v 0) as [->|N0].
  { exists (setf m (Some (sub_flags (nbits s) (rg m AX mod 2 ^ nbits s) 0))). split; [|split].
    - cbn [run exec1 is_mem andb]. assert (OS : osize None [R s AX; R s AX] = Some s) by (destruct Bs as [-> | ->]; reflexivity).
      rewrite OS. cbn [rd]. unfold getr. rewrite test_flags by lia. reflexivity.
    - split; auto.
    - apply (cmpf_intro i x y (rg m AX) 0); auto; rewrite <- NB; auto. }
  destruct (in_imm_range v) eqn:K.
  - apply in_imm_spec in K. eapply slc_weak.
    + apply (cmp_gen i s None (I v) (R s AX) x y); eauto using rd_reg, rd_imm; try discriminate;
      destruct Bs as [-> | ->]; reflexivity.
    + intros m' _ [Q _]; exact Q.
  - assert (NK : ~ (- 2 ^ 31 <= v < 2 ^ 31)) by (intros Q; apply in_imm_spec in Q; congruence).
    destruct Bs as [-> | ->]; [cbn in D; contradiction|]. cbn [imm_dom size_eqb] in D.
    apply (slc_app sym [_] [_]) with (Q := fun m' => eqm 64 (rg m' DX) v /\ rg m' AX = rg m AX).
    + eapply slc_weak; [apply (mov_imm_ok sym S8 v DX m); [right; reflexivity|right; reflexivity|lia|discriminate]|].
      intros m' _ [E F]. auto.
    + intros m1 P1 [E F]. eapply slc_weak.
      * eapply (cmp_gen i S8 None (R S8 DX) (R S8 AX) x y); eauto; try discriminate.
        -- apply rd_reg. rewrite F. exact E1.
        -- apply rd_reg. eapply eqm_trans; [exact E|exact E2].
      * intros m' _ [Q _]; exact Q.
Qed.

Lemma imm_tmpl_cmp_ok i s b o x y v m : nbits s = iwidth i -> big s -> in_range i x -> in_range i y ->
  holds b o (nbytes s) x m -> eqm (nbits s) v y -> imm_dom s v -> stable b ->
  slc (imm_tmpl_cmp s b o v) m (fun m' => cmpf i x y m').
Proof.
  intros NB Bs Rx Ry E1 E2 D NDX. unfold imm_tmpl_cmp.
  destruct (v =? sext 32 v) eqn:K.
  - apply sext32_spec in K. eapply slc_weak.
    + apply (cmp_gen i s (Some s) (I v) (M b o) x y); eauto using rd_mem, rd_imm; try discriminate; destruct Bs as [-> | ->]; reflexivity.
    + intros m' _ [Q _]; exact Q.
  - assert (NK : ~ (- 2 ^ 31 <= v < 2 ^ 31)) by (intros Q; apply sext32_spec in Q; congruence).
    destruct Bs as [-> | ->]; [cbn in D; contradiction|]. cbn [imm_dom size_eqb] in D.
    apply (slc_app sym) with (Q := fun m' => eqm 64 (rg m' DX) v).
    + destruct (v =? trunc 32 v) eqn:T.
      * apply trunc32_spec in T. assert (KK : imm_ok S4 v = true).
        { cbn. destruct (Z.leb_spec (-2147483648) v), (Z.ltb_spec v 4294967296); cbn; lia. }
        cbn [imm_ok nbits] in KK. eexists. split; [xstep; rewrite KK; reflexivity|]. split; [prest|].
        cbn [rg setf putr setr setm reg_eqb nbits]. rewrite Z.mod_small by lia. apply eqm_refl.
      * assert (KK : (-2 ^ 63 <=? v) && (v <? 2 ^ 64) = true).
        { destruct (Z.leb_spec (-2 ^ 63) v); [|lia]. destruct (Z.ltb_spec v (2 ^ 64)); [reflexivity|lia]. }
        eexists. split; [xstep; rewrite KK; reflexivity|]. split; [prest|].
        cbn [rg setf putr setr setm reg_eqb nbits]. apply eqm_mod_le. lia.
    + intros m1 P1 E. eapply slc_weak.
      * eapply (cmp_gen i S8 (Some S8) (R S8 DX) (M b o) x y); eauto; try discriminate.
        -- apply rd_mem. eapply holds_pres; eauto.
        -- apply rd_reg. eapply eqm_trans; [exact E|exact E2].
      * intros m' _ [Q _]; exact Q.
Qed.

(** *** Shifts *)
Definition sh_res (o : xsh) (s : size) (a k : Z) : Z :=
  match o with
  | XShl => a * 2 ^ k | XShr => a / 2 ^ k | XSar => sgn (nbits s) a / 2 ^ k
  end.

Lemma sh_val o i s x y v a : nbits s = iwidth i -> in_range i x -> i <> TBool ->
  eqm (nbits s) a x ->
  match o with
  | XShl => c_shift true i x y = Some v
  | XShr => 0 <= x /\ c_shift false i x y = Some v
  | XSar => isigned i = true /\ c_shift false i x y = Some v
  end -> 0 <= y < nbits s /\ eqm (nbits s) (sh_res o s (a mod 2 ^ nbits s) y) v.
Proof.
  intros NB R N E H. rewrite NB in *. pose proof (iwidth_pos i).
  assert (Y : forall l w, c_shift l i x y = Some w -> 0 <= y < iwidth i /\
     w = if l then conv i (x * 2 ^ y) else x / 2 ^ y).
  { unfold c_shift. intros l w Q. destruct (Z.leb_spec 0 y); [|discriminate].
    destruct (Z.ltb_spec y (iwidth i)); [|discriminate]. cbn [andb] in Q. injection Q as <-. split; auto; lia. }
  unfold sh_res. destruct o.
  - apply Y in H. destruct H as [H ->]. split; auto. apply eqm_sym.
    eapply eqm_trans; [apply eqm_conv; auto|]. apply eqm_mul; [|apply eqm_refl].
    apply eqm_sym. eapply eqm_trans; [apply eqm_mod; lia|exact E].
  - destruct H as [P H]. apply Y in H. destruct H as [H ->]. split; auto.
    rewrite (unsigned_val i x a) by auto. apply eqm_refl.
  - destruct H as [P H]. apply Y in H. destruct H as [H ->]. split; auto.
    rewrite NB, (sgn_val i x a) by auto. apply eqm_refl.
Qed.

Lemma sh_cl o s y m : big s -> 0 <= y < nbits s -> eqm 8 (rg m CX) y ->
  slc [Sh o CCl (R s AX)] m (fun m' => rg m' AX = sh_res o s (getr s AX m) y mod 2 ^ nbits s).
Proof.
  intros Bs H E. pose proof (nbits_pos s).
  assert (K : getr S1 CX m mod (if size_eqb s S8 then 64 else 32) = y).
  { unfold getr. cbn [nbits]. rewrite E. rewrite (Z.mod_small y (2 ^ 8)) by lia.
    apply Z.mod_small. destruct Bs as [-> | ->]; cbn in *; lia. }
  eexists. split; [|split].
  - cbn [run exec1]. rewrite K. reflexivity.
  - destruct Bs as [-> | ->]; prest.
  - destruct Bs as [-> | ->]; destruct o; reflexivity.
Qed.

Lemma sh_imm_ok o s y m : big s -> 0 <= y < nbits s ->
  slc [Sh o (CImm y) (R s AX)] m (fun m' => rg m' AX = sh_res o s (getr s AX m) y mod 2 ^ nbits s).
Proof. intros. eapply slc_weak; [apply sh_imm; auto|]. intros m' _ ->. destruct o; reflexivity. Qed.

(** *** Fields *)
Lemma sx_field n v w off : 1 <= w -> 0 <= off -> w + off <= n ->
  sx n (v * 2 ^ (n - w - off)) / 2 ^ (n - w) = sx w (v / 2 ^ off).
Proof.
  intros Hw Ho H. rewrite <- !Z.shiftr_div_pow2, <- Z.shiftl_mul_pow2 by lia.
  apply Z.bits_inj'. intros k Hn. rewrite Z.shiftr_spec by lia. rewrite !sx_bits by lia.
  destruct (Z.ltb_spec (k + (n - w)) n), (Z.ltb_spec k w); try lia;
  rewrite Z.shiftl_spec, Z.shiftr_spec by lia; f_equal; lia.
Qed.

Lemma mod_field n v w off : 1 <= w -> 0 <= off -> w + off <= n ->
  (v * 2 ^ (n - w - off)) mod 2 ^ n / 2 ^ (n - w) = (v / 2 ^ off) mod 2 ^ w.
Proof.
  intros Hw Ho H. rewrite <- !Z.shiftr_div_pow2, <- Z.shiftl_mul_pow2 by lia.
  apply Z.bits_inj'. intros k Hn. rewrite Z.shiftr_spec by lia. rewrite !testbit_mod by lia.
  destruct (Z.ltb_spec (k + (n - w)) n), (Z.ltb_spec k w); try lia; cbn [andb]; auto.
  rewrite Z.shiftl_spec, Z.shiftr_spec by lia; f_equal; lia.
Qed.

Definition bf_bad (t : ty) (w off : Z) : Prop :=
  sz t = 8 /\ uns t = false /\ (w = 8 \/ w = 16 \/ w = 32) /\ off mod 8 = 0.

Lemma field_range t w off raw : 1 <= w -> fmin t w <= field_value t w off raw <= fmax t w.
Proof.
  intros W. unfold field_value, fmin, fmax. set (b := (raw / 2 ^ off) mod 2 ^ w).
  pose proof (mod_bound (raw / 2 ^ off) w ltac:(lia)) as B. fold b in B.
  pose proof (pow2_half w W). pose proof (pow2_pos (w - 1) ltac:(lia)).
  destruct (isigned t); cbn [andb]; [|lia]. destruct (Z.leb_spec (2 ^ (w - 1)) b); lia.
Qed.

Lemma field_eqm t w off raw : 1 <= w -> eqm w (field_value t w off raw) (raw / 2 ^ off).
Proof.
  intros W. unfold field_value. destruct (isigned t && _).
  - unfold eqm. rewrite <- (Z.mod_add _ 1) by (pose proof (pow2_pos w ltac:(lia)); lia).
    replace ((raw / 2 ^ off) mod 2 ^ w - 2 ^ w + 1 * 2 ^ w) with ((raw / 2 ^ off) mod 2 ^ w) by lia.
    apply eqm_mod. lia.
  - apply eqm_mod. lia.
Qed.

(** The type loaded for a byte-sized bit-field. *)
Lemma bitwidth_ty w u t : bitwidth_to_ty w u = Some t ->
  is_ty t /\ uns t = u /\ w = 8 * sz t /\ iwidth (ity t) = w /\ isigned (ity t) = negb u /\ ity t <> TBool /\
  (w = 8 \/ w = 16 \/ w = 32 \/ w = 64).
Proof.
  unfold bitwidth_to_ty.
  destruct (Z.eqb_spec w 64) as [->|].
  { destruct u; intros [= <-]; repeat split; try discriminate; auto. }
  destruct (Z.eqb_spec w 32) as [->|].
  { destruct u; intros [= <-]; repeat split; try discriminate; auto. }
  destruct (Z.eqb_spec w 16) as [->|].
  { destruct u; intros [= <-]; repeat split; try discriminate; auto. }
  destruct (Z.eqb_spec w 8) as [->|]; [|discriminate].
  destruct u; intros [= <-]; repeat split; try discriminate; auto.
Qed.

Definition wb (t : ty) : Z := if (sz t =? 8) || is_bool t then 64 else 32.

(** The general path: load the unit, shift left, shift right. *)
Lemma bf_plain t w off ofs m code a l s :
  is_ty t -> 1 <= w <= iwidth (ity t) -> 0 <= off -> off + w <= 8 * sz t ->
  ea sym (BReg AX) ofs m = a ->
  load3 t (BReg AX) ofs = Ok l -> opsize_of (sz t) = Ok s ->
  code = l ++ (if (if sz t =? 8 then 64 else 32) - w - off =? 0 then []
               else [Sh XShl (CImm ((if sz t =? 8 then 64 else 32) - w - off)) (R s AX)])
           ++ [Sh (if uns t then XShr else XSar) (CImm ((if sz t =? 8 then 64 else 32) - w)) (R s AX)] ->
  slc code m (fun m' => eqm (wb t) (rg m' AX)
     (field_value (ity t) w off (loadn (tysize t) a (mm m)))).
Proof.
  intros T W O OW EA L OS ->.
  set (raw := loadn (tysize t) a (mm m)).
  destruct (is_ty_inv t T) as [i [-> EI]]. rewrite EI in *. clear EI.
  (* the unit as loaded *)
  assert (U : exists u, is_ty u /\ ity u <> TBool /\ sz u = sz (mty i) /\ uns u = uns (mty i) /\
     load3 u (BReg AX) ofs = Ok l /\ iwidth (ity u) = 8 * sz (mty i)).
  { destruct (ityp_eqb i TBool) eqn:B.
    - destruct i; try discriminate. exists ty_uchar. repeat split; try discriminate. exact L.
    - exists (mty i). rewrite ity_mty. repeat split; auto.
      + destruct i; discriminate.
      + destruct i; try discriminate; reflexivity. }
  destruct U as [u [Tu [Nu [Su [Uu [Lu Wu]]]]]].
  assert (H : holds (BReg AX) ofs (tysize u) (conv (ity u) raw) m).
  { unfold CgSeq.holds. rewrite EA. replace (tysize u) with (tysize (mty i)) by (unfold tysize; congruence).
    fold raw. assert (TT : 8 * Z.of_nat (tysize (mty i)) = iwidth (ity u)).
    { unfold tysize. rewrite Z2Nat.id by (destruct i; cbn; lia). lia. }
    rewrite TT, (eqm_conv (ity u) raw Nu), <- TT. symmetry. apply Z.mod_small.
    unfold raw. apply loadn_range. }
  set (n := if sz (mty i) =? 8 then 64 else 32) in *.
  assert (NS : nbits s = n /\ big s).
  { unfold n, big. destruct i; cbn in OS |- *; injection OS as <-; cbn; auto. }
  destruct NS as [NS Bs].
  assert (NW : off + w <= n) by (unfold n; destruct i; cbn in OW |- *; lia).
  assert (NP : n = 32 \/ n = 64) by (unfold n; destruct (sz (mty i) =? 8); auto).
  assert (NU : iwidth (ity u) <= n) by (rewrite Wu; unfold n; destruct i; cbn; lia).
  assert (ES : eqm (off + w) (conv (ity u) raw) raw).
  { eapply eqm_le; [|apply eqm_conv; auto]. lia. }
  eapply (slc_app sym l) with (Q := fun m' => eqm n (rg m' AX) (conv (ity u) raw)).
  { eapply slc_weak; [apply (load3_ok sym u (BReg AX) ofs _ m l Tu (conv_range _ _) H Lu)|].
    intros m' _ [A B]. unfold n. destruct (Z.eqb_spec (sz (mty i)) 8); [|exact A]. apply B. left. congruence. }
  intros m1 _ E1.
  eapply slc_app with (Q := fun m' => eqm n (rg m' AX) (rg m1 AX * 2 ^ (n - w - off))).
  { destruct (Z.eqb_spec (n - w - off) 0) as [E0|N0].
    - apply slc_nil. rewrite E0, Z.pow_0_r, Z.mul_1_r. apply eqm_refl.
    - rewrite <- NS. apply shl_imm_ok; auto. lia. }
  intros m2 _ E2.
  eapply slc_weak; [apply sh_imm_ok; [exact Bs|lia]|].
  intros m' _ ->. rewrite NS. unfold getr. rewrite NS.
  set (k := conv (ity u) raw * 2 ^ (n - w - off)).
  assert (E3 : eqm n (rg m2 AX) k).
  { eapply eqm_trans; [exact E2|]. apply eqm_mul; [exact E1|apply eqm_refl]. }
  assert (WB : wb (mty i) <= 64) by (unfold wb; destruct (_ || _); lia).
  assert (RES : sh_res (if uns (mty i) then XShr else XSar) s (rg m2 AX mod 2 ^ n) (n - w) =
    field_value i w off raw).
  { destruct (uns (mty i)) eqn:UN; cbn [sh_res].
    - rewrite E3. unfold k. rewrite mod_field by lia. unfold field_value.
      assert (isigned i = false) as -> by (destruct i; cbn in UN; try discriminate; reflexivity). cbn [andb].
      apply div_mod_low; [lia|lia|]. apply ES.
    - rewrite NS, sgn_mod by lia. rewrite (sx_cong n _ _ E3). unfold k. rewrite sx_field by lia.
      rewrite field_sx; [|destruct i; cbn in UN; try discriminate; reflexivity|lia].
      apply sx_cong. apply div_mod_low; [lia|lia|]. apply ES. }
  rewrite RES. pose proof (field_range i w off raw ltac:(lia)) as FR.
  unfold wb. destruct (Z.eqb_spec (sz (mty i)) 8) as [Q|Q]; cbn [orb].
  - assert (n = 64) as -> by (unfold n; destruct (Z.eqb_spec (sz (mty i)) 8); lia). apply eqm_mod. lia.
  - assert (NN : n = 32) by (unfold n; destruct (Z.eqb_spec (sz (mty i)) 8); lia). rewrite NN.
    destruct (is_bool (mty i)) eqn:IB.
    + destruct i; try discriminate. unfold fmin, fmax in FR. cbn in W. assert (w = 1) by lia. subst w.
      cbn [isigned] in FR. change (2 ^ 1 - 1) with 1 in FR. rewrite Z.mod_small by lia. apply eqm_refl.
    + apply eqm_mod. lia.
Qed.

Lemma bitfield_load_ok t w off ofs m code a :
  is_ty t -> 1 <= w <= iwidth (ity t) -> 0 <= off -> off + w <= 8 * sz t -> ~ bf_bad t w off ->
  ea sym (BReg AX) ofs m = a -> a + sz t <= 2 ^ 64 ->
  gen_bitfield_load t w off ofs = Ok code ->
  slc code m (fun m' => eqm (wb t) (rg m' AX)
     (field_value (ity t) w off (loadn (tysize t) a (mm m)))).
Proof.
  intros T W O OW NB EA AB C.
  set (raw := loadn (tysize t) a (mm m)).
  assert (A0 : 0 <= a) by (rewrite <- EA; apply mod_bound; lia).
  assert (SU : isigned (ity t) = negb (uns t)).
  { destruct (is_ty_inv t T) as [i [-> _]]. destruct i; reflexivity. }
  assert (SZ : sz t = 1 \/ sz t = 2 \/ sz t = 4 \/ sz t = 8).
  { destruct (is_ty_inv t T) as [i [-> _]]. destruct i; cbn; auto. }
  unfold gen_bitfield_load in C.
  destruct (bitwidth_to_ty w (uns t)) as [alt|] eqn:BW.
  - apply bitwidth_ty in BW. destruct BW as [Ta [Ua [Wa [Wi [Si [NBo WW]]]]]].
    destruct (Z.eqb_spec off (off / 8 * 8)) as [E8|N8].
    + assert (AL : holds (BReg AX) (ofs + off / 8) (tysize alt) (field_value (ity t) w off raw) m).
      { unfold CgSeq.holds.
        assert (EA2 : ea sym (BReg AX) (ofs + off / 8) m = a + Z.of_nat (Z.to_nat (off / 8))).
        { rewrite Z2Nat.id by (apply Z.div_pos; lia). unfold ea in *. rewrite Z.add_assoc.
          rewrite <- Zplus_mod_idemp_l, EA. apply Z.mod_small. lia. }
        assert (TS : Z.of_nat (tysize alt) = sz alt) by (unfold tysize; apply Z2Nat.id; lia).
        assert (TT : Z.of_nat (tysize t) = sz t) by (unfold tysize; apply Z2Nat.id; lia).
        rewrite EA2, (loadn_part (tysize t)) by (unfold tysize in *; lia). fold raw.
        rewrite Z2Nat.id by (apply Z.div_pos; lia). replace (8 * (off / 8)) with off by lia.
        rewrite TS, <- Wa. symmetry. apply field_eqm. lia. }
      assert (RG : in_range (ity alt) (field_value (ity t) w off raw)).
      { pose proof (field_range (ity t) w off raw ltac:(lia)) as F. unfold fmin, fmax in F.
        apply in_range_nb. rewrite Wi, Si, <- SU. destruct (isigned (ity t)); lia. }
      eapply slc_weak; [eapply load3_ok; eauto|]. intros m' _ [P32 P64]. unfold wb.
      destruct (Z.eqb_spec (sz t) 8) as [S8'|S8']; cbn [orb].
      * apply P64. rewrite Ua. destruct (uns t) eqn:U; auto. left.
        assert (w = 64); [|lia]. destruct WW as [WW|[WW|[WW|WW]]]; auto; exfalso; apply NB;
        (split; [auto|split; [auto|split; [auto|]]]); rewrite E8; apply Z.mod_mul; lia.
      * destruct (is_bool t) eqn:B; [|exact P32]. exfalso.
        destruct (is_ty_inv t T) as [i [-> _]]. destruct i; try discriminate. cbn in W. lia.
    + bnd C. injection C as C. eapply bf_plain; eauto.
  - bnd C. injection C as C. eapply bf_plain; eauto.
Qed.
End S.
