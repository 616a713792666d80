(** Proofs about static initialisation. *)
From Coq Require Import ZArith List Bool Lia.
From Verif Require Import Base BitLemmas IntSpec IntLemmas IntModel IntProofs CgSpec InitSpec InitModel InitBytes.
Import ListNotations.
Local Open Scope Z_scope.

Section CtypeInd.
  Variable P : ctype -> Prop.
  Hypothesis HI : forall i, P (CInt i).
  Hypothesis HP : P CPtr.
  Hypothesis HA : forall b n, P b -> P (CArr b n).
  Hypothesis HS : forall ms s, Forall (fun m : member => P (fst (fst m))) ms -> P (CStr ms s).
  Hypothesis HU : forall ms s, Forall (fun m : member => P (fst (fst m))) ms -> P (CUni ms s).
  Fixpoint ctype_ind2 (t : ctype) : P t :=
    let all := fix all (ms : list member) : Forall (fun m : member => P (fst (fst m))) ms :=
      match ms with
      | [] => Forall_nil _
      | (mt, mo, bf) :: r =>
          Forall_cons (P := fun m : member => P (fst (fst m))) (mt, mo, bf) (ctype_ind2 mt) (all r)
      end in
    match t with
    | CInt i => HI i
    | CPtr => HP
    | CArr b n => HA b n (ctype_ind2 b)
    | CStr ms s => HS ms s (all ms)
    | CUni ms s => HU ms s (all ms)
    end.
End CtypeInd.

Lemma within_spec p n k : within p n k = true <-> p <= k < p + n.
Proof. unfold within. rewrite andb_true_iff, Z.leb_le, Z.ltb_lt. reflexivity. Qed.
Lemma within_false p n k : within p n k = false <-> ~ (p <= k < p + n).
Proof. rewrite <- within_spec. destruct (within p n k); intuition congruence. Qed.

Lemma isize_pos i : 0 < isize i.
Proof. unfold isize. lia. Qed.
Lemma sz_isize i : sz (mty i) = isize i.
Proof. destruct i; reflexivity. Qed.

Lemma csize_nonneg t : laid_out t -> 0 <= csize t.
Proof.
  induction t using ctype_ind2; cbn [laid_out csize]; intros H'.
  - pose proof (isize_pos i). lia.
  - lia.
  - destruct H' as [_ H']. apply IHt in H'. apply Z.mul_nonneg_nonneg; lia.
  - tauto.
  - tauto.
Qed.

Lemma forall_id (ms : list member) (f : member -> Prop) :
  Forall (fun P => P) (map f ms) <-> Forall f ms.
Proof. rewrite Forall_map. reflexivity. Qed.

(** Members: [mem_pos]/[mem_bits] bound what a member may set. *)
Definition mem_in (off : Z) (m : member) (k : Z) : Prop :=
  8 * off + mem_pos m <= k < 8 * off + mem_pos m + mem_bits m.

Lemma field_inside t x p w k : want_field t x p w k = true -> p <= k < p + w.
Proof.
  unfold want_field. destruct t; try discriminate. destruct x; try discriminate.
  rewrite andb_true_iff. intros [H _]. apply within_spec in H. exact H.
Qed.

Definition inside_of (t : ctype) : Prop := forall x off k, laid_out t -> fits t x off ->
  want k t x off = true -> 8 * off <= k < 8 * (off + csize t).

Definition fits_field (_ : ctype) (x : ini) (_ _ : Z) : Prop :=
  match x with INone => True | IVal v => - 2 ^ 63 <= v < 2 ^ 64 | _ => False end.
Definition wfield (k : Z) (t : ctype) (x : ini) (p w : Z) : bool := want_field t x p w k.

Lemma member_inside off m x k : inside_of (fst (fst m)) -> laid_out (fst (fst m)) ->
  on_member Prop fits fits_field off m x ->
  on_member bool (want k) (wfield k) off m x = true -> mem_in off m k.
Proof.
  destruct m as [[mt mo] [[w bo]|]]; unfold on_member, mem_in, mem_pos, mem_bits, wfield; cbn [fst];
    intros HI HL HF H.
  - apply field_inside in H. lia.
  - apply HI in H; [lia|exact HL|exact HF].
Qed.

Lemma mem_in_size off size m k : mem_ok size m -> mem_in off m k -> 8 * off <= k < 8 * (off + size).
Proof.
  destruct m as [[mt mo] [[w bo]|]]; unfold mem_ok, mem_in, mem_pos, mem_bits.
  - destruct mt; intros; try contradiction. lia.
  - lia.
Qed.

Lemma members_inside off ms l k :
  Forall (fun m : member => inside_of (fst (fst m))) ms ->
  Forall (fun m : member => laid_out (fst (fst m))) ms ->
  on_members Prop fits fits_field True and off ms l ->
  on_members bool (want k) (wfield k) false orb off ms l = true ->
  Exists (fun m => mem_in off m k) ms.
Proof.
  intros HI HL. revert l. induction ms as [|m ms IH]; intros l HF H; [discriminate|].
  inversion_clear HI as [|? ? HI1 HI2]. inversion_clear HL as [|? ? HL1 HL2].
  destruct l as [|x l]; [discriminate|]. cbn [on_members] in HF, H. destruct HF as [F1 F2].
  apply orb_prop in H as [H|H].
  - left. eapply member_inside; eauto.
  - right. eapply IH; eauto.
Qed.

Lemma chosen_inside off ms l sel k :
  Forall (fun m : member => inside_of (fst (fst m))) ms ->
  Forall (fun m : member => laid_out (fst (fst m))) ms ->
  on_members Prop fits fits_field True and off ms l ->
  on_chosen bool (want k) (wfield k) false off ms l sel = true ->
  Exists (fun m => mem_in off m k) ms.
Proof.
  intros HI HL. revert l sel. induction ms as [|m ms IH]; intros l sel HF H; [discriminate|].
  inversion_clear HI as [|? ? HI1 HI2]. inversion_clear HL as [|? ? HL1 HL2].
  destruct l as [|x l]; [discriminate|]. cbn [on_members] in HF. destruct HF as [F1 F2].
  destruct sel as [|sel]; cbn [on_chosen] in H.
  - left. eapply member_inside; eauto.
  - right. eapply IH; eauto.
Qed.

Lemma elems_inside b l o k : inside_of b -> laid_out b ->
  on_elems Prop True and (fits b) (csize b) l o ->
  on_elems bool false orb (want k b) (csize b) l o = true ->
  8 * o <= k < 8 * (o + csize b * Z.of_nat (length l)).
Proof.
  intros HI HL. revert o. induction l as [|x l IH]; intros o HF H; [discriminate|].
  cbn [on_elems] in *. destruct HF as [F1 F2]. pose proof (csize_nonneg b HL) as N.
  cbn [length]. replace (csize b * Z.of_nat (S (length l))) with (csize b + csize b * Z.of_nat (length l)) by lia.
  assert (0 <= csize b * Z.of_nat (length l)) by (apply Z.mul_nonneg_nonneg; lia).
  apply orb_prop in H as [H|H].
  - apply HI in H; auto. lia.
  - apply IH in H; auto. lia.
Qed.

Lemma want_inside t : inside_of t.
Proof.
  induction t using ctype_ind2; unfold inside_of in *; intros x off k HL HF H'.
  - destruct x; try discriminate. cbn [want csize] in *. apply andb_prop in H' as [H' _].
    apply within_spec in H'. lia.
  - destruct x; try discriminate. cbn [want csize] in *. apply andb_prop in H' as [H' _].
    apply within_spec in H'. lia.
  - destruct x; try discriminate. cbn [want csize fits laid_out] in *. destruct HF as [<- HF].
    destruct HL as [_ HL]. apply elems_inside in H'; auto.
  - destruct x; try discriminate. cbn [want csize fits laid_out] in *. destruct HF as [_ HF].
    destruct HL as (N & HM & _ & HL). rewrite forall_id in HL.
    assert (E : Exists (fun m => mem_in off m k) ms) by (eapply members_inside; [|exact HL|exact HF|exact H']; exact H).
    apply Exists_exists in E as (m & I & E). rewrite Forall_forall in HM.
    eapply mem_in_size; [apply HM, I|exact E].
  - destruct x; try discriminate. cbn [want csize fits laid_out] in *. destruct HF as [_ HF].
    destruct HL as (N & HM & HL). rewrite forall_id in HL.
    assert (E : Exists (fun m => mem_in off m k) ms) by (eapply chosen_inside; [|exact HL|exact HF|exact H']; exact H).
    apply Exists_exists in E as (m & I & E). rewrite Forall_forall in HM.
    eapply mem_in_size; [apply HM, I|exact E].
Qed.

(** *** Scalars. *)
Lemma int_of_ok z : - 2 ^ 31 <= z < 2 ^ 31 -> int_of z = Ok z.
Proof.
  intros H. change (2 ^ 31) with 2147483648 in H. unfold int_of, INT_MIN, INT_MAX.
  destruct (Z.leb_spec (-2147483648) z); [|lia]. destruct (Z.leb_spec z 2147483647); [|lia]. reflexivity.
Qed.
Lemma int_conv_id z : 0 <= z < 2 ^ 31 -> int_conv z = z.
Proof.
  intros H. unfold int_conv. rewrite sx_sext by lia. apply sx_id; [lia|].
  change (2 ^ (32 - 1)) with (2 ^ 31). lia.
Qed.

Lemma mod_le_cong a b x y : 0 <= a <= b -> x mod 2 ^ b = y mod 2 ^ b -> x mod 2 ^ a = y mod 2 ^ a.
Proof. intros H E. rewrite <- (mod_mod_le x a b), <- (mod_mod_le y a b) by lia. congruence. Qed.
Lemma mod_bit a x y k : 0 <= k < a -> x mod 2 ^ a = y mod 2 ^ a -> Z.testbit x k = Z.testbit y k.
Proof.
  intros K E. assert (Z.testbit (x mod 2 ^ a) k = Z.testbit (y mod 2 ^ a) k) as T by congruence.
  rewrite !testbit_mod in T by lia. destruct (Z.ltb_spec k a); [exact T|lia].
Qed.
Lemma i64_mod v : i64 v mod 2 ^ 64 = v mod 2 ^ 64.
Proof. unfold i64. rewrite sx_sext by lia. apply sx_mod; lia. Qed.

Lemma conv_mod i v : i <> TBool -> conv i v mod 2 ^ iwidth i = v mod 2 ^ iwidth i.
Proof.
  intros N. rewrite conv_nb by auto. pose proof (iwidth_pos i). destruct (isigned i).
  - apply sx_mod; lia.
  - apply Z.mod_mod. pose proof (pow2_pos (iwidth i)). lia.
Qed.

Lemma i64_zero v : - 2 ^ 63 <= v < 2 ^ 64 -> (i64 v =? 0) = (v =? 0).
Proof.
  intros H. pose proof (i64_mod v) as E. change (2 ^ 64) with 18446744073709551616 in *.
  change (2 ^ 63) with 9223372036854775808 in *.
  assert (R : - 9223372036854775808 <= i64 v < 9223372036854775808).
  { unfold i64. rewrite sx_sext by lia. apply (sx_range 64 v). lia. }
  destruct (Z.eqb_spec (i64 v) 0) as [Z0|Z0], (Z.eqb_spec v 0) as [V|V]; auto.
  - rewrite Z0, Z.mod_0_l in E by lia. exfalso.
    assert (v mod 18446744073709551616 = if v <? 0 then v + 18446744073709551616 else v).
    { destruct (Z.ltb_spec v 0).
      - rewrite <- (Z.mod_small (v + 18446744073709551616) 18446744073709551616) by lia.
        rewrite <- (Z.mod_add v 1) by lia. f_equal; lia.
      - apply Z.mod_small; lia. }
    destruct (Z.ltb_spec v 0); lia.
  - subst v. elim Z0. reflexivity.
Qed.

Lemma iwidth_isize i : i <> TBool -> iwidth i = 8 * isize i.
Proof. destruct i; intros; try congruence; reflexivity. Qed.

Lemma ityp_dec i : i = TBool \/ i <> TBool.
Proof. destruct i; (left; reflexivity) || (right; discriminate). Qed.

(** The bytes of a cast constant are those of the converted value. *)
Lemma cast_bits i v k : - 2 ^ 63 <= v < 2 ^ 64 -> 0 <= k < 8 * isize i ->
  Z.testbit (eval_cast (mty i) (i64 v)) k = Z.testbit (conv i v) k.
Proof.
  intros R K. unfold eval_cast. destruct (ityp_dec i) as [->|N].
  - cbn [is_bool mty ty_bool kd]. rewrite i64_zero by auto. cbn [conv].
    destruct (v =? 0); reflexivity.
  - replace (is_bool (mty i)) with false by (destruct i; try reflexivity; congruence).
    assert (R64 : - two63 <= i64 v < two63).
    { unfold i64. rewrite sx_sext by lia. apply (sx_range 64 v). lia. }
    rewrite ese_spec by auto. rewrite <- iwidth_isize in K by auto.
    apply (mod_bit (iwidth i)); [lia|]. pose proof (iwidth_pos i).
    assert (W64 : iwidth i <= 64) by (destruct i; cbn; lia).
    rewrite <- sext64_rep, sx_sext by lia. rewrite (mod_le_cong _ 64 (sx 64 (conv i (i64 v))) (conv i (i64 v))) by (try apply sx_mod; lia).
    rewrite !conv_mod by auto. apply (mod_le_cong _ 64); [lia|]. apply i64_mod.
Qed.

(** *** The image is as wanted. *)
Definition image (buf buf' : list Z) (w : Z -> bool) : Prop :=
  length buf' = length buf /\ bytes_ok buf' /\ forall k, bit_at buf' k = bit_at buf k || w k.
Definition clear (buf : list Z) (lo hi : Z) : Prop := forall k, lo <= k < hi -> bit_at buf k = false.
Definition good_field (t : ctype) (x : ini) (_ w : Z) : Prop :=
  match t, x with
  | CInt i, IVal v => w <= 62 /\ (i = TBool -> v = 0 \/ Z.odd v = true)
  | _, _ => True
  end.

Definition writes (t : ctype) : Prop := forall x off buf rs,
  laid_out t -> fits t x off -> good_fields t x off -> 0 <= off ->
  off + csize t <= Z.of_nat (length buf) < 2 ^ 31 -> bytes_ok buf ->
  clear buf (8 * off) (8 * (off + csize t)) ->
  exists buf', write_gvar_data t x off (buf, rs) = Ok (buf', rs ++ want_rels t x off) /\
    image buf buf' (fun k => want k t x off).

Lemma image_refl buf : bytes_ok buf -> image buf buf (fun _ => false).
Proof. intros. split; [reflexivity|]. split; auto. intros. rewrite orb_false_r. reflexivity. Qed.
Lemma image_trans b1 b2 b3 w1 w2 : image b1 b2 w1 -> image b2 b3 w2 -> image b1 b3 (fun k => w1 k || w2 k).
Proof.
  intros (L1 & B1 & E1) (L2 & B2 & E2). split; [congruence|]. split; auto.
  intros k. rewrite E2, E1, orb_assoc. reflexivity.
Qed.
Lemma image_ext b1 b2 w w' : (forall k, w k = w' k) -> image b1 b2 w -> image b1 b2 w'.
Proof. intros E (L & B & H). split; auto. split; auto. intros. rewrite H, E. reflexivity. Qed.

Lemma scalar_write buf off n v (P : Z -> bool) : bytes_ok buf -> 0 <= off -> 0 <= n ->
  off + n <= Z.of_nat (length buf) -> clear buf (8 * off) (8 * (off + n)) ->
  (forall k, 0 <= k < 8 * n -> Z.testbit v k = P k) ->
  exists buf', wr_buf buf off n v = Ok buf' /\
    image buf buf' (fun k => within (8 * off) (8 * n) k && P (k - 8 * off)).
Proof.
  intros B O N L C HP. destruct (wr_ok buf off n v) as (b & E & Lb & Bb & Hb); auto.
  exists b. split; [exact E|]. split; [exact Lb|]. split; [exact Bb|].
  intros k. rewrite Hb. destruct (within (8 * off) (8 * n) k) eqn:W.
  - apply within_spec in W. rewrite (C k) by lia. rewrite HP by lia. reflexivity.
  - rewrite orb_false_r. reflexivity.
Qed.

Lemma long_of_ok z : - 2 ^ 63 <= z < 2 ^ 63 -> long_of z = Ok z.
Proof.
  intros H. change (2 ^ 63) with 9223372036854775808 in H. unfold long_of.
  match goal with |- (if ?b then _ else _) = _ => replace b with true end; [reflexivity|].
  symmetry. apply andb_true_intro. split; apply Z.leb_le; lia.
Qed.

Lemma field_bits i v j : 0 <= j < iwidth i -> (i = TBool -> v = 0 \/ Z.odd v = true) ->
  Z.testbit v j = Z.testbit (conv i v) j.
Proof.
  intros K HB. destruct (ityp_dec i) as [->|N].
  - cbn [iwidth] in K. replace j with 0 by lia. destruct (HB eq_refl) as [->|O]; [reflexivity|].
    rewrite Z.bit0_odd, O. cbn [conv]. destruct (Z.eqb_spec v 0); [subst; discriminate|reflexivity].
  - apply (mod_bit (iwidth i)); [lia|]. symmetry. apply conv_mod. exact N.
Qed.

Lemma field_write i w bo v o buf rs : bytes_ok buf -> 0 <= o -> o + isize i <= Z.of_nat (length buf) ->
  1 <= w <= iwidth i -> 0 <= bo -> bo + w <= 8 * isize i -> w <= 62 ->
  (i = TBool -> v = 0 \/ Z.odd v = true) ->
  clear buf (8 * o + bo) (8 * o + bo + w) ->
  exists buf', write_bitfield i w bo (IVal v) o (buf, rs) = Ok (buf', rs) /\
    image buf buf' (want_field (CInt i) (IVal v) (8 * o + bo) w).
Proof.
  intros B O L W BO IN W62 HB C. unfold write_bitfield. cbn [fst snd]. rewrite sz_isize.
  destruct (rd_ok buf o (isize i) B O) as (old & E & _ & RO & BT); [pose proof (isize_pos i); lia|exact L|].
  unfold read_buf. replace ((isize i =? 1) || (isize i =? 2) || (isize i =? 4) || (isize i =? 8)) with true by (destruct i; reflexivity).
  rewrite E. cbn [bind].
  assert (P : 0 < 2 ^ w <= 2 ^ 62) by (split; [apply pow2_pos; lia|apply Z.pow_le_mono_r; lia]).
  rewrite long_of_ok by (change (2 ^ 62) with 4611686018427387904 in P; change (2 ^ 63) with 9223372036854775808; lia).
  cbn [bind].
  assert (M : trunc 64 (2 ^ w - 1) = 2 ^ w - 1).
  { unfold trunc. apply Z.mod_small. change (2 ^ 62) with 4611686018427387904 in P.
    change (2 ^ 64) with 18446744073709551616. lia. }
  rewrite M, land_ones_mod by lia. unfold trunc. rewrite mod_mod_le by lia.
  assert (S64 : 8 * isize i <= 64) by (destruct i; vm_compute; discriminate).
  set (c := Z.lor old _).
  assert (CB : forall j, 0 <= j < 8 * isize i -> Z.testbit c j =
     Z.testbit old j || (within bo w j && Z.testbit v (j - bo))).
  { intros j J. unfold c. rewrite Z.lor_spec. f_equal. rewrite testbit_mod by lia.
    destruct (Z.ltb_spec j 64); [|lia]. unfold within. destruct (Z.leb_spec bo j); cbn [andb].
    - rewrite Z.mul_pow2_bits by lia. rewrite testbit_mod by lia.
      destruct (Z.ltb_spec j (bo + w)), (Z.ltb_spec (j - bo) w); try lia; reflexivity.
    - rewrite Z.mul_pow2_bits_low by lia. reflexivity. }
  destruct (wr_ok buf o (isize i) c) as (b & Eb & Lb & Bb & Hb); auto; [pose proof (isize_pos i); lia|].
  rewrite Eb. cbn [bind]. exists b. split; [reflexivity|]. split; [exact Lb|]. split; [exact Bb|].
  intros k. rewrite Hb. unfold want_field. destruct (within (8 * o) (8 * isize i) k) eqn:WI.
  - apply within_spec in WI. rewrite CB by lia. rewrite BT by lia.
    replace (8 * o + (k - 8 * o)) with k by lia. f_equal.
    replace (within (8 * o + bo) w k) with (within bo w (k - 8 * o)).
    2:{ apply eq_true_iff_eq. rewrite !within_spec. lia. }
    destruct (within bo w (k - 8 * o)) eqn:WI2; [|reflexivity]. apply within_spec in WI2. cbn [andb].
    replace (k - (8 * o + bo)) with (k - 8 * o - bo) by lia. apply field_bits; auto. lia.
  - replace (within (8 * o + bo) w k) with false; [cbn [andb]; rewrite orb_false_r; reflexivity|].
    symmetry. apply within_false. apply within_false in WI. lia.
Qed.

Definition no_field_rels (_ : ctype) (_ : ini) (_ _ : Z) : list rel := [].

Lemma member_write off size m x buf rs : writes (fst (fst m)) -> laid_out (fst (fst m)) ->
  mem_ok size m -> on_member Prop fits fits_field off m x ->
  on_member Prop good_fields good_field off m x ->
  0 <= off -> off + size <= Z.of_nat (length buf) < 2 ^ 31 -> bytes_ok buf ->
  clear buf (8 * off + mem_pos m) (8 * off + mem_pos m + mem_bits m) ->
  exists buf', write_mem write_gvar_data off m x (buf, rs)
      = Ok (buf', rs ++ on_member _ want_rels no_field_rels off m x) /\
    image buf buf' (fun k => on_member bool (want k) (wfield k) off m x).
Proof.
  destruct m as [[mt mo] [[w bo]|]]; unfold write_mem, on_member, mem_ok, mem_pos, mem_bits, no_field_rels, wfield;
    cbn [fst]; intros HW HL HM HF HG O L B C.
  - destruct mt as [i| | | |]; try contradiction. destruct HM as (M1 & M2 & M3 & M4 & M5).
    pose proof (isize_pos i). rewrite int_of_ok by lia. cbn [bind]. rewrite app_nil_r.
    unfold fits_field in HF. destruct x as [|v| |]; try contradiction.
    + cbn [write_gvar_data]. exists buf. split; [reflexivity|]. apply image_refl; auto.
    + destruct HG as [G1 G2]. apply field_write; auto; try lia.
      intros k K. apply C. lia.
  - pose proof (csize_nonneg mt HL). rewrite int_of_ok by lia. cbn [bind].
    apply HW; auto; try lia. intros k K. apply C. lia.
Qed.

Lemma members_write off size ms l buf rs :
  Forall (fun m : member => writes (fst (fst m))) ms ->
  Forall (fun m : member => laid_out (fst (fst m))) ms ->
  Forall (mem_ok size) ms ->
  ForallOrdPairs (fun m m' => mem_pos m + mem_bits m <= mem_pos m') ms ->
  length l = length ms ->
  on_members Prop fits fits_field True and off ms l ->
  on_members Prop good_fields good_field True and off ms l ->
  0 <= off -> off + size <= Z.of_nat (length buf) < 2 ^ 31 -> bytes_ok buf ->
  Forall (fun m => clear buf (8 * off + mem_pos m) (8 * off + mem_pos m + mem_bits m)) ms ->
  exists buf', write_members write_gvar_data off ms l (buf, rs)
      = Ok (buf', rs ++ on_members _ want_rels no_field_rels [] (@app rel) off ms l) /\
    image buf buf' (fun k => on_members bool (want k) (wfield k) false orb off ms l).
Proof.
  intros HW HL HM HP. revert l buf rs.
  induction ms as [|m ms IH]; intros l buf rs LEN HF HG O L B C.
  - cbn [write_members on_members]. exists buf. rewrite app_nil_r. split; [reflexivity|]. apply image_refl; auto.
  - inversion_clear HW as [|? ? W1 W2]. inversion_clear HL as [|? ? L1 L2]. inversion_clear HM as [|? ? M1 M2].
    inversion_clear HP as [|? ? P1 P2]. inversion_clear C as [|? ? C1 C2].
    destruct l as [|x l]; [discriminate|]. cbn [on_members] in HF, HG |- *. destruct HF as [F1 F2], HG as [G1 G2].
    cbn [write_members].
    destruct (member_write off size m x buf rs) as (b1 & E1 & I1); auto.
    rewrite E1. cbn [bind].
    destruct (IH W2 L2 M2 P2 l b1 (rs ++ on_member _ want_rels no_field_rels off m x)) as (b2 & E2 & I2); auto.
    + destruct I1 as (-> & _). exact L.
    + apply I1.
    + rewrite Forall_forall in *. intros m' I' k K. destruct I1 as (_ & _ & I1). rewrite I1.
      rewrite (C2 m' I' k K). cbn [orb].
      destruct (on_member bool (want k) (wfield k) off m x) eqn:T; [|reflexivity]. exfalso.
      apply member_inside in T; auto; [|apply want_inside]. unfold mem_in in T.
      specialize (P1 m' I'). lia.
    + exists b2. rewrite E2, app_assoc. split; [reflexivity|]. eapply image_trans; eauto.
Qed.

Lemma chosen_write off size ms l sel buf rs :
  Forall (fun m : member => writes (fst (fst m))) ms ->
  Forall (fun m : member => laid_out (fst (fst m))) ms ->
  Forall (mem_ok size) ms ->
  length l = length ms ->
  on_members Prop fits fits_field True and off ms l ->
  on_chosen Prop good_fields good_field True off ms l sel ->
  0 <= off -> off + size <= Z.of_nat (length buf) < 2 ^ 31 -> bytes_ok buf ->
  clear buf (8 * off) (8 * (off + size)) ->
  exists buf', write_chosen write_gvar_data off ms l sel (buf, rs)
      = Ok (buf', rs ++ on_chosen _ want_rels no_field_rels [] off ms l sel) /\
    image buf buf' (fun k => on_chosen bool (want k) (wfield k) false off ms l sel).
Proof.
  intros HW HL HM. revert l sel.
  induction ms as [|m ms IH]; intros l sel LEN HF HG O L B C.
  - cbn [write_chosen on_chosen]. exists buf. rewrite app_nil_r. split; [reflexivity|]. apply image_refl; auto.
  - inversion_clear HW as [|? ? W1 W2]. inversion_clear HL as [|? ? L1 L2]. inversion_clear HM as [|? ? M1 M2].
    destruct l as [|x l]; [discriminate|]. cbn [on_members] in HF. destruct HF as [F1 F2].
    destruct sel as [|sel]; cbn [write_chosen on_chosen] in *.
    + apply (member_write off size); auto. intros k K. apply C.
      apply (mem_in_size off size m k M1). exact K.
    + apply IH; auto.
Qed.

Lemma elems_write b offset n l i buf rs : writes b -> laid_out b ->
  length l = n -> 0 <= i -> i + Z.of_nat n < 2 ^ 31 -> 0 <= csize b < 2 ^ 31 ->
  on_elems Prop True and (fits b) (csize b) l (offset + csize b * i) ->
  on_elems Prop True and (good_fields b) (csize b) l (offset + csize b * i) ->
  0 <= offset ->
  offset + csize b * (i + Z.of_nat n) <= Z.of_nat (length buf) < 2 ^ 31 -> bytes_ok buf ->
  clear buf (8 * (offset + csize b * i)) (8 * (offset + csize b * (i + Z.of_nat n))) ->
  exists buf', write_elems (write_gvar_data b) (csize b) offset n l i (buf, rs)
      = Ok (buf', rs ++ on_elems _ [] (@app rel) (want_rels b) (csize b) l (offset + csize b * i)) /\
    image buf buf' (fun k => on_elems bool false orb (want k b) (csize b) l (offset + csize b * i)).
Proof.
  intros HW HL. revert l i buf rs. induction n as [|n IH]; intros l i buf rs LEN I1 I2 CS HF HG O L B C.
  - destruct l; [|discriminate]. cbn [write_elems on_elems]. exists buf. rewrite app_nil_r. split; [reflexivity|].
    apply image_refl; auto.
  - destruct l as [|x l]; [discriminate|]. cbn [on_elems] in HF, HG |- *. destruct HF as [F1 F2], HG as [G1 G2].
    assert (A1 : 0 <= csize b * i) by (apply Z.mul_nonneg_nonneg; lia).
    assert (A2 : 0 <= csize b * Z.of_nat n) by (apply Z.mul_nonneg_nonneg; lia).
    assert (A3 : csize b * (i + Z.of_nat (S n)) = csize b * i + csize b + csize b * Z.of_nat n) by lia.
    assert (A4 : csize b * (i + 1) = csize b * i + csize b) by lia.
    cbn [write_elems]. rewrite !int_of_ok by lia. cbn [bind]. rewrite int_of_ok by lia. cbn [bind].
    destruct (HW x (offset + csize b * i) buf rs) as (b1 & E1 & J1); auto; try lia.
    { intros k K. apply C. lia. }
    rewrite E1. cbn [bind].
    assert (EO : offset + csize b * i + csize b = offset + csize b * (i + 1)) by lia.
    rewrite EO in F2, G2 |- *.
    destruct (IH l (i + 1) b1 (rs ++ want_rels b x (offset + csize b * i))) as (b2 & E2 & J2); auto; try lia.
    + destruct J1 as (-> & _). lia.
    + apply J1.
    + intros k K. destruct J1 as (_ & _ & J1). rewrite J1. rewrite C by lia. cbn [orb].
      destruct (want k b x (offset + csize b * i)) eqn:T; [|reflexivity]. exfalso.
      apply want_inside in T; auto. lia.
    + exists b2. rewrite E2, <- app_assoc. split; [reflexivity|].
      eapply image_ext; [|eapply image_trans; [exact J1|exact J2]]. intros k. cbv beta. reflexivity.
Qed.

Lemma writes_all t : writes t.
Proof.
  induction t using ctype_ind2; unfold writes; intros x off buf rs HL HF HG O L B C;
    (destruct x as [|v|lb ad|l sel]; [cbn [write_gvar_data]; exists buf;
       replace (want_rels _ INone off) with (@nil rel) by reflexivity; rewrite app_nil_r; split; [reflexivity|];
       eapply image_ext; [|apply image_refl, B]; intros; reflexivity| | |]).
  - cbn [write_gvar_data fst snd]. rewrite sz_isize. cbn [want_rels]. rewrite app_nil_r.
    destruct (scalar_write buf off (isize i) (eval_cast (mty i) (i64 v)) (Z.testbit (conv i v))) as (b & E & J); auto.
    + pose proof (isize_pos i); lia.
    + cbn [csize] in L. lia.
    + intros k K. apply cast_bits; auto.
    + exists b. rewrite E. split; [reflexivity|exact J].
  - cbn [write_gvar_data fst snd fits] in *. rewrite sz_isize, HF. cbn [Z.eqb Pos.eqb want_rels].
    exists buf. split; [reflexivity|]. apply image_refl; auto.
  - contradiction.
  - cbn [write_gvar_data fst snd want_rels]. rewrite app_nil_r.
    destruct (scalar_write buf off 8 (i64 v) (Z.testbit v)) as (b & E & J); auto; try lia.
    + cbn [csize] in L. lia.
    + intros k K. apply (mod_bit 64); [lia|]. apply i64_mod.
    + exists b. rewrite E. split; [reflexivity|exact J].
  - cbn [write_gvar_data fst snd want_rels]. exists buf. split; [reflexivity|]. apply image_refl; auto.
  - contradiction.
  - contradiction.
  - contradiction.
  - cbn [write_gvar_data fst snd want_rels csize fits good_fields laid_out] in *.
    destruct HL as [N HL]. destruct HF as [LEN HF]. pose proof (csize_nonneg t HL) as CN.
    destruct n as [|n].
    { destruct l; [|discriminate]. cbn [write_elems on_elems]. exists buf. rewrite app_nil_r. split; [reflexivity|].
      apply image_refl; auto. }
    assert (A : csize t * Z.of_nat (S n) = csize t + csize t * Z.of_nat n) by lia.
    assert (0 <= csize t * Z.of_nat n) by (apply Z.mul_nonneg_nonneg; lia).
    rewrite int_conv_id by lia.
    assert (Z0 : off + csize t * 0 = off) by lia.
    destruct (elems_write t off (S n) l 0 buf rs) as (b & E & J); auto; rewrite ?Z0; rewrite ?Z.add_0_l; try lia; auto.
    rewrite Z0 in E. exists b. split; [exact E|]. eapply image_ext; [|exact J]. intros k. cbv beta. rewrite Z0. reflexivity.
  - contradiction.
  - contradiction.
  - cbn [write_gvar_data fst snd want_rels csize fits good_fields laid_out] in *.
    destruct HL as (N & HM & HP & HL). rewrite forall_id in HL. destruct HF as [LEN HF].
    apply (members_write off s ms l buf rs); auto.
    rewrite Forall_forall in *. intros m I k K. apply C. eapply mem_in_size; [apply HM, I|exact K].
  - contradiction.
  - contradiction.
  - cbn [write_gvar_data fst snd want_rels csize fits good_fields laid_out] in *.
    destruct HL as (N & HM & HL). rewrite forall_id in HL. destruct HF as [LEN HF].
    apply (chosen_write off s ms l sel buf rs); auto.
Qed.
