(** Proofs about the data directives. *)
From Coq Require Import ZArith List Bool Lia.
From Verif Require Import Base BitLemmas IntSpec IntLemmas IntModel CgSpec BfSpec InitSpec InitModel InitBytes InitProofs.
Import ListNotations.
Local Open Scope Z_scope.

Lemma le_bytes_cong n x y : x mod 2 ^ (8 * Z.of_nat n) = y mod 2 ^ (8 * Z.of_nat n) ->
  le_bytes n x = le_bytes n y.
Proof.
  revert x y. induction n as [|n IH]; intros x y E; [reflexivity|]. cbn [le_bytes].
  replace (8 * Z.of_nat (S n)) with (8 + 8 * Z.of_nat n) in E by lia.
  assert (P : 0 < 2 ^ (8 * Z.of_nat n)) by (apply pow2_pos; lia).
  rewrite Z.pow_add_r in E by lia. change (2 ^ 8) with 256 in E.
  rewrite !Z.rem_mul_r in E by lia.
  assert (x mod 256 = y mod 256 /\ (x / 256) mod 2 ^ (8 * Z.of_nat n) = (y / 256) mod 2 ^ (8 * Z.of_nat n)) as [E1 E2].
  { pose proof (Z.mod_pos_bound x 256). pose proof (Z.mod_pos_bound y 256). lia. }
  rewrite E1, (IH _ _ E2). reflexivity.
Qed.

Lemma le_bytes_of l : bytes_ok l -> le_bytes (length l) (of_bytes l) = map Val l.
Proof.
  induction 1 as [|b l B _ IH]; [reflexivity|]. cbn [length le_bytes of_bytes map].
  replace (b + 256 * of_bytes l) with (b + of_bytes l * 256) by lia.
  rewrite Z.mod_add, Z.div_add, Z.mod_small, Z.div_small by lia. rewrite Z.add_0_l, IH. reflexivity.
Qed.

Definition slice (data : list Z) (pos n : Z) : list Z := firstn (Z.to_nat n) (skipn (Z.to_nat pos) data).

Lemma skipn_skipn {A} a b (l : list A) : skipn a (skipn b l) = skipn (a + b) l.
Proof.
  revert l. induction b as [|b IH]; intros l; [rewrite Nat.add_0_r; reflexivity|].
  rewrite Nat.add_succ_r. destruct l; cbn [skipn]; [apply skipn_nil|apply IH].
Qed.

Lemma slice_app data pos a b : 0 <= pos -> 0 <= a -> 0 <= b ->
  slice data pos (a + b) = slice data pos a ++ slice data (pos + a) b.
Proof.
  intros. unfold slice.
  rewrite !Z2Nat.inj_add by lia. rewrite <- (firstn_skipn (Z.to_nat a) (skipn (Z.to_nat pos) data)) at 1.
  rewrite firstn_app. f_equal.
  - rewrite firstn_firstn. f_equal. lia.
  - rewrite skipn_skipn. rewrite firstn_length, skipn_length.
    replace (Z.to_nat a + Z.to_nat pos)%nat with (Z.to_nat pos + Z.to_nat a)%nat by lia.
    destruct (le_lt_dec (Z.to_nat a) (length data - Z.to_nat pos)).
    + f_equal. lia.
    + rewrite skipn_all2 by lia. rewrite !firstn_nil. reflexivity.
Qed.

Lemma rd_cells data pos n v' (k : nat) : bytes_ok data -> 0 <= pos -> 0 <= n -> pos + n <= Z.of_nat (length data) ->
  Z.to_nat n = k ->
  forall v, rd_buf data pos n = Ok v -> v' mod 2 ^ (8 * n) = v mod 2 ^ (8 * n) ->
  le_bytes k v' = map Val (slice data pos n).
Proof.
  intros B P N L K v E M. destruct (rd_ok data pos n B P N L) as (u & E' & U & _).
  rewrite E in E'. injection E' as ->. subst u. fold (slice data pos n).
  assert (LN : length (slice data pos n) = k) by (unfold slice; rewrite slice_len by lia; lia).
  rewrite (le_bytes_cong k v' (of_bytes (slice data pos n))).
  - rewrite <- LN. apply le_bytes_of. apply slice_ok, B.
  - replace (8 * Z.of_nat k) with (8 * n) by lia. exact M.
Qed.

Lemma emit_run_ok fuel data pos rem : bytes_ok data -> 0 <= pos -> 0 <= rem <= Z.of_nat fuel ->
  pos + rem <= Z.of_nat (length data) < 2 ^ 31 ->
  exists ds, emit_run fuel data pos rem = Ok (ds, pos + rem) /\ assemble ds = map Val (slice data pos rem).
Proof.
  intros B. revert pos rem. induction fuel as [|f IH]; intros pos rem P R L; cbn [emit_run];
    (destruct (Z.leb_spec rem 0) as [Z0|Z0];
      [exists []; replace rem with 0 by lia; rewrite Z.add_0_r; split; reflexivity|]); [lia|].
  assert (ST : forall n mk k, 1 <= n <= rem -> Z.to_nat n = k ->
    (forall v, exists v', assemble1 (mk v) = le_bytes k v' /\ v' mod 2 ^ (8 * n) = v mod 2 ^ (8 * n)) ->
    exists ds, (do v <- rd_buf data pos n; do p <- int_of (pos + n);
        do q <- emit_run f data p (rem - n); Ok (mk v :: fst q, snd q)) = Ok (ds, pos + rem) /\
      assemble ds = map Val (slice data pos rem)).
  { intros n mk k N K MK. destruct (rd_ok data pos n B P ltac:(lia) ltac:(lia)) as (v & E & _).
    rewrite E. cbn [bind]. rewrite int_of_ok by lia. cbn [bind].
    destruct (IH (pos + n) (rem - n)) as (ds & E2 & A); try lia. rewrite E2. cbn [bind fst snd].
    exists (mk v :: ds). split; [do 2 f_equal; lia|].
    destruct (MK v) as (v' & A1 & M1). unfold assemble in *. cbn [flat_map]. rewrite A, A1.
    rewrite (rd_cells data pos n v' k B P ltac:(lia) ltac:(lia) K v E M1).
    rewrite <- map_app, <- slice_app by lia. do 2 f_equal. lia. }
  destruct (Z.leb_spec 8 rem); [|destruct (Z.leb_spec 4 rem); [|destruct (Z.leb_spec 2 rem)]].
  - apply (ST 8 DQuad 8%nat); [lia|reflexivity|]. intros v. exists v. split; reflexivity.
  - apply (ST 4 DInt 4%nat); [lia|reflexivity|]. intros v. exists v. split; reflexivity.
  - apply (ST 2 (fun v => DWord (sext 16 v)) 2%nat); [lia|reflexivity|]. intros v. exists (sext 16 v).
    split; [reflexivity|]. rewrite sx_sext by lia. apply (sx_mod 16). lia.
  - apply (ST 1 (fun v => DByte (sext 8 v)) 1%nat); [lia|reflexivity|]. intros v. exists (sext 8 v).
    split; [reflexivity|]. rewrite sx_sext by lia. apply (sx_mod 8). lia.
Qed.

Lemma slice_nth data pos n j d : 0 <= pos -> (j < Z.to_nat n)%nat -> nth j (slice data pos n) d = nth (Z.to_nat pos + j) data d.
Proof. intros. unfold slice. rewrite nth_first, nth_skip by lia. reflexivity. Qed.

Lemma rels_ok_le lo size rels : rels_ok lo size rels -> lo <= size.
Proof. revert lo. induction rels as [|[[o l] a] r IH]; intros lo; cbn [rels_ok]; [auto|]. intros [H R]. apply IH in R. lia. Qed.

Lemma cell_before data lo size rels k : rels_ok lo size rels -> k < lo -> cell_of data rels k = Val (nth (Z.to_nat k) data 0).
Proof.
  revert lo. induction rels as [|[[o l] a] r IH]; intros lo H K; [reflexivity|]. cbn [rels_ok cell_of] in *.
  destruct H as [H R]. destruct (Z.leb_spec o k); [lia|]. cbn [andb]. eapply IH; [exact R|lia].
Qed.

(** Cells [pos, size) of the object. *)
Definition cells (data : list Z) (rels : list rel) (pos n : Z) : list cell :=
  map (fun j => cell_of data rels (pos + Z.of_nat j)) (seq 0 (Z.to_nat n)).

Lemma cells_nth data rels pos n j : (j < Z.to_nat n)%nat ->
  nth_error (cells data rels pos n) j = Some (cell_of data rels (pos + Z.of_nat j)).
Proof.
  intros H. unfold cells. erewrite map_nth_error; [reflexivity|].
  rewrite nth_error_nth' with (d := O) by (rewrite seq_length; lia). rewrite seq_nth by lia. reflexivity.
Qed.
Lemma cells_len data rels pos n : length (cells data rels pos n) = Z.to_nat n.
Proof. unfold cells. rewrite map_length, seq_length. reflexivity. Qed.

Lemma list_ext {A} (l l' : list A) : length l = length l' ->
  (forall j, (j < length l)%nat -> nth_error l j = nth_error l' j) -> l = l'.
Proof.
  revert l'. induction l as [|x l IH]; intros [|y l'] L H; try discriminate; [reflexivity|].
  pose proof (H O ltac:(cbn; lia)) as E. cbn in E. injection E as ->. f_equal. apply IH.
  - cbn in L. lia.
  - intros j J. apply (H (S j)). cbn. lia.
Qed.

Lemma cells_app data rels pos a b : 0 <= a -> 0 <= b ->
  cells data rels pos (a + b) = cells data rels pos a ++ cells data rels (pos + a) b.
Proof.
  intros HA HB. apply list_ext.
  - rewrite app_length, !cells_len. lia.
  - intros j J. rewrite cells_len in J. rewrite cells_nth by lia.
    destruct (lt_dec j (Z.to_nat a)) as [L|L].
    + rewrite nth_error_app1 by (rewrite cells_len; lia). rewrite cells_nth by lia. reflexivity.
    + rewrite nth_error_app2 by (rewrite cells_len; lia). rewrite cells_len, cells_nth by lia.
      do 2 f_equal. lia.
Qed.

Lemma cells_plain data rels lo size pos n : rels_ok lo size rels -> 0 <= pos -> 0 <= n -> pos + n <= lo ->
  pos + n <= Z.of_nat (length data) -> cells data rels pos n = map Val (slice data pos n).
Proof.
  intros R P N L D. apply list_ext.
  - rewrite cells_len, map_length. unfold slice. rewrite slice_len by lia. reflexivity.
  - intros j J. rewrite cells_len in J. rewrite cells_nth by lia.
    rewrite (cell_before data lo size) by (auto; lia).
    erewrite map_nth_error; [reflexivity|].
    assert (LN : length (slice data pos n) = Z.to_nat n) by (unfold slice; apply slice_len; lia).
    rewrite nth_error_nth' with (d := 0) by lia. rewrite slice_nth by lia. do 2 f_equal. lia.
Qed.

Lemma cells_drop data o l a r pos n : o + 8 <= pos -> cells data ((o, l, a) :: r) pos n = cells data r pos n.
Proof.
  intros H. unfold cells. apply map_ext. intros j. cbn [cell_of].
  destruct (Z.ltb_spec (pos + Z.of_nat j) (o + 8)); [lia|]. rewrite andb_false_r. reflexivity.
Qed.

Lemma cells_rel data o l a r : cells data ((o, l, a) :: r) o 8 = map (Rel l a) (seq 0 8).
Proof.
  unfold cells. apply map_ext_in. intros j J. apply in_seq in J. cbn [cell_of].
  change (Z.to_nat 8) with 8%nat in J.
  destruct (Z.leb_spec o (o + Z.of_nat j)); [|lia]. destruct (Z.ltb_spec (o + Z.of_nat j) (o + 8)); [|lia].
  cbn [andb]. f_equal. lia.
Qed.

Lemma emit_loop_ok data rels pos : bytes_ok data -> 0 <= pos ->
  Z.of_nat (length data) < 2 ^ 31 ->
  rels_ok pos (Z.of_nat (length data)) rels ->
  exists ds, emit_loop data (Z.of_nat (length data)) rels pos = Ok ds /\
    assemble ds = cells data rels pos (Z.of_nat (length data) - pos).
Proof.
  intros B. revert pos. induction rels as [|[[o l] a] r IH]; intros pos P L R; cbn [rels_ok emit_loop] in *.
  - rewrite int_conv_id by lia.
    destruct (emit_run_ok (Z.to_nat (Z.of_nat (length data) - pos)) data pos (Z.of_nat (length data) - pos)) as (ds & E & A); auto; try lia.
    rewrite E. cbn [bind fst]. exists ds. split; [reflexivity|]. rewrite A.
    symmetry. apply (cells_plain data [] (Z.of_nat (length data)) (Z.of_nat (length data))); cbn [rels_ok]; lia.
  - destruct R as [R1 R2]. pose proof (rels_ok_le _ _ _ R2).
    rewrite int_of_ok by lia. cbn [bind].
    destruct (emit_run_ok (Z.to_nat (o - pos)) data pos (o - pos)) as (ds & E & A); auto; try lia.
    rewrite E. cbn [bind snd fst]. replace (pos + (o - pos)) with o by lia. rewrite int_of_ok by lia. cbn [bind].
    destruct (IH (o + 8)) as (ds2 & E2 & A2); auto; try lia.
    rewrite E2. cbn [bind]. exists (ds ++ DRel l a :: ds2). split; [reflexivity|].
    unfold assemble in *. rewrite flat_map_app. cbn [flat_map assemble1]. rewrite A, A2.
    replace (Z.of_nat (length data) - pos) with ((o - pos) + (8 + (Z.of_nat (length data) - (o + 8)))) by lia.
    rewrite !cells_app by lia. replace (pos + (o - pos)) with o by lia.
    rewrite cells_rel, (cells_drop data o l a r (o + 8)) by lia. f_equal. symmetry.
    apply (cells_plain data _ o (Z.of_nat (length data))); try lia.
    cbn [rels_ok]. split; [lia|exact R2].
Qed.

(** *** The relocations of a static object are in order. *)
Lemma rels_app lo mid size r1 r2 : rels_ok lo mid r1 -> rels_ok mid size r2 -> rels_ok lo size (r1 ++ r2).
Proof.
  revert lo. induction r1 as [|[[o l] a] r IH]; intros lo; cbn [rels_ok app].
  - intros H1 H2. revert H1 H2. clear. destruct r2 as [|[[o l] a] r]; cbn [rels_ok]; intros; [lia|].
    split; [lia|tauto].
  - intros [H1 H2] H3. split; auto.
Qed.
Lemma rels_weak lo size lo' size' r : rels_ok lo size r -> lo' <= lo -> size <= size' -> rels_ok lo' size' r.
Proof.
  revert lo lo'. induction r as [|[[o l] a] r IH]; intros lo lo' H A B; cbn [rels_ok] in *; [lia|].
  destruct H as [H1 H2]. split; [lia|]. eapply IH; eauto. lia.
Qed.

Definition sorted (t : ctype) : Prop := forall x off, laid_out t -> fits t x off ->
  rels_ok off (off + csize t) (want_rels t x off).

Lemma member_sorted off size m x : sorted (fst (fst m)) -> laid_out (fst (fst m)) -> mem_ok size m ->
  on_member Prop fits fits_field off m x -> 
  exists lo hi, 8 * off + mem_pos m <= 8 * lo /\ 8 * hi <= 8 * off + mem_pos m + mem_bits m /\ off <= lo /\ hi <= off + size /\ lo <= hi /\
    rels_ok lo hi (on_member _ want_rels no_field_rels off m x) \/
    on_member _ want_rels no_field_rels off m x = [].
Proof.
  destruct m as [[mt mo] [[w bo]|]]; unfold on_member, mem_ok, mem_pos, mem_bits; cbn [fst]; intros HS HL HM HF.
  - exists 0, 0. right. reflexivity.
  - pose proof (csize_nonneg mt HL). exists (off + mo), (off + mo + csize mt). left. repeat (split; [lia|]).
    apply HS; auto.
Qed.

Lemma members_sorted off size ms l lo :
  Forall (fun m : member => sorted (fst (fst m))) ms ->
  Forall (fun m : member => laid_out (fst (fst m))) ms ->
  Forall (mem_ok size) ms ->
  ForallOrdPairs (fun m m' => mem_pos m + mem_bits m <= mem_pos m') ms ->
  on_members Prop fits fits_field True and off ms l ->
  lo <= off + size -> Forall (fun m => 8 * lo <= 8 * off + mem_pos m) ms ->
  rels_ok lo (off + size) (on_members _ want_rels no_field_rels [] (@app rel) off ms l).
Proof.
  intros HS HL HM HP. revert l lo. induction ms as [|m ms IH]; intros l lo HF LO C; [exact LO|].
  inversion_clear HS as [|? ? S1 S2]. inversion_clear HL as [|? ? L1 L2]. inversion_clear HM as [|? ? M1 M2].
  inversion_clear HP as [|? ? P1 P2]. inversion_clear C as [|? ? C1 C2].
  destruct l as [|x l]; [exact LO|]. cbn [on_members] in HF |- *. destruct HF as [F1 F2].
  destruct (member_sorted off size m x S1 L1 M1 F1) as (a & b & [(A1 & A2 & A3 & A4 & A5 & A6)|N]).
  - apply (rels_app lo b).
    + eapply rels_weak; [exact A6|lia|lia].
    + apply IH; auto. rewrite Forall_forall in *. intros m' I'. specialize (P1 m' I'). lia.
  - rewrite N. cbn [app]. apply IH; auto.
Qed.

Lemma chosen_sorted off size ms l sel : 0 <= size ->
  Forall (fun m : member => sorted (fst (fst m))) ms ->
  Forall (fun m : member => laid_out (fst (fst m))) ms ->
  Forall (mem_ok size) ms ->
  on_members Prop fits fits_field True and off ms l ->
  rels_ok off (off + size) (on_chosen _ want_rels no_field_rels [] off ms l sel).
Proof.
  intros N HS HL HM. revert l sel. induction ms as [|m ms IH]; intros l sel HF; [cbn; lia|].
  inversion_clear HS as [|? ? S1 S2]. inversion_clear HL as [|? ? L1 L2]. inversion_clear HM as [|? ? M1 M2].
  destruct l as [|x l]; [cbn; lia|]. cbn [on_members] in HF. destruct HF as [F1 F2].
  destruct sel as [|sel]; cbn [on_chosen]; [|apply IH; auto].
  destruct (member_sorted off size m x S1 L1 M1 F1) as (a & b & [(A1 & A2 & A3 & A4 & A5 & A6)|E]).
  - eapply rels_weak; [exact A6|lia|lia].
  - rewrite E. cbn [rels_ok]. lia.
Qed.

Lemma elems_sorted b l o : sorted b -> laid_out b -> on_elems Prop True and (fits b) (csize b) l o ->
  rels_ok o (o + csize b * Z.of_nat (length l)) (on_elems _ [] (@app rel) (want_rels b) (csize b) l o).
Proof.
  intros HS HL. revert o. induction l as [|x l IH]; intros o HF; cbn [on_elems length] in *; [cbn; lia|].
  destruct HF as [F1 F2]. apply (rels_app o (o + csize b)); [apply HS; auto|].
  eapply rels_weak; [apply IH; exact F2|lia|lia].
Qed.

Lemma want_sorted t : sorted t.
Proof.
  induction t using ctype_ind2; unfold sorted; intros x off HL HF; pose proof (csize_nonneg _ HL) as N.
  - destruct x; cbn [want_rels rels_ok csize fits] in *; try lia.
  - destruct x; cbn [want_rels rels_ok csize fits] in *; try lia.
  - destruct x; cbn [want_rels rels_ok csize fits laid_out] in *; try lia.
    destruct HF as [<- HF]. apply elems_sorted; auto. apply HL.
  - destruct x; cbn [want_rels rels_ok csize fits laid_out] in *; try lia.
    destruct HL as (_ & HM & HP & HL). rewrite forall_id in HL. destruct HF as [_ HF].
    apply (members_sorted off s ms l off); auto; try lia.
    rewrite Forall_forall in *. intros m I. specialize (HM m I). destruct m as [[mt mo] [[w bo]|]]; unfold mem_ok, mem_pos in *.
    + destruct mt; try contradiction. lia.
    + lia.
  - destruct x; cbn [want_rels rels_ok csize fits laid_out] in *; try lia.
    destruct HL as (_ & HM & HL). rewrite forall_id in HL. destruct HF as [_ HF].
    apply (chosen_sorted off s ms l sel); auto.
Qed.

(** *** The statements. *)
Lemma bit_at_zero n k : bit_at (repeat 0 n) k = false.
Proof.
  unfold bit_at. assert (E : nth (Z.to_nat (k / 8)) (repeat 0 n) 0 = 0).
  { generalize (Z.to_nat (k / 8)). induction n; intros [|j]; cbn [repeat nth]; auto. }
  rewrite E, Z.bits_0, andb_false_r. reflexivity.
Qed.
Lemma zero_ok n : bytes_ok (repeat 0 n).
Proof. unfold bytes_ok. rewrite Forall_forall. intros x I. apply repeat_spec in I. lia. Qed.

Lemma init_image t x : laid_out t -> fits t x 0 -> good_fields t x 0 -> csize t < 2 ^ 31 ->
  exists img, gvar_initializer t x = Ok (img, want_rels t x 0) /\
    Z.of_nat (length img) = csize t /\ bytes_ok img /\
    forall k, bit_at img k = want k t x 0.
Proof.
  intros HL HF HG L. pose proof (csize_nonneg t HL). unfold gvar_initializer.
  destruct (writes_all t x 0 (repeat 0 (Z.to_nat (csize t))) []) as (b & E & L2 & B & I); auto; try lia.
  - rewrite repeat_length. lia.
  - apply zero_ok.
  - intros k _. apply bit_at_zero.
  - exists b. split; [exact E|]. rewrite repeat_length in L2. split; [lia|]. split; [exact B|].
    intros k. rewrite I, bit_at_zero. reflexivity.
Qed.

Lemma emit_object img rels : bytes_ok img -> Z.of_nat (length img) < 2 ^ 31 ->
  rels_ok 0 (Z.of_nat (length img)) rels ->
  exists ds, emit_data (Z.of_nat (length img)) (Some (img, rels)) = Ok ds /\
    length (assemble ds) = length img /\
    forall k, (k < length img)%nat -> nth_error (assemble ds) k = Some (cell_of img rels (Z.of_nat k)).
Proof.
  intros B L R. unfold emit_data. destruct (emit_loop_ok img rels 0 B) as (ds & E & A); auto; try lia.
  exists ds. split; [exact E|]. rewrite A, Z.sub_0_r. split; [rewrite cells_len; lia|].
  intros k K. rewrite cells_nth by lia. reflexivity.
Qed.

Lemma init_object t x : laid_out t -> fits t x 0 -> good_fields t x 0 -> csize t < 2 ^ 31 ->
  exists img ds, gvar_initializer t x = Ok (img, want_rels t x 0) /\
    emit_data (csize t) (Some (img, want_rels t x 0)) = Ok ds /\
    Z.of_nat (length (assemble ds)) = csize t /\
    (forall k, bit_at img k = want k t x 0) /\
    forall k, 0 <= k < csize t ->
      nth_error (assemble ds) (Z.to_nat k) = Some (cell_of img (want_rels t x 0) k).
Proof.
  intros HL HF HG L. destruct (init_image t x HL HF HG L) as (img & E & LN & B & I).
  destruct (emit_object img (want_rels t x 0)) as (ds & E2 & L2 & C); auto; try lia.
  { rewrite LN. apply (want_sorted t x 0); auto. }
  exists img, ds. rewrite <- LN. split; [exact E|]. split; [exact E2|]. split; [lia|]. split; [exact I|].
  intros k K. rewrite C by lia. do 2 f_equal. lia.
Qed.

(** One member among the others. *)
Lemma members_one off size ms l j m x k :
  Forall (fun m : member => laid_out (fst (fst m))) ms ->
  Forall (mem_ok size) ms ->
  ForallOrdPairs (fun m m' => mem_pos m + mem_bits m <= mem_pos m') ms ->
  on_members Prop fits fits_field True and off ms l ->
  nth_error ms j = Some m -> nth_error l j = Some x -> mem_in off m k ->
  on_members bool (want k) (wfield k) false orb off ms l = on_member bool (want k) (wfield k) off m x.
Proof.
  intros HL HM HP. revert l j. induction ms as [|m0 ms IH]; intros l j HF NM NX K; [destruct j; discriminate|].
  inversion_clear HL as [|? ? L1 L2]. inversion_clear HM as [|? ? M1 M2]. inversion_clear HP as [|? ? P1 P2].
  destruct l as [|x0 l]; [destruct j; discriminate|]. cbn [on_members] in *. destruct HF as [F1 F2].
  destruct j as [|j]; cbn [nth_error] in NM, NX.
  - injection NM as ->. injection NX as ->.
    destruct (on_members bool (want k) (wfield k) false orb off ms l) eqn:T; [|rewrite orb_false_r; reflexivity].
    exfalso. apply members_inside in T; auto; [|rewrite Forall_forall; intros; apply want_inside].
    apply Exists_exists in T as (m' & I' & T). rewrite Forall_forall in P1. specialize (P1 m' I').
    unfold mem_in in *. lia.
  - destruct (on_member bool (want k) (wfield k) off m0 x0) eqn:T.
    + exfalso. apply member_inside in T; auto; [|apply want_inside].
      rewrite Forall_forall in P1. specialize (P1 m (nth_error_In _ _ NM)). unfold mem_in in *. lia.
    + cbn [orb]. apply (IH L2 M2 P2 l j); auto.
Qed.

Lemma field_same i w bo u c : 1 <= w -> 0 <= bo ->
  (forall q, 0 <= q < w -> Z.testbit u (bo + q) = Z.testbit c q) ->
  field_value i w bo u = field_conv i w c.
Proof.
  intros W O H. unfold field_value, field_conv.
  assert (E : (u / 2 ^ bo) mod 2 ^ w = c mod 2 ^ w).
  { apply mod_eq_bits; [lia|]. intros q Q. rewrite Z.div_pow2_bits by lia.
    rewrite Z.add_comm. apply H. lia. }
  rewrite E. reflexivity.
Qed.

(** Reading a bit-field of a static struct gives the constant converted to the field. *)
Lemma init_field ms s l sel j i mo w bo v : laid_out (CStr ms s) -> fits (CStr ms s) (IList l sel) 0 ->
  good_fields (CStr ms s) (IList l sel) 0 -> s < 2 ^ 31 ->
  nth_error ms j = Some (CInt i, mo, Some (w, bo)) -> nth_error l j = Some (IVal v) ->
  exists img rels unit, gvar_initializer (CStr ms s) (IList l sel) = Ok (img, rels) /\
    rd_buf img mo (isize i) = Ok unit /\ field_value i w bo unit = field_conv i w (conv i v).
Proof.
  intros HL HF HG L NM NX.
  destruct (init_image (CStr ms s) (IList l sel) HL HF HG L) as (img & E & LN & B & I).
  cbn [laid_out fits csize] in *. destruct HL as (N & HM & HP & HL). rewrite forall_id in HL. destruct HF as [_ HF].
  assert (MO : mem_ok s (CInt i, mo, Some (w, bo))) by (rewrite Forall_forall in HM; apply HM, (nth_error_In _ _ NM)).
  cbn [mem_ok] in MO. destruct MO as (M1 & M2 & M3 & M4 & M5). pose proof (isize_pos i).
  destruct (rd_ok img mo (isize i) B) as (u & E2 & _ & RU & BU); try lia.
  exists img. eexists. exists u. split; [exact E|]. split; [exact E2|].
  apply (field_same i w bo); [lia|lia|].
  intros q Q. rewrite BU by lia. rewrite I. cbn [want].
  change (on_members bool (want (8 * mo + (bo + q))) (wfield (8 * mo + (bo + q))) false orb 0 ms l = Z.testbit (conv i v) q).
  rewrite (members_one 0 s ms l j _ _ _ HL HM HP HF NM NX).
  - unfold on_member, wfield, want_field. rewrite (proj2 (within_spec _ _ _)) by lia. cbn [andb]. f_equal. lia.
  - unfold mem_in, mem_pos, mem_bits. lia.
Qed.
