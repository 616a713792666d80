From Coq Require Import ZArith List Bool Lia ZifyBool.
From Verif Require Import Base BitLemmas UnicodeTables UnicodeModel UnicodeSpec.
Import ListNotations.
Local Open Scope Z_scope.

Lemma mask_vals : MASK 3 = 7 /\ MASK 4 = 15 /\ MASK 5 = 31 /\ MASK 6 = 63 /\
  MASK2 1 7 = 128 /\ MASK2 2 6 = 192 /\ MASK2 3 5 = 224 /\ MASK2 4 4 = 240 /\ MASK2 1 1 = 2.
Proof. repeat split; reflexivity. Qed.

Ltac Zify.zify_post_hook ::= Z.div_mod_to_equations.

Lemma land63 x : Z.land x 63 = x mod 64.
Proof. apply (land_const_mod x 63 6); [lia|reflexivity]. Qed.
Lemma land7 x : Z.land x 7 = x mod 8.
Proof. apply (land_const_mod x 7 3); [lia|reflexivity]. Qed.
Lemma land15 x : Z.land x 15 = x mod 16.
Proof. apply (land_const_mod x 15 4); [lia|reflexivity]. Qed.
Lemma land31 x : Z.land x 31 = x mod 32.
Proof. apply (land_const_mod x 31 5); [lia|reflexivity]. Qed.
Lemma land1023 x : Z.land x 1023 = x mod 1024.
Proof. apply (land_const_mod x 1023 10); [lia|reflexivity]. Qed.

Lemma shr6 x : Z.shiftr x 6 = x / 64. Proof. apply shiftr_div; lia. Qed.
Lemma shr12 x : Z.shiftr x 12 = x / 4096. Proof. apply shiftr_div; lia. Qed.
Lemma shr18 x : Z.shiftr x 18 = x / 262144. Proof. apply shiftr_div; lia. Qed.
Lemma shr10 x : Z.shiftr x 10 = x / 1024. Proof. apply shiftr_div; lia. Qed.
Lemma shl6 x : Z.shiftl x 6 = x * 64. Proof. apply shiftl_mul; lia. Qed.

Lemma lor128 x : 0 <= x < 64 -> Z.lor 128 x = 128 + x.
Proof. intros; apply (lor_add_const 128 2 x 6); [reflexivity|lia|change (2^6) with 64; lia]. Qed.
Lemma lor192 x : 0 <= x < 64 -> Z.lor 192 x = 192 + x.
Proof. intros; apply (lor_add_const 192 3 x 6); [reflexivity|lia|change (2^6) with 64; lia]. Qed.
Lemma lor224 x : 0 <= x < 32 -> Z.lor 224 x = 224 + x.
Proof. intros; apply (lor_add_const 224 7 x 5); [reflexivity|lia|change (2^5) with 32; lia]. Qed.
Lemma lor240 x : 0 <= x < 16 -> Z.lor 240 x = 240 + x.
Proof. intros; apply (lor_add_const 240 15 x 4); [reflexivity|lia|change (2^4) with 16; lia]. Qed.
Lemma lor_mul64 a x : 0 <= x < 64 -> Z.lor (a * 64) x = a * 64 + x.
Proof. intros; apply (lor_add_const (a*64) a x 6); [reflexivity|lia|change (2^6) with 64; lia]. Qed.

Opaque Z.lor Z.land Z.shiftl Z.shiftr.

Lemma mod_small' x m : 0 <= x < m -> x mod m = x. Proof. apply Z.mod_small. Qed.

Lemma encode_rfc c : 0 <= c < 2097152 -> encode_utf8 c = rfc_utf8 c.
Proof.
  intros H. unfold encode_utf8, rfc_utf8.
  destruct mask_vals as (M3 & M4 & M5 & M6 & A1 & A2 & A3 & A4 & A5).
  rewrite M6, A1, A2, A3, A4. rewrite ?shr6, ?shr12, ?shr18, ?land63.
  destruct (Z.leb_spec c 127), (Z.ltb_spec c 128); try lia.
  { cbn [map]. rewrite mod_small' by lia. reflexivity. }
  destruct (Z.leb_spec c 2047), (Z.ltb_spec c 2048); try lia.
  { cbn [map]. rewrite lor192, lor128 by lia. rewrite !mod_small' by lia.
    repeat f_equal; lia. }
  destruct (Z.leb_spec c 65535), (Z.ltb_spec c 65536); try lia.
  { cbn [map]. rewrite lor224, !lor128 by lia. rewrite !(mod_small' _ 256) by lia. reflexivity. }
  cbn [map]. rewrite lor240, !lor128 by lia. rewrite !(mod_small' _ 256) by lia. reflexivity.
Qed.

Lemma decode_encode c rest : 0 <= c < 2097152 ->
  decode_utf8 (encode_utf8 c ++ rest) = Ok (c, length (encode_utf8 c)).
Proof.
  intros H. rewrite encode_rfc by auto. unfold rfc_utf8, decode_utf8.
  destruct mask_vals as (M3 & M4 & M5 & M6 & A1 & A2 & A3 & A4 & A5).
  rewrite M3, M4, M5, A2, A3, A4.
  assert (S0 : forall b, 128 <= b < 192 -> (Z.shiftr b 6 =? MASK2 1 1) = true).
  { intros b Hb. rewrite A5, shr6. apply Z.eqb_eq. lia. }
  assert (T : forall x c0, 0 <= c0 < 67108864 -> 0 <= x < 64 ->
     Z.lor (Z.shiftl c0 6 mod two32) (Z.land (128 + x) (MASK 6)) = c0 * 64 + x).
  { intros x c0 Hc Hx. rewrite M6, land63, shl6. unfold two32.
    rewrite (mod_small' (c0 * 64)) by lia.
    replace ((128 + x) mod 64) with x by lia. rewrite lor_mul64 by lia. lia. }
  assert (D : forall n x c0 r, 0 <= c0 < 67108864 -> 0 <= x < 64 ->
     decode_tail (S n) c0 ((128 + x) :: r) = decode_tail n (c0 * 64 + x) r).
  { intros n x c0 r Hc Hx. cbn [decode_tail]. rewrite S0 by lia. rewrite T by lia. reflexivity. }
  destruct (Z.ltb_spec c 128).
  { cbn [app length]. destruct (Z.ltb_spec c 128); [reflexivity|lia]. }
  destruct (Z.ltb_spec c 2048).
  { cbn [app length].
    destruct (Z.ltb_spec (192 + c / 64) 128); [lia|].
    destruct (Z.leb_spec 240 (192 + c / 64)); [lia|].
    destruct (Z.leb_spec 224 (192 + c / 64)); [lia|].
    destruct (Z.leb_spec 192 (192 + c / 64)); [|lia].
    cbn [bind fst snd Nat.sub]. rewrite land31, D by lia.
    cbn [bind decode_tail]. do 2 f_equal. lia. }
  destruct (Z.ltb_spec c 65536).
  { cbn [app length].
    destruct (Z.ltb_spec (224 + c / 4096) 128); [lia|].
    destruct (Z.leb_spec 240 (224 + c / 4096)); [lia|].
    destruct (Z.leb_spec 224 (224 + c / 4096)); [|lia].
    cbn [bind fst snd Nat.sub]. rewrite land15. do 2 rewrite D by lia.
    cbn [bind decode_tail]. do 2 f_equal. lia. }
  cbn [app length].
  destruct (Z.ltb_spec (240 + c / 262144) 128); [lia|].
  destruct (Z.leb_spec 240 (240 + c / 262144)); [|lia].
  cbn [bind fst snd Nat.sub]. rewrite land7.
  do 3 rewrite D by lia. cbn [bind decode_tail]. do 2 f_equal. lia.
Qed.

Lemma encode_big_refuted : exists c, 0 <= c < two32 /\
  decode_utf8 (encode_utf8 c) <> Ok (c, length (encode_utf8 c)).
Proof. exists 2097152. split; [unfold two32; lia|]. vm_compute. discriminate. Qed.

(** decode never looks behind a NUL *)
Lemma decode_tail_nul n : forall c p q, decode_tail n c (p ++ 0 :: q) <> UB /\
  (forall v, decode_tail n c (p ++ 0 :: q) = Ok v -> (n <= length p)%nat).
Proof.
  induction n as [|n IH]; intros c p q; [split; [discriminate|lia]|].
  destruct p as [|b p]; cbn [app decode_tail].
  - rewrite shr6. change (0 / 64 =? MASK2 1 1) with false. split; discriminate.
  - destruct (_ =? _); [|split; discriminate].
    destruct (IH (Z.lor (Z.shiftl c 6 mod two32) (Z.land b (MASK 6))) p q) as [A B].
    split; auto. cbn [length]. intros v Hv. specialize (B v Hv). lia.
Qed.

Lemma decode_nul p q : p <> [] ->
  decode_utf8 (p ++ 0 :: q) <> UB /\
  forall c n, decode_utf8 (p ++ 0 :: q) = Ok (c, n) -> (1 <= n <= length p)%nat.
Proof.
  destruct p as [|b p]; [congruence|]. intros _. cbn [app decode_utf8].
  destruct (b <? 128). { split; [discriminate|]. intros c n E. injection E as _ <-. cbn [length]. lia. }
  assert (G : forall k c0, (1 <= k)%nat ->
    (do c <- decode_tail (k - 1) c0 (p ++ 0 :: q); Ok (c, k)) <> UB /\
    forall c n, (do c <- decode_tail (k - 1) c0 (p ++ 0 :: q); Ok (c, k)) = Ok (c, n) ->
      (1 <= n <= length (b :: p))%nat).
  { intros k c0 Hk. destruct (decode_tail_nul (k - 1) c0 p q) as [A B].
    destruct (decode_tail (k - 1) c0 (p ++ 0 :: q)) as [v| |]; cbn [bind]; [|congruence|].
    - split; [discriminate|]. intros c n E. injection E as _ <-. specialize (B v eq_refl).
      cbn [length]. lia.
    - split; discriminate. }
  destruct (MASK2 4 4 <=? b); cbn [bind fst snd]; [apply G; lia|].
  destruct (MASK2 3 5 <=? b); cbn [bind fst snd]; [apply G; lia|].
  destruct (MASK2 2 6 <=? b); cbn [bind fst snd]; [apply G; lia|].
  split; discriminate.
Qed.

(** ** UTF-16 literals *)
Lemma utf16_units_decode c rest : scalar c ->
  utf16_decode (utf16_units c ++ rest) = option_map (cons c) (utf16_decode rest).
Proof.
  intros [H N]. unfold utf16_units.
  destruct (Z.ltb_spec c 65536).
  - cbn [app utf16_decode]. rewrite mod_small' by lia.
    destruct (Z.leb_spec 55296 c), (Z.ltb_spec c 56320), (Z.leb_spec 56320 c), (Z.ltb_spec c 57344);
      cbn [andb]; try lia; reflexivity.
  - rewrite shr10, !land1023. unfold two32. rewrite (mod_small' (c - 65536)) by lia.
    cbn [app utf16_decode].
    rewrite !(mod_small' _ 65536) by lia.
    destruct (Z.leb_spec 55296 (55296 + (c - 65536) / 1024 mod 1024)); [|lia].
    destruct (Z.ltb_spec (55296 + (c - 65536) / 1024 mod 1024) 56320); [|lia].
    destruct (Z.leb_spec 56320 (56320 + (c - 65536) mod 1024)); [|lia].
    destruct (Z.ltb_spec (56320 + (c - 65536) mod 1024) 57344); [|lia].
    cbn [andb]. destruct (utf16_decode rest); cbn [option_map]; [|reflexivity].
    do 2 f_equal. lia.
Qed.

Lemma encode_len c : 0 <= c < 2097152 -> (1 <= length (encode_utf8 c))%nat.
Proof. intros H. rewrite encode_rfc by auto. unfold rfc_utf8.
  destruct (c <? 128), (c <? 2048), (c <? 65536); cbn [length]; lia. Qed.

Lemma read_units_ok emit cs : Forall (fun c => 0 <= c < 2097152) cs ->
  forall fuel, (length (flat_map encode_utf8 cs) < fuel)%nat ->
  read_units fuel emit (flat_map encode_utf8 cs) = Ok (flat_map emit cs).
Proof.
  intros F. induction F as [|c cs Hc F IH]; intros fuel Hf.
  - destruct fuel; [inversion Hf|reflexivity].
  - destruct fuel; [cbn in Hf; lia|]. cbn [flat_map] in *.
    pose proof (encode_len c Hc) as L. rewrite app_length in Hf.
    cbn [read_units].
    destruct (encode_utf8 c ++ flat_map encode_utf8 cs) as [|x l] eqn:E.
    { apply app_eq_nil in E as [E _]. rewrite E in L. cbn in L. lia. }
    rewrite <- E, decode_encode by auto. cbn [bind fst snd].
    rewrite skipn_app, skipn_all, Nat.sub_diag. cbn [app skipn].
    rewrite IH by lia. reflexivity.
Qed.

Lemma utf16_decode_flat cs : Forall scalar cs ->
  utf16_decode (flat_map utf16_units cs) = Some cs.
Proof.
  induction 1 as [|c cs Hc F IH]; [reflexivity|].
  cbn [flat_map]. rewrite utf16_units_decode, IH by auto. reflexivity.
Qed.

Lemma utf16_literal cs : Forall scalar cs ->
  exists u, read_utf16_body (flat_map rfc_utf8 cs) = Ok u /\ utf16_decode u = Some cs /\
            Forall (fun x => 0 <= x < 65536) u.
Proof.
  intros F. exists (flat_map utf16_units cs).
  assert (F2 : Forall (fun c => 0 <= c < 2097152) cs).
  { eapply Forall_impl; [|exact F]. intros c [H _]. lia. }
  assert (E : flat_map rfc_utf8 cs = flat_map encode_utf8 cs).
  { clear F. induction F2; [reflexivity|]. cbn [flat_map]. rewrite IHF2, encode_rfc by auto. reflexivity. }
  split; [|split].
  - rewrite E. apply read_units_ok; auto.
  - apply utf16_decode_flat; auto.
  - clear. induction cs; cbn [flat_map]; [constructor|]. apply Forall_app. split; auto.
    unfold utf16_units. destruct (_ <? _); repeat constructor; apply Z.mod_pos_bound; lia.
Qed.

Lemma utf32_literal cs : Forall scalar cs ->
  read_utf32_body (flat_map rfc_utf8 cs) = Ok cs.
Proof.
  intros F.
  assert (F2 : Forall (fun c => 0 <= c < 2097152) cs).
  { eapply Forall_impl; [|exact F]. intros c [H _]. lia. }
  assert (E : flat_map rfc_utf8 cs = flat_map encode_utf8 cs).
  { clear F. induction F2; [reflexivity|]. cbn [flat_map]. rewrite IHF2, encode_rfc by auto. reflexivity. }
  unfold read_utf32_body. rewrite E, read_units_ok by auto. f_equal.
  clear E F. induction F2; [reflexivity|]. cbn [flat_map]. rewrite IHF2.
  rewrite mod_small' by (unfold two32; lia). reflexivity.
Qed.

(** ** Tables *)
Fixpoint sorted_from (lo : Z) (t : list (Z * Z)) : bool :=
  match t with
  | [] => true
  | (a, b) :: r => (lo <? a) && (a <=? b) && sorted_from b r
  end.

Lemma in_range_ok c t : forall lo, sorted_from lo t = true -> in_range c t = true <-> in_table c t.
Proof.
  induction t as [|[a b] t IH]; intros lo S; cbn [in_range sorted_from] in *.
  - split; [discriminate|]. intros (x & y & [] & _).
  - apply andb_prop in S as [S S3]. apply andb_prop in S as [S1 S2].
    apply Z.ltb_lt in S1. apply Z.leb_le in S2. specialize (IH b S3).
    assert (M : forall t lo x y, sorted_from lo t = true -> In (x, y) t -> lo < x).
    { induction t0 as [|[u v] t0 IH0]; intros lo0 x y Hs Hin; [destruct Hin|].
      cbn [sorted_from] in Hs. apply andb_prop in Hs as [Hs Hs3]. apply andb_prop in Hs as [Hs1 Hs2].
      destruct Hin as [E|Hin]; [injection E as -> ->; lia|]. specialize (IH0 v x y Hs3 Hin). lia. }
    destruct (Z.ltb_spec b c).
    + rewrite IH. split.
      * intros (x & y & I & L). exists x, y. split; [right; auto|auto].
      * intros (x & y & [E|I] & L); [injection E as <- <-; lia|]. exists x, y. auto.
    + destruct (Z.leb_spec a c).
      * split; auto. intros _. exists a, b. split; [left; auto|lia].
      * split; [discriminate|]. intros (x & y & [E|I] & L); [injection E as <- <-; lia|].
        pose proof (M t b x y S3 I). lia.
Qed.

Lemma tables_sorted : sorted_from (-1) ident1_table = true /\ sorted_from (-1) ident2_table = true /\
  sorted_from (-1) width0_table = true /\ sorted_from (-1) width2_table = true.
Proof. repeat split; vm_compute; reflexivity. Qed.

Lemma is_ident1_ok c : is_ident1 c = true <-> in_table c ident1_table.
Proof. exact (in_range_ok c _ _ (proj1 tables_sorted)). Qed.

Lemma is_ident2_ok c : is_ident2 c = true <-> in_table c ident1_table \/ in_table c ident2_table.
Proof.
  unfold is_ident2. rewrite orb_true_iff, is_ident1_ok.
  rewrite (in_range_ok c ident2_table (-1) (proj1 (proj2 tables_sorted))). reflexivity.
Qed.

Lemma char_width_ok c :
  (in_table c width0_table -> char_width c = 0) /\
  (~ in_table c width0_table -> in_table c width2_table -> char_width c = 2) /\
  (~ in_table c width0_table -> ~ in_table c width2_table -> char_width c = 1).
Proof.
  destruct tables_sorted as (_ & _ & S0 & S2). unfold char_width.
  pose proof (in_range_ok c _ _ S0) as R0. pose proof (in_range_ok c _ _ S2) as R2.
  destruct (in_range c width0_table), (in_range c width2_table); intuition congruence.
Qed.
