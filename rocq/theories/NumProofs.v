(** C08 *)
From Coq Require Import ZArith List Bool Lia.
From Verif Require Import Base IntSpec IntModel IntLemmas LexSpec LexModel LexProofs LexTok NumSpec NumModel.
Import ListNotations.
Local Open Scope Z_scope.

Lemma byte_check (f : Z -> bool) : forallb (fun k => f (Z.of_nat k)) (seq 0 256) = true -> forall c, 0 <= c < 256 -> f c = true.
Proof.
  intros K c H. rewrite forallb_forall in K. specialize (K (Z.to_nat c)). rewrite Z2Nat.id in K by lia. apply K, in_seq. lia.
Qed.
Lemma ndigit_range base c : In base [2; 8; 10; 16] -> ndigit base c = true -> 48 <= c < 256.
Proof.
  unfold ndigit, hexdigit, digit. cbn [In]. intros H. destruct (Z.eqb_spec base 16); [lia|].
  intros X. apply andb_true_iff in X. destruct X as [X1 X2]. lia.
Qed.
Lemma digit_val_spec base c : In base [2; 8; 10; 16] -> 0 <= c < 256 -> (digit_val c <? base) = ndigit base c /\ (ndigit base c = true -> digit_val c = hexval c /\ 0 <= hexval c < base).
Proof.
  intros HB H.
  assert (K : forallb (fun base => Bool.eqb (digit_val c <? base) (ndigit base c) && (negb (ndigit base c) || ((digit_val c =? hexval c) && (0 <=? hexval c) && (hexval c <? base)))) [2; 8; 10; 16] = true).
  { revert c H. apply byte_check. vm_compute. reflexivity. }
  rewrite forallb_forall in K. specialize (K base HB). apply andb_true_iff in K. destruct K as [K1 K2]. split; [apply eqb_prop; exact K1|].
  intros E. rewrite E in K2. cbn [negb orb] in K2. lia.
Qed.

Lemma digits_spec base ds : In base [2; 8; 10; 16] -> forallb (ndigit base) ds = true -> forall acc r, 
  match r with c :: _ => (digit_val c <? base) = false | [] => True end ->
  digits base acc (ds ++ r) = (fold_left (fun v d => v * base + hexval d) ds acc, length ds).
Proof.
  intros HB. induction ds as [|d ds IH]; intros F acc r H.
  - cbn [app]. destruct r as [|c r]; cbn [digits fold_left length]; [reflexivity|]. rewrite H. reflexivity.
  - cbn [forallb] in F. apply andb_true_iff in F. destruct F as [F1 F2]. destruct (digit_val_spec base d HB) as [D1 D2].
    { pose proof (ndigit_range base d HB F1). lia. }
    cbn [app digits]. rewrite D1, F1. destruct (D2 F1) as [-> _]. rewrite (IH F2 _ _ H). reflexivity.
Qed.
Lemma value_nonneg base ds : In base [2; 8; 10; 16] -> forallb (ndigit base) ds = true -> forall acc, 0 <= acc -> 0 <= fold_left (fun v d => v * base + hexval d) ds acc.
Proof.
  intros HB. induction ds as [|d ds IH]; intros F acc A; [exact A|]. cbn [forallb] in F. apply andb_true_iff in F. destruct F as [F1 F2].
  pose proof (ndigit_range base d HB F1). destruct (digit_val_spec base d HB) as [_ D2]; [lia|]. destruct (D2 F1) as [_ D3].
  cbn [fold_left]. apply IH; [exact F2|]. cbn [In] in HB. nia.
Qed.

Lemma suffix_head suf u l : suffix suf u l -> exists c r, suf ++ [0] = c :: r /\ 20 < digit_val c /\ low c <> 120.
Proof.
  intros H. destruct H; cbn [app In] in *; eexists _, _; (split; [reflexivity|]); intuition subst; try reflexivity; discriminate.
Qed.

Lemma strtoul_spec base ds suf u l : In base [2; 8; 10; 16] -> forallb (ndigit base) ds = true -> suffix suf u l ->
  strtoul base (ds ++ suf ++ [0]) = (Z.min (value_of base ds) ULONG_MAX, length ds).
Proof.
  intros HB F HS. destruct (suffix_head _ _ _ HS) as [c [r [E [C1 C2]]]]. rewrite E. clear E.
  assert (ST : (digit_val c <? base) = false) by (apply Z.ltb_ge; cbn [In] in HB; lia).
  unfold strtoul.
  assert (SK : match ds ++ c :: r with
      | c :: d :: e :: _ => if (base =? 16) && (c =? 48) && (low d =? 120) && (digit_val e <? 16) then 2%nat else 0%nat
      | _ => 0%nat end = 0%nat).
  { destruct ds as [|a [|b ds]]; cbn [app].
    - destruct r as [|d [|e r]]; try reflexivity. destruct (Z.eqb_spec c 48) as [->|]; [cbn in C1; lia|]. rewrite andb_false_r. reflexivity.
    - destruct r as [|d r]; [reflexivity|]. destruct (Z.eqb_spec (low c) 120); [congruence|]. rewrite andb_false_r. reflexivity.
    - destruct (ds ++ c :: r); [reflexivity|]. destruct (Z.eqb_spec (low b) 120) as [X|]; [|rewrite andb_false_r; reflexivity]. exfalso.
      cbn [forallb] in F. apply andb_true_iff in F. destruct F as [_ F]. apply andb_true_iff in F. destruct F as [F _].
      pose proof (ndigit_range base b HB F) as R.
      assert (Y : (negb (forallb (fun base => negb (ndigit base b)) [2; 8; 10; 16]) && (low b =? 120)) = false).
      { apply negb_true_iff. generalize b R. clear. intros b R. revert b R. intros b R. apply (byte_check (fun b => negb (negb (forallb (fun base => negb (ndigit base b)) [2; 8; 10; 16]) && (low b =? 120)))); [vm_compute; reflexivity|lia]. }
      rewrite X in Y. change (120 =? 120) with true in Y. rewrite andb_true_r in Y. apply negb_false_iff in Y. rewrite forallb_forall in Y. specialize (Y base HB). rewrite F in Y. discriminate. }
  rewrite SK. cbn [skipn]. rewrite (digits_spec base ds HB F 0 (c :: r) ST). reflexivity.
Qed.

Lemma int_suffix_spec suf u l : suffix suf u l -> int_suffix (suf ++ [0]) = Ok (u, l) /\ length suf = (l + if u then 1 else 0)%nat.
Proof.
  intros H. destruct H; cbn [In] in *; intuition subst; try (split; reflexivity).
Qed.

Lemma numeral_base base pre ds : numeral base pre ds -> In base [2; 8; 10; 16] /\ forallb (ndigit base) ds = true /\ ds <> [].
Proof.
  intros [d ds' D N F|ds' F|x d ds' X F|x d ds' X F]; cbn [In forallb] in *; rewrite ?D, ?F; cbn [andb]; (split; [tauto|split; [reflexivity|discriminate]]).
Qed.

Lemma int_prefix_spec base pre ds suf u l : numeral base pre ds -> suffix suf u l -> int_prefix ((pre ++ ds ++ suf) ++ [0]) = Ok (base, length pre).
Proof.
  intros HN HS. destruct HN as [d ds D N F|ds F|x d ds X F|x d ds X F].
  - cbn [app]. unfold int_prefix, rd. cbn [nth_error bind]. destruct (Z.eqb_spec d 48); [congruence|reflexivity].
  - cbn [app]. unfold int_prefix. cbn [rd nth_error bind Z.eqb Pos.eqb length]. rewrite <- app_assoc.
    destruct (suffix_head _ _ _ HS) as [c [r [E [C1 C2]]]]. rewrite E.
    assert (NX : exists z r', ds ++ c :: r = z :: r' /\ Casecmp z 120 = false /\ Casecmp z 98 = false).
    { destruct ds as [|z ds].
      - exists c, r. split; [reflexivity|]. unfold Casecmp. split; apply Z.eqb_neq; [exact C2|]. intros X.
        unfold digit_val in C1. rewrite X in C1. destruct (Inrange c 48 57) eqn:R; [unfold Inrange in R; lia|]. cbn in C1. lia.
      - exists z, (ds ++ c :: r). split; [reflexivity|]. cbn [forallb] in F. apply andb_true_iff in F. destruct F as [F _].
        pose proof (ndigit_range 8 z ltac:(cbn; tauto) F) as R.
        assert (K : implb (ndigit 8 z) (negb (Casecmp z 120) && negb (Casecmp z 98)) = true).
        { apply (byte_check (fun z => implb (ndigit 8 z) (negb (Casecmp z 120) && negb (Casecmp z 98)))); [vm_compute; reflexivity|lia]. }
        rewrite F in K. cbn [implb] in K. apply andb_true_iff in K. destruct K as [K1 K2]. apply negb_true_iff in K1, K2. auto. }
    destruct NX as [z [r' [-> [Z1 Z2]]]]. cbn [rd nth_error bind]. rewrite Z1, Z2. reflexivity.
  - pose proof F as F'. cbn [forallb] in F'. apply andb_true_iff in F'. destruct F' as [Fd _].
    pose proof (ndigit_range 16 d ltac:(cbn; tauto) Fd) as R. destruct (xdigit_spec d ltac:(lia)) as [XD _].
    cbn [app]. unfold int_prefix. cbn [rd nth_error bind Z.eqb Pos.eqb length]. assert (Casecmp x 120 = true) as -> by (cbn [In] in X; intuition subst; reflexivity).
    rewrite XD. change (hexdigit d) with (ndigit 16 d). rewrite Fd. reflexivity.
  - pose proof F as F'. cbn [forallb] in F'. apply andb_true_iff in F'. destruct F' as [Fd _].
    cbn [app]. unfold int_prefix. cbn [rd nth_error bind Z.eqb Pos.eqb length]. assert (Casecmp x 120 = false) as -> by (cbn [In] in X; intuition subst; reflexivity).
    assert (Casecmp x 98 = true) as -> by (cbn [In] in X; intuition subst; reflexivity). cbn [bind].
    unfold ndigit in Fd. cbn [Z.eqb Pos.eqb] in Fd. destruct (Z.eqb_spec d 48); [reflexivity|]. destruct (Z.eqb_spec d 49); [reflexivity|]. lia.
Qed.

(** A constant is accepted, whatever its size. *)
Lemma convert_gen base pre ds suf u l : numeral base pre ds -> suffix suf u l ->
  let w := pre ++ ds ++ suf in
  let val := sext 64 (Z.min (value_of base ds) ULONG_MAX) in
  convert_pp_int (w ++ [0]) (length w) = Ok (Some (infer_type base (Nat.eqb l 2) (Nat.eqb l 1) u val, val)).
Proof.
  intros HN HS w val. destruct (numeral_base _ _ _ HN) as [HB [F _]]. unfold convert_pp_int. unfold w at 1. rewrite (int_prefix_spec _ _ _ _ _ _ HN HS). cbn [bind].
  assert (E1 : skipn (length pre) (w ++ [0]) = ds ++ suf ++ [0]).
  { unfold w. rewrite <- !app_assoc, skipn_app, skipn_all, Nat.sub_diag. reflexivity. }
  rewrite E1, (strtoul_spec _ _ _ _ _ HB F HS). cbn [fst snd].
  assert (E2 : skipn (length pre + length ds) (w ++ [0]) = suf ++ [0]).
  { unfold w. rewrite <- !app_assoc, app_assoc, skipn_app, <- app_length, skipn_all, Nat.sub_diag. reflexivity. }
  rewrite E2. destruct (int_suffix_spec _ _ _ HS) as [S1 S2]. rewrite S1. cbn [bind]. fold val.
  replace (length pre + length ds + l + (if u then 1 else 0))%nat with (length w) by (unfold w; rewrite !app_length; lia).
  rewrite Nat.eqb_refl. reflexivity.
Qed.

Lemma sext64_conv v : sext 64 v = conv TLong v.
Proof. rewrite sext_signed by lia. reflexivity. Qed.

Lemma shiftr_hi v k : 0 <= k -> (Z.shiftr v k =? 0) = (0 <=? v) && (v <? 2 ^ k).
Proof.
  intros K. rewrite Z.shiftr_div_pow2 by exact K. pose proof (Z.pow_pos_nonneg 2 k ltac:(lia) K).
  destruct (Z.eqb_spec (v / 2 ^ k) 0) as [E|E].
  - symmetry. pose proof (Z.div_mod v (2 ^ k)). pose proof (Z.mod_pos_bound v (2 ^ k)). rewrite E in *. apply andb_true_iff. split; [apply Z.leb_le|apply Z.ltb_lt]; lia.
  - symmetry. apply andb_false_iff. destruct (Z.leb_spec 0 v); [right|left; reflexivity]. apply Z.ltb_ge. destruct (Z_lt_le_dec v (2 ^ k)); [|lia].
    exfalso. apply E. apply Z.div_small. lia.
Qed.

(** C08 *)
Theorem const_ok base pre ds suf u l t : numeral base pre ds -> suffix suf u l ->
  const_type (base =? 10) u l (value_of base ds) = Some t ->
  exists val, convert_pp_int ((pre ++ ds ++ suf) ++ [0]) (length (pre ++ ds ++ suf)) = Ok (Some (mty t, val)) /\
    in_range TLong val /\ conv t val = value_of base ds.
Proof.
  intros HN HS HT. pose proof (convert_gen _ _ _ _ _ _ HN HS) as G. cbv zeta in G. destruct (numeral_base _ _ _ HN) as [HB [F _]].
  pose proof (value_nonneg base ds HB F 0 ltac:(lia)) as V0. fold (value_of base ds) in V0. set (v := value_of base ds) in *.
  assert (B : 0 <= v < 18446744073709551616 /\ infer_type base (Nat.eqb l 2) (Nat.eqb l 1) u (sext 64 v) = mty t /\ in_range t v /\ (iwidth t = 32 \/ iwidth t = 64)).
  { unfold const_type in HT. pose proof (find_some _ _ HT) as [HI R]. unfold in_rangeb in R.
    assert (V1 : 0 <= v < 18446744073709551616).
    { split; [exact V0|]. apply andb_true_iff in R. destruct R as [_ R]. apply Z.leb_le in R.
      assert (imax t <= 18446744073709551615); [|lia]. destruct t; vm_compute; discriminate. }
    split; [exact V1|].
    assert (SX : sext 64 v = if v <? 9223372036854775808 then v else v - 18446744073709551616).
    { unfold sext. change (2 ^ 64) with 18446744073709551616. change (2 ^ (64 - 1)) with 9223372036854775808. rewrite Z.mod_small by exact V1. reflexivity. }
    unfold infer_type. rewrite !shiftr_hi by lia. rewrite SX. change (2 ^ 31) with 2147483648. change (2 ^ 32) with 4294967296. change (2 ^ 63) with 9223372036854775808.
    assert (M : forall t, (imin t <=? v) && (v <=? imax t) = (v <=? imax t)).
    { intros t'. assert (imin t' <= 0) by (destruct t'; vm_compute; discriminate). destruct (Z.leb_spec (imin t') v); [reflexivity|lia]. }
    assert (RR : in_range t v) by (unfold in_range; lia).
    assert (X : forall t', In t' [TInt; TUInt; TLong; TULong; TLLong; TULLong] -> imax t' = match t' with TInt => 2147483647 | TUInt => 4294967295 | TLong | TLLong => 9223372036854775807 | _ => 18446744073709551615 end).
    { intros t' T. cbn [In] in T. intuition subst; reflexivity. }
    assert (ID : In t [TInt; TUInt; TLong; TULong; TLLong; TULLong]).
    { clear - HI. unfold candidates in HI. destruct u, (base =? 10), l as [|[|l]]; cbn [In] in *; intuition. }
    split; [|split; [exact RR|clear - ID; cbn [In] in ID; intuition subst; cbn; lia]].
    clear HI RR R ID. unfold in_rangeb in HT.
    assert (GO : forall a b, find (fun t => (imin t <=? v) && (v <=? imax t)) (a :: b) = if v <=? imax a then Some a else find (fun t => (imin t <=? v) && (v <=? imax t)) b).
    { intros a b. cbn [find]. rewrite M. reflexivity. }
    assert (LL : (l = 0 \/ l = 1 \/ l = 2)%nat) by (clear - HS; inversion HS; subst; tauto).
    destruct (base =? 10), u; destruct LL as [-> | [-> | ->]]; cbn [candidates Nat.eqb andb] in *; rewrite ?GO in HT;
      rewrite ?(X TInt), ?(X TUInt), ?(X TLong), ?(X TULong), ?(X TLLong), ?(X TULLong) in HT by (cbn [In]; tauto);
      repeat match type of HT with context [v <=? ?k] => destruct (Z.leb_spec v k); try lia end; try discriminate HT; injection HT as <-;
      destruct (Z.ltb_spec v 9223372036854775808); try lia; cbn [mty];
      repeat match goal with |- context [?a <=? ?b] => destruct (Z.leb_spec a b); try lia | |- context [?a <? ?b] => destruct (Z.ltb_spec a b); try lia end; reflexivity. }
  destruct B as [V1 [IT [RT W]]]. rewrite Z.min_l in G by (unfold ULONG_MAX; lia). rewrite IT in G.
  exists (sext 64 v). split; [exact G|]. rewrite sext64_conv. split.
  - unfold in_range. change (imin TLong) with (- 9223372036854775808). change (imax TLong) with 9223372036854775807.
    cbn [conv isigned iwidth]. change (2 ^ (64 - 1)) with 9223372036854775808. change (2 ^ 64) with 18446744073709551616.
    pose proof (Z.mod_pos_bound (v + 9223372036854775808) 18446744073709551616). lia.
  - rewrite <- sext64_conv. destruct (Z_lt_le_dec v 9223372036854775808) as [L|L].
    + rewrite sext_small by lia. apply conv_id. exact RT.
    + rewrite sext_neg by lia. change (2 ^ 64) with 18446744073709551616. clear - RT W L V1.
      destruct t; cbn [iwidth] in W; try (destruct W; discriminate); unfold in_range, imin, imax, conv in *; cbn [isigned iwidth] in *; try lia;
        change (2 ^ 64) with 18446744073709551616; symmetry; apply Z.mod_unique_pos with (-1); lia.
Qed.

(** *** Only constants are accepted *)
Lemma digits_inv base p : In base [2; 8; 10; 16] -> bytes p -> forall acc, exists ds r, p = ds ++ r /\ forallb (ndigit base) ds = true /\ snd (digits base acc p) = length ds /\
  match r with c :: _ => ndigit base c = false | [] => True end.
Proof.
  intros HB. induction p as [|c p IH]; intros B acc; [exists [], []; cbn; auto|]. inversion B as [|? ? Bc Bp]; subst. cbn [digits].
  destruct (digit_val_spec base c HB Bc) as [D1 _]. rewrite D1. destruct (ndigit base c) eqn:E.
  - destruct (IH Bp (acc * base + digit_val c)) as [ds [r [-> [F [L ST]]]]]. exists (c :: ds), r. cbn [app forallb snd length]. rewrite E, F, L. auto.
  - exists [], (c :: p). cbn. rewrite E. auto.
Qed.

Lemma case_u c : 0 <= c < 256 -> Casecmp c 117 = true -> In c [117; 85].
Proof.
  intros H E. assert (K : implb (Casecmp c 117) ((c =? 117) || (c =? 85)) = true).
  { apply (byte_check (fun c => implb (Casecmp c 117) ((c =? 117) || (c =? 85)))); [vm_compute; reflexivity|exact H]. }
  rewrite E in K. cbn [implb] in K. cbn [In]. lia.
Qed.
Lemma case_l c : 0 <= c < 256 -> Casecmp c 108 = true -> In c [108; 76].
Proof.
  intros H E. assert (K : implb (Casecmp c 108) ((c =? 108) || (c =? 76)) = true).
  { apply (byte_check (fun c => implb (Casecmp c 108) ((c =? 108) || (c =? 76)))); [vm_compute; reflexivity|exact H]. }
  rewrite E in K. cbn [implb] in K. cbn [In]. lia.
Qed.
Lemma case_x c : 0 <= c < 256 -> Casecmp c 120 = true -> In c [120; 88].
Proof.
  intros H E. assert (K : implb (Casecmp c 120) ((c =? 120) || (c =? 88)) = true).
  { apply (byte_check (fun c => implb (Casecmp c 120) ((c =? 120) || (c =? 88)))); [vm_compute; reflexivity|exact H]. }
  rewrite E in K. cbn [implb] in K. cbn [In]. lia.
Qed.
Lemma case_b c : 0 <= c < 256 -> Casecmp c 98 = true -> In c [98; 66].
Proof.
  intros H E. assert (K : implb (Casecmp c 98) ((c =? 98) || (c =? 66)) = true).
  { apply (byte_check (fun c => implb (Casecmp c 98) ((c =? 98) || (c =? 66)))); [vm_compute; reflexivity|exact H]. }
  rewrite E in K. cbn [implb] in K. cbn [In]. lia.
Qed.

Lemma int_suffix_inv r u lc : bytes r -> ~ In 0 r -> int_suffix (r ++ [0]) = Ok (u, lc) -> (lc + (if u then 1 else 0))%nat = length r -> suffix r u lc.
Proof.
  intros B N H L. unfold int_suffix in H. destruct r as [|c0 r].
  { cbn in H. injection H as <- <-. constructor. }
  inversion B as [|? ? B0 Br]; subst. cbn [app rd nth_error bind] in H. destruct (Casecmp c0 117) eqn:U0.
  - apply (case_u c0 B0) in U0. destruct r as [|c1 r].
    + cbn in H. injection H as <- <-. constructor. exact U0.
    + inversion Br as [|? ? B1 Br1]; subst. cbn [app rd nth_error bind] in H. destruct (Casecmp c1 108) eqn:L1.
      * apply (case_l c1 B1) in L1. destruct r as [|c2 r].
        -- cbn [app rd nth_error bind] in H. destruct (Z.eqb_spec c1 0) as [->|]; [cbn in L1; lia|]. injection H as <- <-. constructor; assumption.
        -- cbn [app rd nth_error bind] in H. destruct (Z.eqb_spec c1 c2) as [->|]; injection H as <- <-; cbn [length] in L; [|lia].
           destruct r; [|cbn [length] in L; lia]. constructor; assumption.
      * injection H as <- <-. cbn [length] in L. lia.
  - destruct (Casecmp c0 108) eqn:L0; [|injection H as <- <-; cbn [length] in L; lia]. apply (case_l c0 B0) in L0.
    destruct r as [|c1 r].
    + cbn [app rd nth_error bind] in H. destruct (Z.eqb_spec c0 0) as [->|]; [cbn in L0; lia|]. cbn in H. injection H as <- <-. constructor. exact L0.
    + inversion Br as [|? ? B1 Br1]; subst. cbn [app rd nth_error bind] in H. destruct (Z.eqb_spec c0 c1) as [->|NE].
      * destruct r as [|c2 r].
        -- cbn in H. injection H as <- <-. constructor. exact L0.
        -- inversion Br1 as [|? ? B2 Br2]; subst. cbn [app rd nth_error bind] in H. injection H as <- <-. destruct (Casecmp c2 117) eqn:U2; cbn [length] in L; [|lia].
           destruct r; [|cbn [length] in L; lia]. constructor; [apply case_u; assumption|exact L0].
      * cbn [rd nth_error bind] in H. injection H as <- <-. destruct (Casecmp c1 117) eqn:U1; cbn [length] in L; [|lia].
        destruct r; [|cbn [length] in L; lia]. constructor; [apply case_u; assumption|exact L0].
Qed.


Lemma bytes_app a b : bytes (a ++ b) <-> bytes a /\ bytes b.
Proof. apply Forall_app. Qed.

Ltac ip IP := repeat (progress (cbn [rd nth_error bind] in IP) || match goal with H : ?b = true |- _ => rewrite H in IP | H : ?b = false |- _ => rewrite H in IP end).

Theorem const_only w t val : bytes w -> ~ In 0 w -> starts_number w -> ~ double_prefix w ->
  convert_pp_int (w ++ [0]) (length w) = Ok (Some (t, val)) ->
  exists base pre ds suf u l, w = pre ++ ds ++ suf /\ numeral base pre ds /\ suffix suf u l.
Proof.
  intros B N ST ND H. destruct w as [|c0 w]; [destruct ST|]. inversion B as [|? ? B0 Bw]; subst.
  assert (N0 : ~ In 0 w) by (intros X; apply N; right; exact X).
  (* after the prefix: digits, suffix *)
  assert (TAIL : forall base pre body, In base [2; 8; 10; 16] -> c0 :: w = pre ++ body ->
     (base = 16 -> match body with a :: b :: _ => ~ (a = 48 /\ In b [120; 88]) | _ => True end) ->
     forall r, (do s <- int_suffix (skipn (length pre + snd (strtoul base (body ++ [0%Z]))) ((c0 :: w) ++ [0]));
       let '(u, lc) := s in if Nat.eqb (length pre + snd (strtoul base (body ++ [0%Z])) + lc + (if u then 1 else 0))%nat (length (c0 :: w)) then Ok (Some (r u lc)) else Ok None) = Ok (Some (t, val)) ->
     exists ds suf u l, body = ds ++ suf /\ forallb (ndigit base) ds = true /\ suffix suf u l /\ match suf ++ [0] with c :: _ => ndigit base c = false | [] => True end).
  { intros base pre body HB E NP r G.
    assert (Bb : bytes (body ++ [0])).
    { assert (X : bytes (pre ++ body)) by (rewrite <- E; exact B). apply bytes_app in X. apply bytes_app. split; [apply X|constructor; [lia|constructor]]. }
    assert (SK : snd (strtoul base (body ++ [0])) = snd (digits base 0 (body ++ [0]))).
    { unfold strtoul. cbn [snd]. destruct (body ++ [0]) as [|a [|b [|c q]]] eqn:Q; try reflexivity.
      destruct ((base =? 16) && (a =? 48) && (low b =? 120) && (digit_val c <? 16)) eqn:P; [|reflexivity]. exfalso.
      apply andb_true_iff in P. destruct P as [P _]. apply andb_true_iff in P. destruct P as [P P3]. apply andb_true_iff in P. destruct P as [P1 P2].
      apply Z.eqb_eq in P1, P2. specialize (NP P1). destruct body as [|a' [|b' body]]; try discriminate.
      injection Q as -> -> _. apply NP. split; [exact P2|]. apply case_x; [|exact P3]. inversion Bb as [|? ? ? Bb']; subst. inversion Bb'; assumption. }
    destruct (digits_inv base (body ++ [0]) HB Bb 0) as [ds [q [E1 [F [E2 STP]]]]]. rewrite SK, E2 in G.
    assert (Q : exists suf, q = suf ++ [0] /\ body = ds ++ suf).
    { destruct q as [|z q'] using rev_ind.
      - exfalso. rewrite app_nil_r in E1. rewrite <- E1 in F. rewrite forallb_app in F. apply andb_true_iff in F. destruct F as [_ F]. cbn in F.
        cbn [In] in HB. unfold ndigit in F. destruct (base =? 16); cbn in F; discriminate.
      - rewrite app_assoc in E1. apply app_inj_tail in E1. destruct E1 as [E1 <-]. exists q'. auto. }
    destruct Q as [suf [-> ->]]. clear E1.
    assert (E3 : skipn (length pre + length ds) ((c0 :: w) ++ [0]) = suf ++ [0]).
    { rewrite E, <- !app_assoc, app_assoc, skipn_app, <- app_length, skipn_all, Nat.sub_diag. reflexivity. }
    rewrite E3 in G. destruct (int_suffix (suf ++ [0])) as [[u lc]| |] eqn:IS; cbn [bind] in G; try discriminate.
    destruct (Nat.eqb_spec (length pre + length ds + lc + (if u then 1 else 0)) (length (c0 :: w))) as [EL|]; [|discriminate].
    exists ds, suf, u, lc. split; [reflexivity|]. split; [exact F|]. split; [|exact STP].
    apply int_suffix_inv; [| |exact IS|].
    - assert (X : bytes (pre ++ ds ++ suf)) by (rewrite <- E; exact B). apply bytes_app in X. destruct X as [_ X]. apply bytes_app in X. apply X.
    - intros X. apply N. rewrite E. apply in_or_app. right. apply in_or_app. right. exact X.
    - rewrite E, !app_length in EL. lia. }
  unfold convert_pp_int in H.
  destruct (int_prefix ((c0 :: w) ++ [0])) as [[base k]| |] eqn:IP; cbn [bind] in H; try discriminate.
  unfold int_prefix in IP. cbn [app rd nth_error bind] in IP. destruct (Z.eqb_spec c0 48) as [->|N48].
  - destruct (w ++ [0]) as [|c1 w1] eqn:W1; [destruct w; discriminate|]. ip IP.
    destruct (Casecmp c1 120) eqn:X1; ip IP.
    + assert (W2 : exists w2, w = c1 :: w2).
      { destruct w; [injection W1 as <- <-; discriminate X1|]. injection W1 as -> _. eauto. }
      destruct W2 as [w2 ->]. injection W1 as <-. inversion Bw as [|? ? B1 Bw2]; subst. pose proof (case_x c1 B1 X1) as X1'.
      destruct (w2 ++ [0]) as [|c2 w3] eqn:W2; [destruct w2; discriminate|]. ip IP.
      destruct (Isxdigit c2) eqn:X2; ip IP.
      * injection IP as <- <-. assert (W3 : exists w4, w2 = c2 :: w4) by (destruct w2; [injection W2 as <- <-; discriminate X2|injection W2 as -> _; eauto]).
        destruct W3 as [w4 ->]. injection W2 as <-. inversion Bw2 as [|? ? B2 Bw4]; subst.
        assert (NP : match c2 :: w4 with a :: b :: _ => ~ (a = 48 /\ In b [120; 88]) | _ => True end).
        { destruct w4 as [|c3 w4]; [exact Logic.I|]. intros [-> X3]. apply ND. exists c1, c3, w4. auto. }
        destruct (TAIL 16 [48; c1] (c2 :: w4) ltac:(cbn; tauto) eq_refl (fun _ => NP) (fun u lc => (infer_type 16 (Nat.eqb lc 2) (Nat.eqb lc 1) u (sext 64 (fst (strtoul 16 (c2 :: w4 ++ [0])))), sext 64 (fst (strtoul 16 (c2 :: w4 ++ [0]))))) H) as [ds [suf [u [l [E [F [HS _]]]]]]].
        destruct ds as [|d ds].
        { exfalso. cbn [app] in E. destruct (suffix_head _ _ _ HS) as [z [zr [E' [Z1 Z2]]]]. rewrite <- E in E'. injection E' as -> _.
          destruct (xdigit_spec z B2) as [Q _]. rewrite X2 in Q. destruct (digit_val_spec 16 z ltac:(cbn; tauto) B2) as [Q1 _]. unfold ndigit in Q1. cbn [Z.eqb Pos.eqb] in Q1. rewrite <- Q in Q1. apply Z.ltb_lt in Q1. lia. }
        exists 16, [48; c1], (d :: ds), suf, u, l. split; [cbn [app] in *; congruence|]. split; [constructor; assumption|exact HS].
      * assert (c1 =? 98 = false) as _ by (cbn [In] in X1'; intuition subst; reflexivity).
        assert (X98 : Casecmp c1 98 = false) by (cbn [In] in X1'; intuition subst; reflexivity). ip IP. injection IP as <- <-.
        destruct (TAIL 8 [] (48 :: c1 :: w2) ltac:(cbn; tauto) eq_refl ltac:(intros X; discriminate X) (fun u lc => (infer_type 8 (Nat.eqb lc 2) (Nat.eqb lc 1) u (sext 64 (fst (strtoul 8 (48 :: c1 :: w2 ++ [0])))), sext 64 (fst (strtoul 8 (48 :: c1 :: w2 ++ [0]))))) H) as [ds [suf [u [l [E [F [HS STP]]]]]]].
        destruct ds as [|d ds]; [exfalso; cbn [app] in E; rewrite <- E in STP; discriminate STP|]. injection E as <- E.
        exists 8, [], (48 :: ds), suf, u, l. split; [cbn [app]; congruence|]. split; [constructor; cbn [forallb] in F; apply andb_true_iff in F; apply F|exact HS].
    + ip IP. destruct (Casecmp c1 98) eqn:X98; ip IP.
      * assert (W2 : exists w2, w = c1 :: w2).
        { destruct w; [injection W1 as <- <-; discriminate X98|]. injection W1 as -> _. eauto. }
        destruct W2 as [w2 ->]. injection W1 as <-. inversion Bw as [|? ? B1 Bw2]; subst. pose proof (case_b c1 B1 X98) as X1'.
        destruct (w2 ++ [0]) as [|c2 w3] eqn:W2; [destruct w2; discriminate|]. ip IP.
        destruct ((c2 =? 48) || (c2 =? 49)) eqn:X2; ip IP.
        -- injection IP as <- <-. assert (W3 : exists w4, w2 = c2 :: w4) by (destruct w2; [injection W2 as <- <-; discriminate X2|injection W2 as -> _; eauto]).
           destruct W3 as [w4 ->]. injection W2 as <-. inversion Bw2 as [|? ? B2 Bw4]; subst.
           destruct (TAIL 2 [48; c1] (c2 :: w4) ltac:(cbn; tauto) eq_refl ltac:(intros X; discriminate X) (fun u lc => (infer_type 2 (Nat.eqb lc 2) (Nat.eqb lc 1) u (sext 64 (fst (strtoul 2 (c2 :: w4 ++ [0])))), sext 64 (fst (strtoul 2 (c2 :: w4 ++ [0]))))) H) as [ds [suf [u [l [E [F [HS STP]]]]]]].
           destruct ds as [|d ds].
           { exfalso. cbn [app] in E. rewrite <- E in STP. cbn [app] in STP. unfold ndigit in STP. cbn [Z.eqb Pos.eqb] in STP. lia. }
           exists 2, [48; c1], (d :: ds), suf, u, l. split; [cbn [app] in *; congruence|]. split; [constructor; assumption|exact HS].
        -- injection IP as <- <-.
           destruct (TAIL 8 [] (48 :: c1 :: w2) ltac:(cbn; tauto) eq_refl ltac:(intros X; discriminate X) (fun u lc => (infer_type 8 (Nat.eqb lc 2) (Nat.eqb lc 1) u (sext 64 (fst (strtoul 8 (48 :: c1 :: w2 ++ [0])))), sext 64 (fst (strtoul 8 (48 :: c1 :: w2 ++ [0]))))) H) as [ds [suf [u [l [E [F [HS STP]]]]]]].
           destruct ds as [|d ds]; [exfalso; cbn [app] in E; rewrite <- E in STP; discriminate STP|]. injection E as <- E.
           exists 8, [], (48 :: ds), suf, u, l. split; [cbn [app]; congruence|]. split; [constructor; cbn [forallb] in F; apply andb_true_iff in F; apply F|exact HS].
      * ip IP. injection IP as <- <-.
        destruct (TAIL 8 [] (48 :: w) ltac:(cbn; tauto) eq_refl ltac:(intros X; discriminate X) (fun u lc => (infer_type 8 (Nat.eqb lc 2) (Nat.eqb lc 1) u (sext 64 (fst (strtoul 8 (48 :: w ++ [0])))), sext 64 (fst (strtoul 8 (48 :: w ++ [0]))))) H) as [ds [suf [u [l [E [F [HS STP]]]]]]].
        destruct ds as [|d ds]; [exfalso; cbn [app] in E; rewrite <- E in STP; discriminate STP|]. injection E as <- E.
        exists 8, [], (48 :: ds), suf, u, l. split; [cbn [app]; congruence|]. split; [constructor; cbn [forallb] in F; apply andb_true_iff in F; apply F|exact HS].
  - injection IP as <- <-.
    destruct (TAIL 10 [] (c0 :: w) ltac:(cbn; tauto) eq_refl ltac:(intros X; discriminate X) (fun u lc => (infer_type 10 (Nat.eqb lc 2) (Nat.eqb lc 1) u (sext 64 (fst (strtoul 10 (c0 :: w ++ [0])))), sext 64 (fst (strtoul 10 (c0 :: w ++ [0]))))) H) as [ds [suf [u [l [E [F [HS STP]]]]]]].
    destruct ds as [|d ds].
    { exfalso. cbn [app] in E. rewrite <- E in STP. cbn [app] in STP. destruct ST as [ST| ->].
      - unfold digit in ST. unfold ndigit in STP. cbn [Z.eqb Pos.eqb] in STP. lia.
      - rewrite <- E in HS. inversion HS; subst; cbn [In] in *; lia. }
    injection E as <- E. cbn [forallb] in F. apply andb_true_iff in F. destruct F as [F1 F2].
    exists 10, [], (c0 :: ds), suf, u, l. split; [cbn [app]; congruence|]. split; [constructor; assumption|exact HS].
Qed.

(** *** The conversion never reads past the terminator *)
Lemma rd_ok p k : (k < length p)%nat -> exists c, rd p k = Ok c /\ nth_error p k = Some c.
Proof. intros H. unfold rd. destruct (nth_error p k) eqn:E; [eauto|]. apply nth_error_None in E. lia. Qed.
Lemma rd_next p k c : rd p k = Ok c -> c <> 0 -> (exists b, p = b ++ [0]) -> exists c', rd p (S k) = Ok c'.
Proof.
  unfold rd. intros E N [b ->]. destruct (nth_error (b ++ [0]) k) as [d|] eqn:Q; [|discriminate]. injection E as ->.
  assert (k < length b)%nat.
  { assert (k < length (b ++ [0%Z]))%nat by (apply nth_error_Some; congruence). rewrite app_length in *. cbn [length] in *.
    assert (k <> length b); [|lia]. intros ->. rewrite nth_error_app2, Nat.sub_diag in Q by lia. cbn in Q. congruence. }
  destruct (nth_error (b ++ [0]) (S k)) as [e|] eqn:Q2; [eauto|]. apply nth_error_None in Q2. rewrite app_length in Q2. cbn [length] in Q2. lia.
Qed.
Lemma case_nz c k : k <> 0 -> low 0 <> k -> Casecmp c k = true -> c <> 0.
Proof. intros K K2 E ->. unfold Casecmp in E. apply Z.eqb_eq in E. congruence. Qed.
Lemma int_prefix_safe b : int_prefix (b ++ [0]) <> UB /\ forall base k, int_prefix (b ++ [0]) = Ok (base, k) -> In base [2; 8; 10; 16] /\ (k <= length b)%nat.
Proof.
  assert (EX : exists b', b ++ [0] = b' ++ [0]) by eauto.
  unfold int_prefix. destruct (rd_ok (b ++ [0]) 0) as [c0 [E0 _]]; [rewrite app_length; cbn; lia|]. rewrite E0. cbn [bind].
  destruct (Z.eqb_spec c0 48) as [->|]; [|split; [discriminate|intros ? ? X; injection X as <- <-; cbn; split; [tauto|lia]]].
  destruct (rd_next _ _ _ E0 ltac:(lia) EX) as [c1 E1]. rewrite E1. cbn [bind].
  assert (L : c1 <> 0 -> (2 <= length b)%nat).
  { intros N1. destruct (rd_next _ _ _ E1 N1 EX) as [c2 E2]. unfold rd in E2. destruct (nth_error (b ++ [0]) 2) eqn:Q; [|discriminate].
    assert (2 < length (b ++ [0%Z]))%nat by (apply nth_error_Some; congruence). rewrite app_length in *. cbn [length] in *. lia. }
  destruct (Casecmp c1 120) eqn:X1.
  - pose proof (case_nz c1 120 ltac:(lia) ltac:(vm_compute; lia) X1) as N1. destruct (rd_next _ _ _ E1 N1 EX) as [c2 E2]. rewrite E2. cbn [bind].
    destruct (Isxdigit c2); [split; [discriminate|intros ? ? X; injection X as <- <-; cbn [In]; split; [tauto|auto]]|].
    destruct (Casecmp c1 98); cbn [bind]; [destruct ((c2 =? 48) || (c2 =? 49))|];
      (split; [discriminate|intros ? ? X; injection X as <- <-; cbn [In]; split; [tauto|auto; lia]]).
  - cbn [bind]. destruct (Casecmp c1 98) eqn:X2; cbn [bind].
    + pose proof (case_nz c1 98 ltac:(lia) ltac:(vm_compute; lia) X2) as N1. destruct (rd_next _ _ _ E1 N1 EX) as [c2 E2]. rewrite E2. cbn [bind].
      destruct ((c2 =? 48) || (c2 =? 49)); (split; [discriminate|intros ? ? X; injection X as <- <-; cbn [In]; split; [tauto|auto; lia]]).
    + split; [discriminate|intros ? ? X; injection X as <- <-; cbn [In]; split; [tauto|lia]].
Qed.
Lemma int_suffix_safe b : int_suffix (b ++ [0]) <> UB.
Proof.
  assert (EX : exists b', b ++ [0] = b' ++ [0]) by eauto.
  unfold int_suffix. destruct (rd_ok (b ++ [0]) 0) as [c0 [E0 _]]; [rewrite app_length; cbn; lia|]. rewrite E0. cbn [bind].
  destruct (Casecmp c0 117) eqn:U0.
  - pose proof (case_nz c0 117 ltac:(lia) ltac:(vm_compute; lia) U0) as N0. destruct (rd_next _ _ _ E0 N0 EX) as [c1 E1]. rewrite E1. cbn [bind].
    destruct (Casecmp c1 108) eqn:L1; [|discriminate].
    pose proof (case_nz c1 108 ltac:(lia) ltac:(vm_compute; lia) L1) as N1. destruct (rd_next _ _ _ E1 N1 EX) as [c2 E2]. rewrite E2. cbn [bind]. discriminate.
  - destruct (Casecmp c0 108) eqn:L0; [|discriminate].
    pose proof (case_nz c0 108 ltac:(lia) ltac:(vm_compute; lia) L0) as N0. destruct (rd_next _ _ _ E0 N0 EX) as [c1 E1]. rewrite E1. cbn [bind].
    destruct (Z.eqb_spec c0 c1) as [->|].
    + destruct (rd_next _ _ _ E1 N0 EX) as [c2 E2]. rewrite E2. cbn [bind]. discriminate.
    + rewrite E1. cbn [bind]. discriminate.
Qed.
Lemma digits_le base b : In base [2; 8; 10; 16] -> bytes b -> forall acc, (snd (digits base acc (b ++ [0%Z])) <= length b)%nat.
Proof.
  intros HB. induction b as [|c b IH]; intros B acc; cbn [app digits].
  - destruct (digit_val_spec base 0 HB ltac:(lia)) as [-> _]. cbn [In] in HB. assert (ndigit base 0 = false) as -> by (intuition subst; reflexivity). cbn. lia.
  - inversion B; subst. destruct (digit_val c <? base); cbn [snd length]; [|lia]. specialize (IH ltac:(assumption) (acc * base + digit_val c)). lia.
Qed.
Lemma strtoul_le base b : In base [2; 8; 10; 16] -> bytes b -> (snd (strtoul base (b ++ [0%Z])) <= length b)%nat.
Proof.
  intros HB B. unfold strtoul. cbn [snd].
  destruct b as [|c0 [|c1 b]]; try (apply digits_le; assumption).
  cbn [app]. destruct (b ++ [0]) as [|c2 q] eqn:Q; [destruct b; discriminate|].
  destruct ((base =? 16) && (c0 =? 48) && (low c1 =? 120) && (digit_val c2 <? 16)); cbn [skipn]; rewrite <- Q; cbn [length].
  - inversion B as [|? ? ? B']; subst. inversion B' as [|? ? ? B'']; subst. pose proof (digits_le base b HB B'' 0). lia.
  - apply (digits_le base (c0 :: c1 :: b) HB B 0).
Qed.
Theorem convert_int_safe b n : bytes b -> convert_pp_int (b ++ [0]) n <> UB.
Proof.
  intros B. unfold convert_pp_int. destruct (int_prefix_safe b) as [S1 S2]. destruct (int_prefix (b ++ [0])) as [[base k]| |]; cbn [bind]; [|congruence|discriminate].
  destruct (S2 _ _ eq_refl) as [HB K].
  assert (SK : skipn k (b ++ [0]) = skipn k b ++ [0]).
  { rewrite skipn_app. replace (k - length b)%nat with 0%nat by lia. reflexivity. }
  assert (B2 : bytes (skipn k b)).
  { rewrite <- (firstn_skipn k b) in B. apply bytes_app in B. apply B. }
  pose proof (strtoul_le base (skipn k b) HB B2) as L. rewrite <- SK in L. rewrite skipn_length in L.
  set (p1 := (k + snd (strtoul base (skipn k (b ++ [0%Z]))))%nat). assert (P1 : (p1 <= length b)%nat) by (unfold p1; lia).
  assert (SK1 : skipn p1 (b ++ [0]) = skipn p1 b ++ [0]).
  { rewrite skipn_app. replace (p1 - length b)%nat with 0%nat by lia. reflexivity. }
  rewrite SK1. pose proof (int_suffix_safe (skipn p1 b)) as S3. destruct (int_suffix (skipn p1 b ++ [0])) as [[u lc]| |]; cbn [bind]; [|congruence|discriminate].
  destruct (Nat.eqb _ n); discriminate.
Qed.

(** *** With digit separators *)
Lemma bytes_filter f w : bytes w -> bytes (filter f w).
Proof. intros B. unfold bytes in *. rewrite Forall_forall in *. intros x X. apply B. apply filter_In in X. apply X. Qed.
Theorem convert_safe w : bytes w -> convert_pp_number w <> UB.
Proof. intros B. unfold convert_pp_number. destruct (227 <=? length w)%nat; [discriminate|]. apply convert_int_safe, bytes_filter, B. Qed.
Theorem number_ok w base pre ds suf u l t : (length w <= 226)%nat -> no_sep w = pre ++ ds ++ suf -> numeral base pre ds -> suffix suf u l ->
  const_type (base =? 10) u l (value_of base ds) = Some t ->
  exists val, convert_pp_number w = Ok (Some (mty t, val)) /\ in_range TLong val /\ conv t val = value_of base ds.
Proof.
  intros L E HN HS HT. unfold convert_pp_number. destruct (Nat.leb_spec 227 (length w)); [lia|]. cbv zeta. fold (no_sep w). rewrite E. apply (const_ok _ _ _ _ _ _ _ HN HS HT).
Qed.
Theorem number_only w t val : bytes w -> ~ In 0 w -> starts_number w -> ~ double_prefix (no_sep w) ->
  convert_pp_number w = Ok (Some (t, val)) ->
  exists base pre ds suf u l, no_sep w = pre ++ ds ++ suf /\ numeral base pre ds /\ suffix suf u l.
Proof.
  intros B N ST ND H. unfold convert_pp_number in H. destruct (227 <=? length w)%nat; [discriminate|]. cbv zeta in H. fold (no_sep w) in H.
  apply const_only with (t := t) (val := val); [apply bytes_filter, B| | |exact ND|exact H].
  - intros X. apply filter_In in X. apply N, X.
  - destruct w as [|c w]; [destruct ST|]. cbn [starts_number] in ST. unfold no_sep. cbn [filter].
    destruct (Z.eqb_spec c 39) as [->|]; [exfalso; destruct ST as [ST|ST]; [discriminate ST|lia]|]. exact ST.
Qed.
Lemma double_prefix_bad : exists w, starts_number w /\ convert_pp_number w = Ok (Some (ty_int, 18)) /\
  ~ exists base pre ds suf u l, no_sep w = pre ++ ds ++ suf /\ numeral base pre ds /\ suffix suf u l.
Proof.
  exists [48; 120; 48; 120; 49; 50]. split; [left; reflexivity|]. split; [vm_compute; reflexivity|].
  intros [base [pre [ds [suf [u [l [E [HN HS]]]]]]]]. change (no_sep [48; 120; 48; 120; 49; 50]) with [48; 120; 48; 120; 49; 50] in E.
  assert (LS : (length suf <= 3)%nat) by (inversion HS; subst; cbn [length]; lia).
  inversion HN as [d ds' D N F|ds' F|x d ds' X F|x d ds' X F]; subst; cbn [app] in E.
  - injection E as E1 E2. congruence.
  - injection E as E2. destruct ds' as [|a ds']; cbn [app] in E2.
    + rewrite <- E2 in LS. cbn [length] in LS. lia.
    + injection E2 as <- _. discriminate F.
  - injection E as <- <- E2. destruct ds' as [|a ds']; cbn [app] in E2.
    + rewrite <- E2 in HS. inversion HS; subst; cbn [In] in *; lia.
    + injection E2 as <- _. discriminate F.
  - injection E as <- E1. cbn [In] in X. lia.
Qed.
