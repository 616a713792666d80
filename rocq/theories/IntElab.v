(** The parser's typed tree has the type and the value C gives the source expression. *)
From Coq Require Import ZArith List Bool Lia.
From Verif Require Import Base BitLemmas IntSpec IntLemmas IntModel IntTyped IntProofs IntFold.
Local Open Scope Z_scope.

Definition cfg_ok (c : cfg) : Prop := forall a b, same c a b = true -> a = b.

(** ** C17: merging two casts. *)
Lemma redundant_sound t t2 t3 v : in_range t3 v -> redundant (mty t) (mty t2) (mty t3) = true ->
  conv t (conv t2 v) = conv t v.
Proof.
  intros R H.
  destruct (represents t2 t3) eqn:P.
  { rewrite (conv_id t2); auto. eapply in_range_sub; eauto. }
  assert (N : t2 <> TBool).
  { intros ->. destruct t3; try discriminate; destruct t; discriminate. }
  destruct (ityp_eqb t TBool) eqn:TB.
  - destruct t; try discriminate.
    (* size t2 >= size t3, different signedness: conversion is injective *)
    assert (Z.eqb (conv t2 v) 0 = Z.eqb v 0) as Q.
    { destruct (Z.eqb_spec v 0) as [->|NV]; [rewrite conv_id; [reflexivity|]|].
      - unfold in_range, imin, imax. destruct t2; cbn; lia.
      - apply Z.eqb_neq. intros Q. apply NV.
        assert (M : v mod 2 ^ iwidth t2 = 0).
        { rewrite <- conv_mod by auto. rewrite Q. apply Z.mod_0_l.
          pose proof (pow2_pos (iwidth t2)). pose proof (iwidth_pos t2). lia. }
        assert (WW : iwidth t3 <= iwidth t2)
          by (destruct t2; try congruence; destruct t3; try discriminate; cbn; lia).
        apply in_range_nb in R. pose proof (iwidth_pos t2) as P2. pose proof (iwidth_pos t3).
        assert (2 ^ iwidth t3 <= 2 ^ iwidth t2) by (apply Z.pow_le_mono_r; lia).
        assert (2 ^ (iwidth t3 - 1) <= 2 ^ (iwidth t2 - 1)) by (apply Z.pow_le_mono_r; lia).
        pose proof (pow2_half (iwidth t2) ltac:(lia)). pose proof (pow2_pos (iwidth t2 - 1) ltac:(lia)).
        apply Z.mod_divide in M; [|lia]. destruct M as [k M].
        assert (B : - 2 ^ iwidth t2 < v < 2 ^ iwidth t2) by (destruct (isigned t3); lia).
        set (q := 2 ^ iwidth t2) in *.
        assert (k = 0); [|subst k; lia]. nia. }
    unfold conv at 1 3. rewrite Q. reflexivity.
  - assert (NT : t <> TBool) by (destruct t; discriminate).
    apply conv_conv_narrow; auto.
    destruct t; try congruence; destruct t2; try congruence; destruct t3;
      try discriminate; cbn; lia.
Qed.

(** ** Range of folded values. *)
Definition r64 (x : Z) : Prop := - two63 <= x < two63.

Lemma r64_long x : r64 x <-> in_range TLong x.
Proof. unfold r64, in_range, two63, imin, imax. cbn. lia. Qed.

Lemma ese_r64 t x : is_ty t -> r64 x -> r64 (eval_sign_extend t x).
Proof.
  intros H R. destruct (is_ty_inv t H) as [i [-> _]].
  destruct (ityp_eqb i TBool) eqn:EB.
  - destruct i; try discriminate. rewrite ese_bool. pose proof (Z.mod_pos_bound x 256 ltac:(lia)).
    unfold r64, two63. lia.
  - rewrite ese_spec; [apply rep64_range|destruct i; discriminate|exact R].
Qed.

Lemma h64_r64 c z r : h64 c z = Ok r -> r64 r.
Proof. intros H. pose proof (h64_spec c z) as S. rewrite H in S. subst. apply rep64_range. Qed.

Lemma h_shl_r64 c x n r : h_shl c x n = Ok r -> r64 r.
Proof.
  unfold h_shl. destruct ((0 <=? n) && (n <? 64) && (0 <=? x) && (x * 2 ^ n <? two63)) eqn:E.
  - intros [= <-]. rewrite !andb_true_iff, !Z.leb_le, !Z.ltb_lt in E.
    pose proof (pow2_pos n ltac:(lia)). unfold r64, two63 in *. nia.
  - destruct (strict c); [discriminate|]. intros [= <-]. rewrite sext64_rep. apply rep64_range.
Qed.

Lemma div_r64 x k : r64 x -> 0 <= k -> r64 (x / 2 ^ k).
Proof. rewrite !r64_long. apply div_pow_range. Qed.

Lemma h_shr_r64 c w x n r : 0 < w -> r64 x -> h_shr c w x n = Ok r -> r64 r.
Proof.
  intros W R. unfold h_shr. destruct ((0 <=? n) && (n <? w)) eqn:E.
  - intros [= <-]. rewrite andb_true_iff, Z.leb_le in E. apply div_r64; [auto|lia].
  - destruct (strict c); [discriminate|]. intros [= <-]. apply div_r64; auto.
    apply Z.mod_pos_bound; lia.
Qed.

Lemma i64_r64 x : r64 (i64 x).
Proof. unfold i64. rewrite sext64_rep. apply rep64_range. Qed.

Lemma zb_r64 b : r64 (z_of_bool b).
Proof. destruct b; unfold r64, two63; cbn; lia. Qed.

Ltac bnd H :=
  repeat match type of H with
  | bind ?o _ = Ok _ =>
      let E := fresh "E" in let a := fresh "a" in
      destruct o as [a| |] eqn:E; [cbn [bind] in H|discriminate H|discriminate H]
  end.

Lemma eval2_r64 c n : wtn n -> forall r, eval2 c n = Ok r -> r64 r.
Proof.
  induction n; cbn [wtn]; intros W r H.
  - cbn in H. injection H as <-. destruct W as [_ ->]. apply rep64_range.
  - cbn in H. destruct (known c x); [|discriminate]. injection H as <-. apply ese_r64; auto using i64_r64.
  - cbn in H. destruct (known c x); [|discriminate]. bnd H. destruct (uns t).
    + bnd H. injection H as <-. apply i64_r64.
    + eapply h_shr_r64; [|eapply h_shl_r64; eauto|exact H]. lia.
  - destruct W as [_ [_ W]]. auto.
  - destruct W as [[A _] [_ W]]. cbn in H. bnd H. injection H as <-. apply ese_r64; auto.
    eapply h64_r64; eauto.
  - destruct W as [[A _] [_ W]]. cbn in H. bnd H. injection H as <-. apply ese_r64; auto.
    specialize (IHn W _ eq_refl). unfold r64, Z.lnot in *. lia.
  - cbn in H. bnd H. injection H as <-. apply zb_r64.
  - destruct W as [[A _] [_ [_ [Wa Wb]]]].
    destruct o; cbn [eval2] in H; bnd H; specialize (IHn1 Wa _ eq_refl); specialize (IHn2 Wb _ eq_refl);
    try (injection H as <-; apply ese_r64; auto; eapply h64_r64; eassumption).
    + destruct (Z.eqb_spec a0 0); [discriminate|]. destruct (uns t); [injection H as <-; apply i64_r64|].
      destruct (Z.eqb_spec a (- two63)); cbn [andb] in H.
      * destruct (Z.eqb_spec a0 (-1)).
        -- injection H as <-. unfold r64, two63; lia.
        -- injection H as <-. subst a. unfold r64 in *.
           assert (Z.abs (Z.quot (- two63) a0) <= two63).
           { rewrite <- Z.quot_abs by lia. change (Z.abs (- two63)) with two63.
             apply Z.quot_le_upper_bound; [lia|]. unfold two63; nia. }
           assert (Z.quot (- two63) a0 <> two63); [|lia].
           intros Q. pose proof (Z.quot_rem (- two63) a0 n) as QR. rewrite Q in QR.
           pose proof (Z.rem_bound_abs (- two63) a0 n). unfold two63 in *. nia.
      * injection H as <-. unfold r64 in *.
        assert (Z.abs (Z.quot a a0) <= Z.abs a).
        { rewrite <- Z.quot_abs by lia. apply Z.quot_le_upper_bound; [lia|]. nia. }
        unfold two63 in *. lia.
    + destruct (Z.eqb_spec a0 0); [discriminate|]. destruct (uns t); [injection H as <-; apply i64_r64|].
      destruct ((a =? - two63) && (a0 =? -1)).
      * injection H as <-. unfold r64, two63; lia.
      * injection H as <-. rewrite r64_long in *. apply rem_range; auto. discriminate.
    + injection H as <-. rewrite r64_long in *.
      apply (bitop_range Z.land); auto using sx_land, mod_land; discriminate.
    + injection H as <-. rewrite r64_long in *.
      apply (bitop_range Z.lor); auto using sx_lor, mod_lor; discriminate.
    + injection H as <-. rewrite r64_long in *.
      apply (bitop_range Z.lxor); auto using sx_lxor, mod_lxor; discriminate.
  - destruct W as [[A _] _]. cbn in H. bnd H. injection H as <-. apply ese_r64; auto.
    eapply h_shl_r64; eauto.
  - destruct W as [[A _] [_ [Wa Wb]]]. cbn in H. bnd H.
    destruct (sz t =? 4).
    + eapply h_shr_r64; [|  |exact H]; [lia|]. unfold trunc.
      pose proof (mod_bound a 32 ltac:(lia)). unfold r64, two63. lia.
    + bnd H. injection H as <-. apply i64_r64.
  - destruct W as [[A _] [_ [_ [Wa Wb]]]]. cbn in H. bnd H.
    destruct (sz t =? 4).
    + eapply h_shr_r64; [|  |exact H]; [lia|]. rewrite sx_sext by lia.
      pose proof (sx_range 32 a ltac:(lia)). unfold r64, two63. lia.
    + eapply h_shr_r64; [| |exact H]; [lia|]. auto.
  - cbn in H. bnd H. injection H as <-. apply zb_r64.
  - cbn in H. bnd H. destruct (a =? 0).
    + injection H as <-. apply (zb_r64 false).
    + bnd H. injection H as <-. apply zb_r64.
  - cbn in H. bnd H. destruct (a =? 0).
    + bnd H. injection H as <-. apply zb_r64.
    + injection H as <-. apply (zb_r64 true).
  - destruct W as [_ [_ [_ [Wc [Wa Wb]]]]]. cbn in H. bnd H. destruct (a =? 0); auto.
  - destruct W as [_ [Wa Wb]]. cbn in H. destruct (is_var n1); [auto|]. bnd H. auto.
  - destruct W as [A W]. cbn in H. bnd H. destruct (is_bool t).
    + injection H as <-. apply zb_r64.
    + injection H as <-. apply ese_r64; auto.
Qed.

Lemma cast_canonical c t n r : is_ty t -> wtn n -> eval2 c (NCast t n) = Ok r ->
  r = rep64 (conv (ity t) r).
Proof.
  intros A W H. cbn in H. bnd H. pose proof (eval2_r64 c n W _ E) as R.
  destruct (is_ty_inv t A) as [i [-> Ei]]. rewrite Ei.
  destruct (ityp_eqb i TBool) eqn:EB.
  - destruct i; try discriminate. cbn in H. injection H as <-. destruct (negb (a =? 0)); reflexivity.
  - assert (N : i <> TBool) by (destruct i; discriminate).
    replace (is_bool (mty i)) with false in H by (destruct i; try discriminate; reflexivity).
    injection H as <-. rewrite ese_spec by auto.
    rewrite (conv_rep64_id i); [reflexivity|apply conv_range].
Qed.

(** ** new_cast *)
Record cast_rel (c : cfg) (n n' : node) (t : ty) : Prop := {
  cr_wt : wtn n';
  cr_ty : nty n' = t;
  cr_cl : nclosed c n -> nclosed c n';
  cr_bf : is_bitfield2 n' = None \/ (n' = n /\ is_bitfield n = false /\ nty n = t);
  cr_ev : forall env, venv env n -> kenv c env n -> venv env n' /\ kenv c env n' /\
            forall v, teval env n = Some v -> teval env n' = Some (conv (ity t) v)
}.

Lemma new_cast_ok c n t n' : cfg_ok c -> wtn n -> is_ty t ->
  new_cast c n t = Ok n' -> cast_rel c n n' t.
Proof.
  intros C W A H. unfold new_cast in H.
  assert (D : cast_rel c n (NCast t n) t).
  { constructor; cbn; auto. intros env V K. repeat split; auto. intros v ->. reflexivity. }
  destruct (opt c); [|injection H as <-; exact D].
  destruct (eval2 c (NCast t n)) as [r| |] eqn:E; [|discriminate|].
  - injection H as <-. pose proof (cast_canonical c t n r A W E) as CN.
    constructor; cbn [wtn nty nclosed is_bitfield2]; auto. intros env V K. cbn [venv kenv teval].
    repeat split; auto. intros v T.
    pose proof (eval2_ok c env (NCast t n)) as O. cbn [wtn venv kenv teval] in O.
    rewrite T, E in O. specialize (O (conj A W) V K _ eq_refl). cbn [agrees] in O. subst r.
    rewrite conv_rep64_id by apply conv_range. reflexivity.
  - destruct (negb (is_bitfield n) && same c (nty n) t) eqn:S.
    + injection H as <-. apply andb_true_iff in S. destruct S as [S1 S2]. apply C in S2. subst t.
      constructor; auto.
      * right. repeat split; auto. destruct (is_bitfield n); [discriminate|reflexivity].
      * intros env V K. repeat split; auto. intros v T. rewrite T. f_equal. symmetry.
        apply conv_id. eapply teval_range; eauto.
    + destruct (is_redundant_cast n t) eqn:RD; [|injection H as <-; exact D].
      injection H as <-. destruct n; try discriminate. cbn [is_redundant_cast set_cast_ty] in *.
      cbn [wtn] in W. destruct W as [A2 W].
      constructor; cbn [wtn nty nclosed is_bitfield2 venv kenv teval]; auto.
      intros env V K. repeat split; auto. intros v. destruct (teval env n) as [x|] eqn:T; [|discriminate].
      intros [= <-]. f_equal. symmetry.
      pose proof (teval_range env n W V _ T) as R.
      assert (A3 : is_ty (nty n)).
      { clear - W. induction n; cbn [wtn nty] in *; try tauto; try reflexivity.
        all: try (unfold arith_ty in W; tauto). destruct W as [<- [_ W]]. auto. }
      apply (redundant_sound (ity t) (ity t0) (ity (nty n))); auto.
      unfold is_ty in *. congruence.
Qed.

Lemma wtn_is_ty n : wtn n -> is_ty (nty n).
Proof.
  induction n; cbn [wtn nty]; intros W; try tauto; try reflexivity.
  all: try (unfold arith_ty in W; tauto). destruct W as [<- [_ W]]. auto.
Qed.

(** ** cond_cast *)
Record cond_rel (c : cfg) (n n' : node) : Prop := {
  dr_wt : wtn n';
  dr_cl : nclosed c n -> nclosed c n';
  dr_ev : forall env, venv env n -> kenv c env n -> venv env n' /\ kenv c env n' /\
            forall v, teval env n = Some v ->
              exists w, teval env n' = Some w /\ (w =? 0) = (v =? 0)
}.

Lemma cond_cast_ok c n n' : cfg_ok c -> wtn n -> cond_cast c n = Ok n' -> cond_rel c n n'.
Proof.
  intros C W H.
  assert (I : cond_rel c n n).
  { constructor; auto. intros. repeat split; eauto. }
  assert (G : new_cast c n ty_bool = Ok n' -> cond_rel c n n').
  { intros G. apply new_cast_ok in G; auto; [|reflexivity]. destruct G. constructor; auto.
    intros env V K. destruct (cr_ev0 env V K) as [V' [K' T]]. repeat split; auto.
    intros v Hv. exists (conv TBool v). split; [exact (T v Hv)|]. unfold conv.
    destruct (v =? 0) eqn:E; reflexivity. }
  destruct n; try (apply G; exact H); cbn in H; injection H as <-; exact I.
Qed.

(** ** int_promotion *)
Lemma bf_width n w : wtn n -> is_bitfield2 n = Some w -> 1 <= w <= iwidth (ity (nty n)).
Proof.
  induction n; cbn [is_bitfield2 wtn nty]; intros W H; try discriminate.
  - injection H as <-. tauto.
  - destruct W as [<- [_ W]]. auto.
Qed.

Definition promoted_m (fw : option Z) (t : ityp) : ityp :=
  match fw with Some w => promote_field t w | None => promote t end.

Lemma pow_le_iff a b : 0 <= a -> 0 <= b -> (2 ^ a <= 2 ^ b <-> a <= b).
Proof. intros. symmetry. apply Z.pow_le_mono_r_iff; lia. Qed.

Lemma promote_field_spec t w : 1 <= w <= iwidth t ->
  promote_field t w = if (w =? 32) && negb (isigned t) then TUInt else if w <=? 32 then TInt else t.
Proof.
  intros W. unfold promote_field, fmin, fmax.
  change (imin TInt) with (- 2 ^ 31). change (imax TInt) with (2 ^ 31 - 1).
  change (imin TUInt) with 0. change (imax TUInt) with (2 ^ 32 - 1).
  assert (E1 : (2 ^ (w - 1) <=? 2 ^ 31) = (w <=? 32)).
  { apply eq_true_iff_eq. rewrite !Z.leb_le, pow_le_iff by lia. lia. }
  assert (E2 : (2 ^ w <=? 2 ^ 31) = (w <=? 31)).
  { apply eq_true_iff_eq. rewrite !Z.leb_le, pow_le_iff by lia. lia. }
  assert (E3 : (2 ^ w <=? 2 ^ 32) = (w <=? 32)).
  { apply eq_true_iff_eq. rewrite !Z.leb_le, pow_le_iff by lia. lia. }
  pose proof (pow2_pos (w - 1) ltac:(lia)) as P.
  destruct (isigned t); cbn [negb]; rewrite ?andb_false_r, ?andb_true_r.
  - replace (- 2 ^ 31 <=? - 2 ^ (w - 1)) with (w <=? 32).
    + replace (2 ^ (w - 1) - 1 <=? 2 ^ 31 - 1) with (w <=? 32).
      * replace (0 <=? - 2 ^ (w - 1)) with false by (symmetry; apply Z.leb_gt; lia).
        destruct (w <=? 32); reflexivity.
      * rewrite <- E1. apply eq_true_iff_eq. rewrite !Z.leb_le. lia.
    + rewrite <- E1. apply eq_true_iff_eq. rewrite !Z.leb_le. lia.
  - replace (- 2 ^ 31 <=? 0) with true by reflexivity.
    replace (2 ^ w - 1 <=? 2 ^ 31 - 1) with (w <=? 31).
    + replace (2 ^ w - 1 <=? 2 ^ 32 - 1) with (w <=? 32).
      * cbn [andb]. change (0 <=? 0) with true. cbn [andb].
        destruct (Z.leb_spec w 31), (Z.leb_spec w 32), (Z.eqb_spec w 32); try lia; reflexivity.
      * rewrite <- E3. apply eq_true_iff_eq. rewrite !Z.leb_le. lia.
    + rewrite <- E2. apply eq_true_iff_eq. rewrite !Z.leb_le. lia.
Qed.

Lemma int_promotion_ok c n n' : cfg_ok c -> wtn n -> int_promotion c n = Ok n' ->
  let p := promoted_m (is_bitfield2 n) (ity (nty n)) in
  wtn n' /\ nty n' = mty p /\ (nclosed c n -> nclosed c n') /\
  forall env, venv env n -> kenv c env n -> venv env n' /\ kenv c env n' /\
    forall v, teval env n = Some v -> teval env n' = Some (conv p v).
Proof.
  intros C W H p.
  assert (NC : forall t, ity t = p -> is_ty t -> new_cast c n t = Ok n' ->
    wtn n' /\ nty n' = mty p /\ (nclosed c n -> nclosed c n') /\
    forall env, venv env n -> kenv c env n -> venv env n' /\ kenv c env n' /\
    forall v, teval env n = Some v -> teval env n' = Some (conv p v)).
  { intros t E A N. apply new_cast_ok in N; auto. destruct N. subst p. rewrite <- E.
    repeat split; auto; try (intros; eapply cr_ev0; eauto).
    unfold is_ty in A. rewrite A. auto. }
  pose proof (wtn_is_ty n W) as A. destruct (is_ty_inv _ A) as [i [Ei Ii]].
  unfold int_promotion in H. destruct (is_bitfield2 n) as [w|] eqn:B.
  - pose proof (bf_width n w W B) as BW. subst p. unfold promoted_m in *.
    rewrite promote_field_spec in NC |- * by auto.
    assert (U : uns (nty n) = negb (isigned (ity (nty n)))) by (rewrite Ii, Ei; destruct i; reflexivity).
    rewrite U in H. destruct ((w =? 32) && negb (isigned (ity (nty n)))).
    + apply (NC ty_uint); auto. reflexivity.
    + destruct (w <=? 32).
      * apply (NC ty_int); auto. reflexivity.
      * apply (NC (nty n)); auto.
  - subst p. unfold promoted_m in *. rewrite Ii in *. rewrite Ei in H. rewrite Ei in A.
    destruct (Z.ltb_spec (sz (mty i)) 4).
    + apply (NC ty_int); auto; [|reflexivity].
      destruct i; cbn in *; try lia; reflexivity.
    + assert (PI : promote i = i) by (destruct i; cbn in *; try lia; reflexivity).
      assert (HN : n' = n).
      { destruct (sz (mty i) =? 4) eqn:Z4; [|congruence].
        destruct i; cbn in *; try lia; try discriminate; congruence. }
      subst n'. rewrite PI. repeat split; auto.
      intros v T. rewrite T. f_equal. symmetry. apply conv_id. rewrite <- Ii.
      eapply teval_range; eauto.
Qed.

Lemma promote_big t : 3 <= irank (promote t).
Proof. destruct t; vm_compute; discriminate. Qed.
Lemma promoted_big fw t : (forall w, fw = Some w -> 1 <= w <= iwidth t) -> 3 <= irank (promoted_m fw t).
Proof.
  destruct fw as [w|]; cbn [promoted_m]; intros H; [|apply promote_big].
  rewrite promote_field_spec by auto. specialize (H w eq_refl).
  destruct ((w =? 32) && negb (isigned t)); [vm_compute; discriminate|].
  destruct (Z.leb_spec w 32); [vm_compute; discriminate|]. destruct t; cbn in *; lia.
Qed.

Lemma big_arith t : 3 <= irank t -> arith_ty (mty t).
Proof. intros H. split; [auto|]. destruct t; cbn in *; lia. Qed.

(** ** C15: the common type. *)
Lemma common_type_ok a b : 3 <= irank a -> 3 <= irank b ->
  common_type (mty a) (mty b) = Ok (mty (usual a b)).
Proof. intros Ha Hb. destruct a; cbn in Ha; try lia; destruct b; cbn in Hb; try lia; reflexivity. Qed.

Lemma usual_big a b : 3 <= irank a -> 3 <= irank b -> 3 <= irank (usual a b).
Proof. intros Ha Hb. destruct a; cbn in Ha; try lia; destruct b; cbn in Hb; try lia; vm_compute; discriminate. Qed.

Lemma usual_arith_conv_ok c a b a2 b2 : cfg_ok c -> wtn a -> wtn b ->
  usual_arith_conv c a b = Ok (a2, b2) ->
  let pa := promoted_m (is_bitfield2 a) (ity (nty a)) in
  let pb := promoted_m (is_bitfield2 b) (ity (nty b)) in
  let u := usual pa pb in
  wtn a2 /\ wtn b2 /\ nty a2 = mty u /\ nty b2 = mty u /\ 3 <= irank u /\
  (nclosed c a -> nclosed c a2) /\ (nclosed c b -> nclosed c b2) /\
  (forall env, venv env a -> kenv c env a -> venv env a2 /\ kenv c env a2 /\
     forall v, teval env a = Some v -> teval env a2 = Some (conv u (conv pa v))) /\
  (forall env, venv env b -> kenv c env b -> venv env b2 /\ kenv c env b2 /\
     forall v, teval env b = Some v -> teval env b2 = Some (conv u (conv pb v))).
Proof.
  intros C Wa Wb H pa pb u. unfold usual_arith_conv in H. bnd H. injection H as <- <-.
  destruct (int_promotion_ok c a a0 C Wa E) as [W0 [T0 [C0 V0]]].
  destruct (int_promotion_ok c b a1 C Wb E0) as [W1 [T1 [C1 V1]]].
  fold pa in T0, V0. fold pb in T1, V1.
  assert (Pa : 3 <= irank pa) by (apply promoted_big; intros; apply bf_width; auto).
  assert (Pb : 3 <= irank pb) by (apply promoted_big; intros; apply bf_width; auto).
  rewrite T0, T1, common_type_ok in E1 by auto. injection E1 as <-. fold u in E2, E3.
  apply new_cast_ok in E2; auto. apply new_cast_ok in E3; auto. destruct E2, E3.
  assert (3 <= irank u) by (apply usual_big; auto).
  refine (conj cr_wt0 (conj cr_wt1 (conj cr_ty0 (conj cr_ty1 (conj H (conj _ (conj _ (conj _ _)))))))); auto.
  - intros env V K. destruct (V0 env V K) as [V' [K' T]]. destruct (cr_ev0 env V' K') as [V'' [K'' T']].
    repeat split; auto. intros v Hv. rewrite (T' _ (T _ Hv)), ity_mty. reflexivity.
  - intros env V K. destruct (V1 env V K) as [V' [K' T]]. destruct (cr_ev1 env V' K') as [V'' [K'' T']].
    repeat split; auto. intros v Hv. rewrite (T' _ (T _ Hv)), ity_mty. reflexivity.
Qed.
