(** Proofs about #if expressions. *)
From Coq Require Import ZArith List Bool Lia.
From Verif Require Import Base IntSpec IntModel IntLemmas IntTyped IntProofs IntFold IntMain NumSpec NumModel NumProofs PifSpec PifModel.
Import ListNotations.
Local Open Scope Z_scope.

Ltac rng := unfold in_range, imin, imax in *; cbn [isigned iwidth] in *;
  repeat match goal with H : context [2 ^ ?k] |- _ => let r := eval vm_compute in (2 ^ k) in change (2 ^ k) with r in H
                | |- context [2 ^ ?k] => let r := eval vm_compute in (2 ^ k) in change (2 ^ k) with r end.

Lemma lit_facts dec u l v t : 0 <= v -> (l <= 2)%nat -> const_type dec u l v = Some t ->
  in_range t v /\ In t [TInt; TUInt; TLong; TULong; TLLong; TULLong] /\ v < 2 ^ 64 /\
  infer_type (if dec then 10 else 8) (Nat.eqb l 2) (Nat.eqb l 1) u (i64 v) = mty t /\
  (u = true -> isigned t = false) /\ (u = false -> v < 2 ^ 31 -> isigned t = true).
Proof.
  intros V0 LE HT. unfold const_type in HT. pose proof (find_some _ _ HT) as [HI R]. unfold in_rangeb in R.
  assert (V1 : 0 <= v < 18446744073709551616).
  { split; [exact V0|]. apply andb_true_iff in R. destruct R as [_ R]. apply Z.leb_le in R.
    assert (imax t <= 18446744073709551615); [|lia]. destruct t; vm_compute; discriminate. }
  assert (SX : i64 v = if v <? 9223372036854775808 then v else v - 18446744073709551616).
  { unfold i64, sext. change (2 ^ 64) with 18446744073709551616. change (2 ^ (64 - 1)) with 9223372036854775808. rewrite Z.mod_small by exact V1. reflexivity. }
  assert (M : forall t, (imin t <=? v) && (v <=? imax t) = (v <=? imax t)).
  { intros t'. assert (imin t' <= 0) by (destruct t'; vm_compute; discriminate). destruct (Z.leb_spec (imin t') v); [reflexivity|lia]. }
  assert (RR : in_range t v) by (unfold in_range; lia).
  assert (X : forall t', In t' [TInt; TUInt; TLong; TULong; TLLong; TULLong] -> imax t' = match t' with TInt => 2147483647 | TUInt => 4294967295 | TLong | TLLong => 9223372036854775807 | _ => 18446744073709551615 end).
  { intros t' T. cbn [In] in T. intuition subst; reflexivity. }
  assert (ID : In t [TInt; TUInt; TLong; TULong; TLLong; TULLong]).
  { clear - HI. unfold candidates in HI. destruct u, dec, l as [|[|l]]; cbn [In] in *; intuition. }
  change (2 ^ 64) with 18446744073709551616. change (2 ^ 31) with 2147483648.
  split; [exact RR|]. split; [exact ID|]. split; [lia|].
  clear HI RR R ID. unfold in_rangeb in HT.
  unfold infer_type. rewrite !shiftr_hi by lia. rewrite SX. change (2 ^ 31) with 2147483648. change (2 ^ 32) with 4294967296. change (2 ^ 63) with 9223372036854775808.
  assert (GO : forall a b, find (fun t => (imin t <=? v) && (v <=? imax t)) (a :: b) = if v <=? imax a then Some a else find (fun t => (imin t <=? v) && (v <=? imax t)) b).
  { intros a b. cbn [find]. rewrite M. reflexivity. }
  assert (LL : (l = 0 \/ l = 1 \/ l = 2)%nat) by lia.
  destruct dec, u; destruct LL as [-> | [-> | ->]]; cbn [candidates Nat.eqb andb] in *; rewrite ?GO in HT;
    change (10 =? 10) with true; change (8 =? 10) with false; cbv iota;
    rewrite ?(X TInt), ?(X TUInt), ?(X TLong), ?(X TULong), ?(X TLLong), ?(X TULLong) in HT by (cbn [In]; tauto);
    repeat match type of HT with context [v <=? ?k] => destruct (Z.leb_spec v k); try lia end; try discriminate HT; injection HT as <-;
    destruct (Z.ltb_spec v 9223372036854775808); try lia; cbn [mty isigned];
    repeat match goal with |- context [?a <=? ?b] => destruct (Z.leb_spec a b); try lia | |- context [?a <? ?b] => destruct (Z.ltb_spec a b); try lia end;
    (split; [reflexivity|split; intros; try reflexivity; try discriminate; lia]).
Qed.

Lemma fw_code p : field_width (as_code p) = None.
Proof. destruct p; reflexivity. Qed.
Lemma fw_max p : field_width (as_intmax p) = None.
Proof. destruct p; try destruct o; reflexivity. Qed.
Lemma pr_code p t : promoted (as_code p) t = promote t.
Proof. unfold promoted. rewrite fw_code. reflexivity. Qed.
Lemma pr_max p t : promoted (as_intmax p) t = promote t.
Proof. unfold promoted. rewrite fw_max. reflexivity. Qed.

Definition two (t : ityp) := t = TLong \/ t = TULong.
Lemma two_usual a b : two a -> two b -> two (usual a b).
Proof. intros [->| ->] [->| ->]; vm_compute; auto. Qed.
Lemma two_promote a : two a -> promote a = a.
Proof. intros [->| ->]; reflexivity. Qed.
Lemma max_type p : two (ctype (as_intmax p)).
Proof.
  induction p; cbn [as_intmax ctype]; rewrite ?pr_max, ?two_promote by auto; auto using two_usual; try (left; reflexivity).
  - destruct (u || _); [right|left]; reflexivity.
  - destruct o; cbn [ctype]; rewrite ?pr_max, ?two_promote by auto; auto. left; reflexivity.
Qed.
Lemma common_max a b : common (as_intmax a) (as_intmax b) = usual (ctype (as_intmax a)) (ctype (as_intmax b)).
Proof. unfold common. rewrite !pr_max, !two_promote by apply max_type. reflexivity. Qed.
Lemma common_two a b : two (common (as_intmax a) (as_intmax b)).
Proof. rewrite common_max. apply two_usual; apply max_type. Qed.

Definition wide32 (t : ityp) := t <> TBool /\ 32 <= iwidth t /\ promote t = t.
Lemma wide_promote t : wide32 (promote t).
Proof. destruct t; vm_compute; repeat split; discriminate. Qed.
Lemma wide_usual a b : wide32 a -> wide32 b -> wide32 (usual a b).
Proof. unfold wide32. destruct a, b; intros [A [B C]] [D [E F]]; vm_compute in *; repeat split; try discriminate; try congruence; exfalso; try apply B; try apply E; congruence. Qed.
Lemma common_code a b : common (as_code a) (as_code b) = usual (promote (ctype (as_code a))) (promote (ctype (as_code b))).
Proof. unfold common. rewrite !pr_code. reflexivity. Qed.
Lemma common_wide a b : wide32 (common (as_code a) (as_code b)).
Proof. rewrite common_code. apply wide_usual; apply wide_promote. Qed.
Lemma promote_range t v : in_range t v -> in_range (promote t) v.
Proof. intros H. destruct t; try exact H; match type of H with in_range ?s _ => exact (in_range_sub TInt s v (eq_refl true) H) end. Qed.

(** Results that fit are the same in both types. *)
Lemma conv_agree tc tp z : tc <> TBool -> two tp -> in_range tc (conv tp z) -> conv tc z = conv tp z.
Proof.
  intros N T H. rewrite <- (conv_conv_narrow tc tp z); [apply conv_id; exact H|exact N|destruct T; subst; discriminate|].
  pose proof (iwidth_pos tc). destruct T; subst; cbn [iwidth]; lia.
Qed.
Lemma wrap_agree tc tp z v : tc <> TBool -> two tp -> (isigned tc = true -> isigned tp = true) ->
  wrap_or_undef tp z = Some v -> in_range tc v -> wrap_or_undef tc z = Some v.
Proof.
  intros N T S W R. unfold wrap_or_undef in *. destruct (isigned tc) eqn:SC.
  - rewrite (S eq_refl) in W. destruct (in_rangeb tp z); [|discriminate]. injection W as <-.
    apply in_rangeb_spec in R. rewrite R. reflexivity.
  - f_equal. destruct (isigned tp).
    + destruct (in_rangeb tp z); [|discriminate]. injection W as <-. apply conv_id. exact R.
    + injection W as <-. apply conv_agree; assumption.
Qed.
Lemma bin_agree o tc tp x y v : tc <> TBool -> two tp -> (isigned tc = true -> isigned tp = true) ->
  (o = BMod -> in_range tc (Z.quot x y)) ->
  c_bin o tp x y = Some v -> in_range tc v -> c_bin o tc x y = Some v.
Proof.
  intros N T S Q C R. destruct o; cbn [c_bin] in *; try (eapply wrap_agree; eassumption); try exact C.
  - destruct (y =? 0); [exact C|]. eapply wrap_agree; eassumption.
  - destruct (y =? 0); [exact C|]. destruct (in_rangeb tp _); [|discriminate].
    rewrite (proj2 (in_rangeb_spec tc (Z.quot x y)) (Q eq_refl)). exact C.
Qed.

Lemma some_inj {A} (a b : A) : Some a = Some b -> a = b.
Proof. congruence. Qed.

Lemma if_range p : lits_ok p -> forall v, if_value p = Some v -> in_range (ctype (as_intmax p)) v.
Proof.
  unfold if_value. induction p; cbn [lits_ok as_intmax]; intros L w E.
  - cbn [ceval ctype] in *. apply some_inj in E; subst w. destruct L as [L0 [L1 L]].
    destruct (const_type dec u l v) as [t|] eqn:CT; [|congruence]. destruct (lit_facts _ _ _ _ _ L0 L1 CT) as [_ [_ [B _]]]. clear CT L.
    destruct u; cbn [orb]; [rng; lia|]. change (2 ^ 63) with 9223372036854775808.
    destruct (Z.leb_spec 9223372036854775808 v); rng; lia.
  - cbn [ceval ctype] in *. apply some_inj in E; subst w. rng; lia.
  - pose proof (max_type p) as T. destruct o; cbn [ceval ctype] in *; destruct (ceval _ (as_intmax p)) as [x|]; try discriminate;
      rewrite ?pr_max, ?two_promote in * by exact T.
    + apply some_inj in E; subst w. apply conv_range.
    + eapply wrap_range. exact E.
    + apply some_inj in E; subst w. apply conv_range.
    + apply some_inj in E; subst w. apply conv_range.
  - destruct L as [L1 L2]. cbn [ceval ctype] in *. destruct (ceval _ (as_intmax p1)); try discriminate. destruct (ceval _ (as_intmax p2)); try discriminate.
    rewrite !pr_max, !two_promote in * by apply max_type. pose proof (two_usual _ _ (max_type p1) (max_type p2)) as T.
    apply (c_bin_range o _ (conv (usual (ctype (as_intmax p1)) (ctype (as_intmax p2))) z) (conv (usual (ctype (as_intmax p1)) (ctype (as_intmax p2))) z0)); [destruct T as [->| ->]; discriminate|apply conv_range|apply conv_range|exact E].
  - cbn [ceval ctype] in *. destruct (ceval _ (as_intmax p1)); try discriminate. destruct (ceval _ (as_intmax p2)); try discriminate.
    eapply c_shift_range; [|exact E]. apply conv_range.
  - cbn [ceval ctype] in *. destruct (ceval _ (as_intmax p1)); try discriminate. destruct (ceval _ (as_intmax p2)); try discriminate.
    eapply c_shift_range; [|exact E]. apply conv_range.
  - cbn [ceval ctype] in *. destruct (ceval _ (as_intmax p1)); try discriminate. destruct (ceval _ (as_intmax p2)); try discriminate. apply some_inj in E; subst w. apply conv_range.
  - cbn [ctype]. cbn [ceval] in E. match type of E with match ?x with _ => _ end = _ => destruct x; try discriminate end. apply some_inj in E; subst w. apply conv_range.
  - cbn [ctype]. cbn [ceval] in E. match type of E with match ?x with _ => _ end = _ => destruct x; try discriminate end. apply some_inj in E; subst w. apply conv_range.
  - cbn [ceval ctype] in *. destruct (ceval _ (as_intmax p1)); try discriminate.
    match type of E with match ?x with _ => _ end = _ => destruct x; try discriminate end. apply some_inj in E; subst w. apply conv_range.
Qed.

Lemma b2z_long b : conv TLong (b2z b) = b2z b.
Proof. destruct b; reflexivity. Qed.

Lemma code_value p : lits_ok p -> modest p -> forall v, if_value p = Some v ->
  ceval (fun _ => 0) (as_code p) = Some v.
Proof.
  induction p; cbn [lits_ok modest]; intros L [R M] w E; pose proof (R _ E) as RW; unfold if_value in E.
  - exact E.
  - exact E.
  - destruct M as [M S]. specialize (IHp L M). pose proof (if_range p L) as RA. pose proof (max_type p) as T. unfold if_value in *.
    cbn [as_intmax] in E. cbn [as_code ctype] in *.
    assert (RC : forall x, ceval (fun _ => 0) (as_intmax p) = Some x -> in_range (promote (ctype (as_code p))) x).
    { intros x Ex. apply promote_range. destruct p; cbn [modest] in M; apply M; exact Ex. }
    pose proof (wide_promote (ctype (as_code p))) as W.
    destruct o; cbn [ceval ctype as_intmax] in *; destruct (ceval _ (as_intmax p)) as [x|] eqn:Ex; try discriminate;
      rewrite (IHp _ eq_refl); rewrite ?pr_max, ?two_promote, ?pr_code in * by exact T; try rewrite (conv_id _ _ (RC _ eq_refl)).
    + rewrite (conv_id _ _ (RA _ eq_refl)) in E. exact E.
    + rewrite (conv_id _ _ (RA _ eq_refl)) in E. eapply wrap_agree; [apply W|exact T|apply S; reflexivity|exact E|exact RW].
    + rewrite (conv_id _ _ (RA _ eq_refl)) in E. apply some_inj in E; subst w. f_equal. apply conv_agree; [apply W|exact T|exact RW].
    + rewrite b2z_long in E. exact E.
  - destruct L as [L1 L2]. cbv zeta in M. destruct M as [M1 [M2 [S1 [S2 [SG Q]]]]]. specialize (IHp1 L1 M1). specialize (IHp2 L2 M2).
    unfold same_in, if_value in *. cbn [as_intmax as_code ceval ctype] in *.
    destruct (ceval _ (as_intmax p1)) as [x|] eqn:E1; try discriminate. destruct (ceval _ (as_intmax p2)) as [y|] eqn:E2; try discriminate.
    rewrite (IHp1 _ eq_refl), (IHp2 _ eq_refl). fold (common (as_code p1) (as_code p2)) in *. fold (common (as_intmax p1) (as_intmax p2)) in *.
    rewrite (S1 _ eq_refl), (S2 _ eq_refl).
    eapply bin_agree; [apply common_wide|apply common_two|exact SG| |exact E|exact RW].
    intros O. rewrite <- (S1 _ eq_refl), <- (S2 _ eq_refl). apply Q; [exact O|reflexivity|reflexivity].
  - destruct L as [L1 L2]. destruct M as [M1 [M2 Q]]. specialize (IHp1 L1 M1). specialize (IHp2 L2 M2).
    pose proof (if_range p1 L1) as RA. assert (RC : forall x, if_value p1 = Some x -> in_range (promote (ctype (as_code p1))) x).
    { intros x Ex. apply promote_range. destruct p1; cbn [modest] in M1; apply M1; exact Ex. }
    unfold if_value in *. cbn [as_intmax as_code ceval ctype] in *.
    destruct (ceval _ (as_intmax p1)) as [x|] eqn:E1; try discriminate. destruct (ceval _ (as_intmax p2)) as [y|] eqn:E2; try discriminate.
    rewrite (IHp1 _ eq_refl), (IHp2 _ eq_refl). rewrite pr_code, pr_max, two_promote in * by apply max_type.
    rewrite (conv_id _ _ (RC _ eq_refl)). rewrite (conv_id _ _ (RA _ eq_refl)) in E. specialize (Q _ eq_refl).
    unfold c_shift in *. destruct ((0 <=? y) && (y <? iwidth (ctype (as_intmax p1)))) eqn:B; [|discriminate]. apply some_inj in E; subst w.
    replace (y <? iwidth (promote (ctype (as_code p1)))) with true by lia. replace (0 <=? y) with true by lia. cbn [andb].
    f_equal. apply conv_agree; [apply wide_promote|apply max_type|exact RW].
  - destruct L as [L1 L2]. destruct M as [M1 [M2 Q]]. specialize (IHp1 L1 M1). specialize (IHp2 L2 M2).
    pose proof (if_range p1 L1) as RA. assert (RC : forall x, if_value p1 = Some x -> in_range (promote (ctype (as_code p1))) x).
    { intros x Ex. apply promote_range. destruct p1; cbn [modest] in M1; apply M1; exact Ex. }
    unfold if_value in *. cbn [as_intmax as_code ceval ctype] in *.
    destruct (ceval _ (as_intmax p1)) as [x|] eqn:E1; try discriminate. destruct (ceval _ (as_intmax p2)) as [y|] eqn:E2; try discriminate.
    rewrite (IHp1 _ eq_refl), (IHp2 _ eq_refl). rewrite pr_code, pr_max, two_promote in * by apply max_type.
    rewrite (conv_id _ _ (RC _ eq_refl)). rewrite (conv_id _ _ (RA _ eq_refl)) in E. specialize (Q _ eq_refl).
    unfold c_shift in *. destruct ((0 <=? y) && (y <? iwidth (ctype (as_intmax p1)))) eqn:B; [|discriminate]. apply some_inj in E; subst w.
    replace (y <? iwidth (promote (ctype (as_code p1)))) with true by lia. replace (0 <=? y) with true by lia. reflexivity.
  - destruct L as [L1 L2]. destruct M as [M1 [M2 [S1 S2]]]. specialize (IHp1 L1 M1). specialize (IHp2 L2 M2).
    unfold same_in, if_value in *. cbn [as_intmax as_code ceval ctype] in *.
    destruct (ceval _ (as_intmax p1)) as [x|] eqn:E1; try discriminate. destruct (ceval _ (as_intmax p2)) as [y|] eqn:E2; try discriminate.
    rewrite (IHp1 _ eq_refl), (IHp2 _ eq_refl). fold (common (as_code p1) (as_code p2)) in *. fold (common (as_intmax p1) (as_intmax p2)) in *.
    rewrite (S1 _ eq_refl), (S2 _ eq_refl). rewrite b2z_long in E. exact E.
  - destruct L as [L1 L2]. destruct M as [M1 M2]. specialize (IHp1 L1 M1). 
    unfold if_value in *. cbn [as_intmax as_code ceval ctype] in *.
    destruct (ceval _ (as_intmax p1)) as [x|] eqn:E1; try discriminate. rewrite (IHp1 _ eq_refl).
    destruct (Z.eqb_spec x 0) as [->|NZ]; [exact E|]. specialize (IHp2 L2 (M2 ltac:(congruence))).
    destruct (ceval _ (as_intmax p2)) as [y|] eqn:E2; try discriminate. rewrite (IHp2 _ eq_refl). rewrite b2z_long in E. exact E.
  - destruct L as [L1 L2]. destruct M as [M1 M2]. specialize (IHp1 L1 M1). 
    unfold if_value in *. cbn [as_intmax as_code ceval ctype] in *.
    destruct (ceval _ (as_intmax p1)) as [x|] eqn:E1; try discriminate. rewrite (IHp1 _ eq_refl).
    destruct (Z.eqb_spec x 0) as [->|NZ]; cbn [negb] in *; [|exact E]. specialize (IHp2 L2 (M2 eq_refl)).
    destruct (ceval _ (as_intmax p2)) as [y|] eqn:E2; try discriminate. rewrite (IHp2 _ eq_refl). rewrite b2z_long in E. exact E.
  - destruct L as [L1 [L2 L3]]. destruct M as [M1 [M2 M3]]. specialize (IHp1 L1 M1). 
    unfold same_in, if_value in *. cbn [as_intmax as_code ceval ctype] in *. fold (common (as_code p2) (as_code p3)) in *. fold (common (as_intmax p2) (as_intmax p3)) in *.
    destruct (ceval _ (as_intmax p1)) as [x|] eqn:E1; try discriminate. rewrite (IHp1 _ eq_refl).
    destruct (Z.eqb_spec x 0) as [->|NZ].
    + destruct (M3 eq_refl) as [N3 S]. specialize (IHp3 L3 N3).
      destruct (ceval _ (as_intmax p3)) as [y|] eqn:E2; try discriminate. rewrite (IHp3 _ eq_refl), (S _ eq_refl). exact E.
    + destruct (M2 ltac:(congruence)) as [N3 S]. specialize (IHp2 L2 N3).
      destruct (ceval _ (as_intmax p2)) as [y|] eqn:E2; try discriminate. rewrite (IHp2 _ eq_refl), (S _ eq_refl). exact E.
Qed.

Lemma ityp_of_mty t : ityp_of (mty t) = t.
Proof. destruct t; reflexivity. Qed.
Lemma read_code p : lits_ok p -> read_const_expr p = as_code p.
Proof.
  induction p; cbn [lits_ok read_const_expr as_code]; intros L; try (destruct L as [L1 L2]); rewrite ?IHp, ?IHp1, ?IHp2, ?IHp3 by tauto; try reflexivity.
  destruct L2 as [L2 L3]. destruct (const_type dec u l v) as [t|] eqn:CT; [|congruence].
  destruct (lit_facts _ _ _ _ _ L1 L2 CT) as [_ [_ [_ [F _]]]]. rewrite F, ityp_of_mty. reflexivity.
Qed.
Lemma code_wf p : lits_ok p -> wf (fun _ => 0) (as_code p).
Proof.
  induction p; cbn [lits_ok as_code wf]; intros L; try tauto.
  destruct L as [L1 [L2 L3]]. destruct (const_type dec u l v) as [t|] eqn:CT; [|congruence].
  exact (proj1 (lit_facts _ _ _ _ _ L1 L2 CT)).
Qed.
Lemma code_known kn env p : known_ok kn env (as_code p).
Proof. induction p; cbn [as_code known_ok]; tauto. Qed.
Lemma code_const kn p : constant kn (as_code p).
Proof. induction p; cbn [as_code constant]; tauto. Qed.
Lemma code_plain p : plain_casts (as_code p).
Proof. induction p; cbn [as_code plain_casts]; tauto. Qed.

Theorem if_value_ok c p v : (forall a b, same c a b = true -> a = b) -> strict c = false ->
  lits_ok p -> modest p -> if_value p = Some v ->
  eval_const_expr c p = Ok (rep64 v) /\ if_active c p = Ok (negb (v =? 0)).
Proof.
  intros SM ST L M E. pose proof (code_value p L M v E) as CV.
  destruct (fold_complete c (fun _ => 0) (as_code p) v SM ST (code_wf p L) (code_known _ _ p) (code_plain p) (code_const _ p) CV) as [n [E1 E2]].
  assert (EV : eval_const_expr c p = Ok (rep64 v)) by (unfold eval_const_expr; rewrite (read_code p L), E1; cbn [bind]; exact E2).
  split; [exact EV|]. unfold if_active. rewrite EV. cbn [bind]. rewrite (rep64_zero v); [reflexivity|].
  exact (in_range_64 _ _ (if_range p L v E)).
Qed.

Definition three (t : ityp) := t = TInt \/ t = TLong \/ t = TLLong.
Lemma three_usual a b : three a -> three b -> three (usual a b).
Proof. intros [->|[->| ->]] [->|[->| ->]]; vm_compute; auto. Qed.
Lemma three_promote a : three a -> promote a = a.
Proof. intros [->|[->| ->]]; reflexivity. Qed.
Lemma three_int a z : three a -> in_range TInt z -> in_range a z.
Proof. intros [->|[->| ->]] H; rng; lia. Qed.
Lemma three_signed a : three a -> isigned a = true.
Proof. intros [->|[->| ->]]; reflexivity. Qed.

Lemma plain_types p : lits_ok p -> plain_lits p -> three (ctype (as_code p)) /\ ctype (as_intmax p) = TLong.
Proof.
  induction p; cbn [lits_ok plain_lits]; intros L P.
  - destruct L as [L1 [L2 L3]]. destruct P as [-> P]. destruct (const_type dec false l v) as [t|] eqn:CT; [|congruence].
    destruct (lit_facts _ _ _ _ _ L1 L2 CT) as [_ [HI [_ [_ [_ SG]]]]]. specialize (SG eq_refl P). cbn [as_code as_intmax ctype]. rewrite CT. split.
    + unfold three. clear - HI SG. cbn [In] in HI. destruct HI as [<-|[<-|[<-|[<-|[<-|[<-|[]]]]]]]; try discriminate SG; auto.
    + cbn [orb]. change (2 ^ 31) with 2147483648 in P. change (2 ^ 63) with 9223372036854775808.
      destruct (Z.leb_spec 9223372036854775808 v); [lia|reflexivity].
  - split; [left; reflexivity|reflexivity].
  - destruct (IHp L P) as [A B]. destruct o; cbn [as_code as_intmax ctype]; rewrite ?pr_code, ?pr_max, ?B; rewrite ?(three_promote _ A); split; try assumption; try reflexivity. left; reflexivity.
  - destruct (IHp1 (proj1 L) (proj1 P)) as [A1 B1]. destruct (IHp2 (proj2 L) (proj2 P)) as [A2 B2].
    cbn [as_code as_intmax ctype]. rewrite !pr_code, !pr_max, B1, B2. rewrite (three_promote _ A1), (three_promote _ A2). split; [apply three_usual; assumption|reflexivity].
  - destruct (IHp1 (proj1 L) (proj1 P)) as [A1 B1]. cbn [as_code as_intmax ctype]. rewrite !pr_code, !pr_max, B1. rewrite (three_promote _ A1). split; [assumption|reflexivity].
  - destruct (IHp1 (proj1 L) (proj1 P)) as [A1 B1]. cbn [as_code as_intmax ctype]. rewrite !pr_code, !pr_max, B1. rewrite (three_promote _ A1). split; [assumption|reflexivity].
  - split; [left; reflexivity|reflexivity].
  - split; [left; reflexivity|reflexivity].
  - split; [left; reflexivity|reflexivity].
  - destruct L as [L1 [L2 L3]], P as [P1 [P2 P3]]. destruct (IHp2 L2 P2) as [A1 B1]. destruct (IHp3 L3 P3) as [A2 B2].
    cbn [as_code as_intmax ctype]. rewrite !pr_code, !pr_max, B1, B2. rewrite (three_promote _ A1), (three_promote _ A2). split; [apply three_usual; assumption|reflexivity].
Qed.

Lemma int_valued_top p : int_valued p -> forall z, if_value p = Some z -> in_range TInt z.
Proof. destruct p; cbn [int_valued]; intros [H _]; exact H. Qed.

Lemma small_modest p : lits_ok p -> plain_lits p -> int_valued p -> modest p.
Proof.
  assert (CM : forall a b, lits_ok a -> plain_lits a -> lits_ok b -> plain_lits b ->
            three (common (as_code a) (as_code b)) /\ common (as_intmax a) (as_intmax b) = TLong).
  { intros a b LA PA LB PB. destruct (plain_types a LA PA) as [A1 B1]. destruct (plain_types b LB PB) as [A2 B2].
    rewrite common_code, common_max, B1, B2, (three_promote _ A1), (three_promote _ A2). split; [apply three_usual; assumption|reflexivity]. }
  assert (SI : forall tc v, three tc -> (forall z, v = Some z -> in_range TInt z) -> same_in tc TLong v).
  { intros tc v T H z E. pose proof (H z E) as R. rewrite (conv_id tc z (three_int tc z T R)), (conv_id TLong z); [reflexivity|].
    apply (three_int TLong z); [right; left; reflexivity|exact R]. }
  induction p; intros L P IV; pose proof (plain_types _ L P) as [A B]; pose proof (int_valued_top _ IV) as TOP;
    cbn [lits_ok plain_lits int_valued] in L, P, IV; destruct IV as [_ IV]; cbn [modest];
    (split; [intros z E; apply three_int; [exact A|exact (TOP z E)]|]); clear TOP.
  - exact Logic.I.
  - exact Logic.I.
  - split; [apply IHp; assumption|]. intros _ _. rewrite B. reflexivity.
  - destruct L as [L1 L2], P as [P1 P2], IV as [V1 [V2 V3]]. destruct (CM p1 p2 L1 P1 L2 P2) as [C1 C2]. rewrite C2.
    split; [apply IHp1; assumption|]. split; [apply IHp2; assumption|].
    split; [apply SI; [exact C1|apply int_valued_top; exact V1]|]. split; [apply SI; [exact C1|apply int_valued_top; exact V2]|].
    split; [intros _; rewrite B; reflexivity|]. intros -> x y Ex Ey. specialize (V3 eq_refl).
    pose proof (int_valued_top _ V1 _ Ex) as RX. pose proof (int_valued_top _ V2 _ Ey) as RY.
    rewrite (conv_id _ x) by (apply three_int; assumption). rewrite (conv_id _ y) by (apply three_int; assumption).
    apply three_int; [exact C1|]. assert (NX : x <> - 2 ^ 31) by (intros ->; apply V3; exact Ex). clear - RX RY NX. rng.
    assert (QB : Z.abs (Z.quot x y) <= Z.abs x).
    { destruct (Z.eq_dec y 0) as [->|NY]; [rewrite Z.quot_0_r_ext by reflexivity; lia|].
      rewrite <- Z.quot_abs by exact NY. pose proof (Z.quot_le_upper_bound (Z.abs x) (Z.abs y) (Z.abs x) ltac:(lia)). nia. }
    lia.
  - destruct L as [L1 L2], P as [P1 P2], IV as [V1 [V2 V3]]. split; [apply IHp1; assumption|]. split; [apply IHp2; assumption|].
    intros z E. specialize (V3 z E). destruct A as [->|[->| ->]]; cbn [iwidth]; lia.
  - destruct L as [L1 L2], P as [P1 P2], IV as [V1 [V2 V3]]. split; [apply IHp1; assumption|]. split; [apply IHp2; assumption|].
    intros z E. specialize (V3 z E). destruct A as [->|[->| ->]]; cbn [iwidth]; lia.
  - destruct L as [L1 L2], P as [P1 P2], IV as [V1 V2]. destruct (CM p1 p2 L1 P1 L2 P2) as [C1 C2]. rewrite C2.
    split; [apply IHp1; assumption|]. split; [apply IHp2; assumption|].
    split; apply SI; try exact C1; apply int_valued_top; assumption.
  - destruct L as [L1 L2], P as [P1 P2], IV as [V1 V2]. split; [apply IHp1; assumption|]. intros N. apply IHp2; auto.
  - destruct L as [L1 L2], P as [P1 P2], IV as [V1 V2]. split; [apply IHp1; assumption|]. intros N. apply IHp2; auto.
  - destruct L as [L1 [L2 L3]], P as [P1 [P2 P3]], IV as [V1 [V2 V3]]. destruct (CM p2 p3 L2 P2 L3 P3) as [C1 C2]. rewrite C2.
    split; [apply IHp1; assumption|]. split; intros N.
    + specialize (V2 N). split; [apply IHp2; assumption|]. apply SI; [exact C1|apply int_valued_top; assumption].
    + specialize (V3 N). split; [apply IHp3; assumption|]. apply SI; [exact C1|apply int_valued_top; assumption].
Qed.
