(** Proofs about #line. *)
From Coq Require Import ZArith List Bool Lia.
From Verif Require Import Base IntSpec IntModel IntLemmas LexModel LexSpec NumSpec NumModel NumProofs MarkSpec MarkModel.
Import ListNotations.
Local Open Scope Z_scope.

Lemma no_sep_digits : forall w, forallb digit w = true -> filter (fun c => negb (c =? 39)) w = w.
Proof.
  induction w as [|c w IH]; intros F; [reflexivity|]. cbn [forallb] in F. apply andb_true_iff in F. destruct F as [D F].
  cbn [filter]. unfold digit in D. destruct (Z.eqb_spec c 39); [subst c; discriminate D|]. cbn [negb]. rewrite (IH F). reflexivity.
Qed.
Lemma digit10 : forall w, forallb digit w = true -> forallb (ndigit 10) w = true.
Proof.
  intros w F. rewrite forallb_forall in *. intros x H. specialize (F x H). unfold digit in F. unfold ndigit.
  apply andb_true_iff in F. destruct F. apply andb_true_iff. split; lia.
Qed.
Lemma marker_number : forall d w v, forallb digit (d :: w) = true -> d <> 48 -> (length (d :: w) <= 226)%nat ->
  value_of 10 (d :: w) = v -> v < 2 ^ 31 -> 0 <= v /\ convert_pp_number (d :: w) = Ok (Some (ty_int, v)).
Proof.
  intros d w v F N L E B.
  assert (HN : numeral 10 [] (d :: w)).
  { pose proof (digit10 _ F) as F'. cbn [forallb] in F'. apply andb_true_iff in F'. destruct F'. constructor; assumption. }
  pose proof (value_nonneg 10 (d :: w) ltac:(cbn; tauto) (digit10 _ F) 0 ltac:(lia)) as V0. fold (value_of 10 (d :: w)) in V0.
  rewrite E in V0. split; [exact V0|].
  unfold convert_pp_number. destruct (Nat.leb_spec 227 (length (d :: w))); [lia|]. rewrite (no_sep_digits _ F).
  pose proof (convert_gen _ _ _ _ _ _ HN suf_none) as G. cbv zeta in G. cbn [app] in G. rewrite app_nil_r in G.
  change (d :: w ++ [0]) with ((d :: w) ++ [0]) in G. rewrite G, E. unfold ULONG_MAX. rewrite Z.min_l by lia.
  assert (S : sext 64 v = v).
  { rewrite sext64_conv. apply conv_id. split; [change (imin TLong) with (- 2 ^ 63)|change (imax TLong) with (2 ^ 63 - 1)]; lia. }
  rewrite S. unfold infer_type. cbn [Z.eqb Pos.eqb Nat.eqb andb]. rewrite shiftr_hi by lia.
  replace ((0 <=? v) && (v <? 2 ^ 31)) with true by (symmetry; apply andb_true_iff; split; lia). reflexivity.
Qed.

Lemma sext32_id : forall v, - 2 ^ 31 <= v < 2 ^ 31 -> sext 32 v = v.
Proof.
  intros v H. unfold sext. change (32 - 1) with 31. destruct (Z.ltb_spec v 0).
  - replace (v mod 2 ^ 32) with (v + 2 ^ 32) by (apply (Z.mod_unique _ _ (-1)); lia). destruct (Z.ltb_spec (v + 2 ^ 32) (2 ^ 31)); lia.
  - rewrite Z.mod_small by lia. destruct (Z.ltb_spec v (2 ^ 31)); lia.
Qed.

Lemma in_order_dir : forall l lo first last w a, in_order lo l -> In (Dir first last w a) l -> (lo <= last)%nat.
Proof.
  induction l as [|i l IH]; intros lo first last w a O K; [destruct K|]. destruct i as [f0 l0 w0 a0|n]; cbn [in_order] in O; destruct O as [O1 O2].
  - destruct K as [K|K]; [injection K as -> -> -> ->; lia|]. specialize (IH _ _ _ _ _ O2 K). lia.
  - destruct K as [K|K]; [discriminate K|]. specialize (IH _ _ _ _ _ O2 K). lia.
Qed.

Lemma steady : forall (A : Type) marks (names : nat -> option A) base lo n, (lo <= n)%nat ->
  (forall k, (lo <= k < n)%nat -> marks k = None /\ names k = None) ->
  number marks n = number marks lo + Z.of_nat n - Z.of_nat lo /\ naming names base n = naming names base lo.
Proof.
  intros A marks names base lo n L. induction L as [|n L IH]; intros H; [split; [lia|reflexivity]|].
  destruct IH as [I1 I2]; [intros k K; apply H; lia|]. destruct (H n ltac:(lia)) as [M N].
  cbn [number naming]. rewrite M, N, I1, I2. split; [lia|reflexivity].
Qed.

Lemma run : forall marks names base l lo f, in_order lo l -> Forall plain_item l ->
  (forall first last w a, In (Dir first last w a) l -> (exists v, says w v /\ marks last = Some v /\ v < 2 ^ 31) /\
     match a with Name s => names last = Some s | Nothing => names last = None | Junk => False end) ->
  (forall k, (lo <= k)%nat -> (forall first w a, ~ In (Dir first k w a) l) -> marks k = None /\ names k = None) ->
  (forall n, In (Tok n) l -> - 2 ^ 31 <= number marks n < 2 ^ 31) ->
  number marks lo = Z.of_nat lo + line_delta f -> naming names base lo = display_file f ->
  preprocess2 f l = Ok (map (fun n => (number marks n, naming names base n)) (toks l)).
Proof.
  intros marks names base. induction l as [|i l IH]; intros lo f O P HD HN HT I1 I2; [reflexivity|].
  inversion P as [|? ? P1 P2]; subst. destruct i as [first last w a|n]; cbn [in_order] in O; destruct O as [O1 O2].
  - destruct P1 as [FL [LW [[d [r [EW D]]] [F0 F1]]]]. subst last.
    destruct (HD first first w a (or_introl eq_refl)) as [[v [[S1 [S2 S3]] [MV VB]]] NA].
    rewrite EW in S1, S3, LW. destruct (marker_number d r v S1 D LW S3 VB) as [V0 C].
    assert (ST : number marks first = number marks lo + Z.of_nat first - Z.of_nat lo /\ naming names base first = naming names base lo).
    { apply steady; [lia|]. intros k K. apply HN; [lia|]. intros f2 w2 a2 [E|E]; [injection E; lia|].
      pose proof (in_order_dir _ _ _ _ _ _ O2 E). lia. }
    destruct ST as [_ ST2].
    cbn [preprocess2 toks]. unfold read_line_marker. rewrite EW, C. cbn [bind]. change (kd ty_int) with KInt. cbv beta iota zeta.
    rewrite sext32_id by lia. cbn [line_delta].
    assert (HD' : forall f2 l2 w2 a2, In (Dir f2 l2 w2 a2) l -> (exists v, says w2 v /\ marks l2 = Some v /\ v < 2 ^ 31) /\
     match a2 with Name s => names l2 = Some s | Nothing => names l2 = None | Junk => False end) by (intros; eapply HD; right; eassumption).
    assert (HN' : forall k, (Datatypes.S first <= k)%nat -> (forall f2 w2 a2, ~ In (Dir f2 k w2 a2) l) -> marks k = None /\ names k = None).
    { intros k K Q. apply HN; [lia|]. intros f2 w2 a2 [E|E]; [injection E; lia|exact (Q _ _ _ E)]. }
    assert (HT' : forall n, In (Tok n) l -> - 2 ^ 31 <= number marks n < 2 ^ 31) by (intros; apply HT; right; assumption).
    destruct a as [|s|]; [| |destruct NA]; cbn [bind]; apply (IH (Datatypes.S first)); try assumption; cbn [line_delta display_file number naming];
      rewrite ?MV, ?NA; [lia|congruence|lia|reflexivity].
  - assert (ST : number marks n = number marks lo + Z.of_nat n - Z.of_nat lo /\ naming names base n = naming names base lo).
    { apply steady; [lia|]. intros k K. apply HN; [lia|]. intros f2 w2 a2 [E|E]; [discriminate E|].
      pose proof (in_order_dir _ _ _ _ _ _ O2 E). lia. }
    destruct ST as [ST1 ST2]. pose proof (HT n (or_introl eq_refl)) as B.
    assert (E1 : number marks n = Z.of_nat n + line_delta f) by lia.
    cbn [preprocess2 toks map]. unfold display. cbv zeta. rewrite <- E1.
    replace ((- 2 ^ 31 <=? number marks n) && (number marks n <? 2 ^ 31)) with true by (symmetry; apply andb_true_iff; split; lia).
    cbn [bind]. rewrite (IH n f); [cbn [bind]; rewrite ST2, I2; reflexivity|exact O2|exact P2|..].
    + intros; eapply HD; right; eassumption.
    + intros k K Q. apply HN; [lia|]. intros f2 w2 a2 [E|E]; [discriminate E|exact (Q _ _ _ E)].
    + intros; apply HT; right; assumption.
    + exact E1.
    + congruence.
Qed.

Theorem line_main : forall marks names base l, in_order 1 l -> Forall plain_item l -> marked l marks names ->
  (forall k v, marks k = Some v -> v < 2 ^ 31) ->
  (forall n, In (Tok n) l -> number marks n < 2 ^ 31) ->
  preprocess2 (mkfile 0 base) l = Ok (map (fun n => (number marks n, naming names base n)) (toks l)).
Proof.
  intros marks names base l O P [M1 M2] VB TB.
  assert (Z0 : marks 0%nat = None /\ names 0%nat = None).
  { apply M2. intros f w a K. pose proof (in_order_dir _ _ _ _ _ _ O K). lia. }
  assert (NN : forall n, 0 <= number marks n).
  { induction n as [|n IH]; [cbn; lia|]. cbn [number]. destruct (marks n) as [v|] eqn:E; [|lia].
    destruct (existsb (fun i => match i with Dir _ k _ _ => Nat.eqb k n | Tok _ => false end) l) eqn:X.
    - apply existsb_exists in X. destruct X as [[f k w a|m] [K1 K2]]; [|discriminate K2]. apply Nat.eqb_eq in K2. subst k.
      destruct (M1 _ _ _ _ K1) as [[v' [[S1 [S2 S3]] E']] _]. rewrite E in E'. injection E' as <-. rewrite <- S3.
      apply (value_nonneg 10 w); [cbn; tauto|exact (digit10 _ S1)|lia].
    - destruct (M2 n) as [Q _]; [|rewrite Q in E; discriminate E]. intros f w a K.
      assert (T : existsb (fun i => match i with Dir _ k _ _ => Nat.eqb k n | Tok _ => false end) l = true).
      { apply existsb_exists. exists (Dir f n w a). split; [exact K|apply Nat.eqb_refl]. }
      rewrite T in X. discriminate X. }
  apply (run marks names base l 1%nat); [exact O|exact P| | | | |].
  - intros f k w a K. destruct (M1 _ _ _ _ K) as [[v [S E]] N]. split; [exists v; repeat split; try apply S; [exact E|exact (VB _ _ E)]|exact N].
  - intros k _ Q. exact (M2 k Q).
  - intros n K. pose proof (NN n). pose proof (TB n K). lia.
  - cbn [number line_delta]. rewrite (proj1 Z0). reflexivity.
  - cbn [naming display_file]. rewrite (proj2 Z0). reflexivity.
Qed.
