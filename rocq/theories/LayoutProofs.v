(** C22: layout of structs and unions. *)
From Coq Require Import ZArith List Bool Lia.
From Verif Require Import Base FrameSpec FrameModel FrameProofs FrameVars LayoutSpec LayoutModel.
Import ListNotations.
Local Open Scope Z_scope.

Definition room (m : member) : Z := 16 * m_size m + 8 * m_align m + 8 * m_alt m.

Lemma least_mult n a r : 0 < a -> n <= r < n + a -> (a | r) -> least (fun s => (a | s)) n r.
Proof.
  intros A N D. split; [lia|]. split; [exact D|]. intros s H [k ->]. destruct D as [j ->]. assert (k < j) by (apply (Z.mul_lt_mono_pos_r a); lia). pose proof (Z.mul_le_mono_nonneg_r k (j - 1) a ltac:(lia) ltac:(lia)). rewrite Z.mul_sub_distr_r in *. lia.
Qed.
Lemma align_to_least n a r : 0 <= n -> 0 < a -> align_to n a = Ok r -> least (fun s => (a | s)) n r.
Proof. intros N A H. apply align_to_ok in H as [H1 [H2 _]]; [|exact N|exact A]. apply least_mult; assumption. Qed.
Lemma least_both (P Q : Z -> Prop) lo a b : least P lo a -> least Q a b -> P b -> least (fun s => P s /\ Q s) lo b.
Proof.
  intros [A1 [A2 A3]] [B1 [B2 B3]] PB. split; [lia|]. split; [auto|]. intros s H [PS QS]. destruct (Z_lt_le_dec s a); [apply (A3 s); [lia|exact PS]|apply (B3 s); [lia|exact QS]].
Qed.
Lemma least_ext (P Q : Z -> Prop) lo s : (forall x, P x <-> Q x) -> least P lo s -> least Q lo s.
Proof. intros E [A [B C]]. split; [exact A|]. split; [apply E; exact B|]. intros x H QX. apply (C x H). apply E. exact QX. Qed.
Lemma least_here (P : Z -> Prop) lo : P lo -> least P lo lo.
Proof. intros H. split; [lia|]. split; [exact H|]. intros; lia. Qed.
Lemma least_stay (P : Z -> Prop) lo s : least P lo s -> P lo -> s = lo.
Proof. intros [A [B C]] H. destruct (Z.eq_dec s lo) as [E|E]; [exact E|]. destruct (C lo ltac:(lia) H). Qed.
Lemma pow2_8 a : pow2 a -> pow2 (8 * a).
Proof. intros [k [K ->]]. exists (3 + k). split; [lia|]. rewrite Z.pow_add_r by lia. reflexivity. Qed.
Lemma pow2_1 : pow2 8. Proof. exists 3. split; [lia|reflexivity]. Qed.
Lemma still_mult x y lo a b : pow2 x -> pow2 y -> least (fun s => (x | s)) lo a -> least (fun s => (y | s)) a b -> (x | b).
Proof.
  intros X Y LA LB. destruct (Z_le_gt_dec x y).
  - eapply Z.divide_trans; [apply pow2_div; [exact X|exact Y|lia]|]. apply LB.
  - assert (b = a) as -> by (apply (least_stay _ _ _ LB); eapply Z.divide_trans; [apply pow2_div; [exact Y|exact X|lia]|apply LA]). apply LA.
Qed.

(** *** The alignment asked for *)
Definition asked_ok (m : member) (s : Z) : Prop := m_alt m <> 0 -> (8 * m_alt m | s).
Lemma alt_bits_ok packed m bits : wf_mem packed m -> 0 <= bits -> bits + room m <= INT_MAX -> exists b1, alt_bits m bits = Ok b1 /\ bits <= b1 <= bits + 8 * m_alt m /\
  (least (asked_ok m) bits b1 \/ (packed = false /\ m_bf m = false /\ b1 = bits /\ 0 < m_alt m <= m_align m)).
Proof.
  intros [W1 [W2 [W3 [W4 W5]]]] B L. unfold room in L. pose proof (pow2_pos _ W2) as AP. assert (INT_MIN <= 0) as IM by (unfold INT_MIN; lia). unfold alt_bits. destruct W3 as [Z0|PA].
  - rewrite Z0. cbn [Z.eqb negb andb]. exists bits. split; [reflexivity|]. split; [lia|]. left. apply least_here. unfold asked_ok. lia.
  - pose proof (pow2_pos _ PA) as AA. rewrite (proj2 (Z.eqb_neq _ _)) by lia. cbn [negb andb]. destruct (_ || _) eqn:C.
    + rewrite int_of_in by lia. cbn [bind]. destruct (align_to_total bits (m_alt m * 8) B ltac:(lia) ltac:(lia)) as [r E]. exists r. split; [exact E|]. pose proof (align_to_ok bits (m_alt m * 8) r B ltac:(lia) E) as [H1 _]. split; [lia|]. left.
      apply align_to_least in E; [|lia|lia]. eapply least_ext; [|exact E]. intros x. unfold asked_ok. rewrite (Z.mul_comm 8). split; [auto|intros H; apply H; lia].
    + apply orb_false_iff in C as [C1 C2]. apply Z.ltb_ge in C1. apply negb_false_iff in C2. exists bits. split; [reflexivity|]. split; [lia|]. right.
      destruct packed; [specialize (W5 eq_refl C2 ltac:(lia)); lia|]. split; [reflexivity|]. destruct (m_bf m) eqn:EB; [destruct (W4 eq_refl) as [_ [_ [_ SU]]]; congruence|]. split; [reflexivity|]. split; [reflexivity|lia].
Qed.
Definition in_unit (u w s : Z) : Prop := exists k, u * k <= s /\ s + w <= u * (k + 1).
Lemma in_unit_div u w s : 0 < u -> 0 <= s -> 0 < w -> (in_unit u w s <-> s / u = (s + w - 1) / u).
Proof.
  intros U B W. split.
  - intros [k [K1 K2]]. rewrite <- (Z.div_unique s u k (s - u * k)) by lia. apply (Z.div_unique _ u k (s + w - 1 - u * k)); lia.
  - intros E. exists (s / u). pose proof (Z.div_mod s u ltac:(lia)). pose proof (Z.mod_pos_bound s u U). pose proof (Z.div_mod (s + w - 1) u ltac:(lia)). pose proof (Z.mod_pos_bound (s + w - 1) u U). rewrite <- E in *. nia.
Qed.
Lemma int_div_ok n d : 0 <= n <= INT_MAX -> 0 < d -> int_div n d = Ok (n / d).
Proof.
  intros N D. unfold int_div. rewrite (proj2 (Z.eqb_neq _ _)) by lia. rewrite Z.quot_div_nonneg by lia. assert (INT_MIN <= 0) by (unfold INT_MIN; lia). pose proof (Z.div_pos n d ltac:(lia) D). pose proof (Z.div_le_upper_bound n d n D ltac:(nia)). apply int_of_in. lia.
Qed.
Lemma unit_bits_ok m u bits : 0 < u -> 0 <= bits -> 0 < m_width m <= u -> bits + u + u <= INT_MAX -> exists b2, unit_bits false m u bits = Ok b2 /\ least (in_unit u (m_width m)) bits b2 /\ b2 <= bits + u /\ (b2 = bits \/ (u | b2)).
Proof.
  intros U B W L. assert (INT_MIN <= 0) as IM by (unfold INT_MIN; lia). unfold unit_bits. rewrite (int_of_in (bits + m_width m)) by lia. cbn [bind]. rewrite int_of_in by lia. cbn [bind]. rewrite !int_div_ok by lia. cbn [bind].
  destruct (_ =? _) eqn:E.
  - apply Z.eqb_eq in E. apply in_unit_div in E; [|lia..]. exists bits. split; [reflexivity|]. split; [apply least_here; exact E|]. split; [lia|auto].
  - apply Z.eqb_neq in E. destruct (align_to_total bits u B U ltac:(lia)) as [r A]. exists r. split; [exact A|]. apply align_to_ok in A as [A1 [A2 _]]; [|lia|lia]. split; [|split; [lia|auto]].
    split; [lia|]. split; [destruct A2 as [k ->]; exists k; nia|]. intros s H I. apply E. apply in_unit_div; [lia..|]. destruct I as [k [K1 K2]]. exists k. split; [|lia]. destruct A2 as [j ->]. assert (k < j) by (apply (Z.mul_lt_mono_pos_l u); lia). pose proof (Z.mul_le_mono_nonneg_l k (j - 1) u ltac:(lia) ltac:(lia)). rewrite Z.mul_sub_distr_l in *. lia.
Qed.
Lemma align_down_ok n a : 0 <= n -> 0 < a -> n + a <= INT_MAX -> align_down n a = Ok (n / a * a).
Proof.
  intros N A L. assert (INT_MIN = - INT_MAX - 1) as IM by reflexivity. unfold align_down. rewrite (int_of_in (n - a)) by lia. cbn [bind]. rewrite int_of_in by lia. cbn [bind]. unfold align_to. rewrite (proj2 (Z.eqb_neq a 0)) by lia.
  rewrite (int_of_in (n - a + 1 + a)) by lia. cbn [bind]. rewrite int_of_in by lia. cbn [bind]. replace (n - a + 1 + a - 1) with n by lia. rewrite Z.quot_div_nonneg by lia.
  pose proof (Z.div_mod n a ltac:(lia)). pose proof (Z.mod_pos_bound n a A). pose proof (Z.div_pos n a N A). apply int_of_in. nia.
Qed.
(** *** One member *)
Lemma place_member_ok packed m bits : wf_mem packed m -> 0 <= bits -> bits + room m + 8 <= INT_MAX ->
  exists o b s, place_member packed bits m = Ok (o, b, s + m_bits m) /\ least (may_start packed m) bits s /\ s + m_bits m <= bits + room m + 8 /\ (kept m = true -> spot packed m s o b).
Proof.
  intros W B L. destruct (alt_bits_ok packed m bits W B ltac:(lia)) as [b1 [E1 [R1 H1]]]. unfold place_member. rewrite E1. cbn [bind].
  destruct W as [W1 [W2 [W3 [W4 W5]]]]. pose proof (pow2_pos _ W2) as AP. unfold room in *. assert (INT_MIN <= 0) as IM by (unfold INT_MIN; lia).
  assert (A0 : 0 <= m_alt m) by (destruct W3 as [->|X]; [lia|pose proof (pow2_pos _ X); lia]).
  assert (PA : m_alt m <> 0 -> pow2 (8 * m_alt m)) by (intros N; destruct W3 as [?|X]; [lia|apply pow2_8; exact X]).
  destruct (m_bf m) eqn:EB.
  - destruct (W4 eq_refl) as [PS [WW [WN _]]]. pose proof (pow2_pos _ PS) as SP. destruct H1 as [H1|[_ [X _]]]; [|congruence].
    destruct (m_width m =? 0) eqn:EW.
    + apply Z.eqb_eq in EW. rewrite long_of_in by lia. cbn [bind]. rewrite int_conv_id by lia. destruct (align_to_total b1 (m_size m * 8) ltac:(lia) ltac:(lia) ltac:(lia)) as [b2 E2]. rewrite E2. cbn [bind].
      pose proof (align_to_ok b1 (m_size m * 8) b2 ltac:(lia) ltac:(lia) E2) as [R2 _]. apply align_to_least in E2; [|lia|lia].
      exists 0, 0, b2. unfold m_bits. rewrite EB, EW, Z.add_0_r. split; [reflexivity|]. split; [|split; [lia|]].
      * eapply least_ext; [|apply (least_both _ _ _ _ _ H1 E2)].
        -- intros x. unfold may_start, asked_ok. rewrite EB, EW. cbn [Z.eqb]. rewrite (Z.mul_comm (m_size m) 8). reflexivity.
        -- intros N. eapply still_mult; [exact (PA N)| |eapply least_ext; [|exact H1]; intros x; unfold asked_ok; split; [intros H; exact (H N)|auto]|exact E2]. rewrite Z.mul_comm. apply pow2_8. exact PS.
      * unfold kept. rewrite EB, (WN EW). discriminate.
    + apply Z.eqb_neq in EW. rewrite int_conv_id by lia. rewrite int_of_in by lia. cbn [bind].
      assert (Q : exists b2, unit_bits packed m (m_size m * 8) b1 = Ok b2 /\ least (fun s => packed = false -> in_unit (m_size m * 8) (m_width m) s) b1 b2 /\ b2 <= b1 + 8 * m_size m /\ (b2 = b1 \/ (packed = false /\ (m_size m * 8 | b2)))).
      { destruct packed.
        - exists b1. split; [reflexivity|]. split; [apply least_here; discriminate|]. split; [lia|auto].
        - destruct (unit_bits_ok m (m_size m * 8) b1 ltac:(lia) ltac:(lia) ltac:(lia) ltac:(lia)) as [b2 [U1 [U2 [U3 U4]]]]. exists b2. split; [exact U1|]. split; [eapply least_ext; [|exact U2]; intros x; split; [auto|intros H; exact (H eq_refl)]|]. split; [lia|]. destruct U4; auto. }
      destruct Q as [b2 [E2 [LQ [R2 D2]]]]. rewrite E2. cbn [bind]. pose proof LQ as [LQ1 [LQ2 _]].
      rewrite Z.quot_div_nonneg by lia. assert (B8 : 0 <= b2 / 8) by (apply Z.div_pos; lia). assert (B8' : b2 / 8 <= b2) by (apply Z.div_le_upper_bound; lia).
      rewrite align_down_ok by lia. cbn [bind]. rewrite int_of_in by lia. cbn [bind]. rewrite (proj2 (Z.eqb_neq _ _)) by lia. rewrite Z.rem_mod_nonneg by lia.
      rewrite Z.div_div by lia.
      exists (b2 / (8 * m_size m) * m_size m), (b2 mod (m_size m * 8)), b2. unfold m_bits. rewrite EB. split; [reflexivity|]. split; [|split; [lia|]].
      * eapply least_ext; [|apply (least_both _ _ _ _ _ H1 LQ)].
        -- intros x. unfold may_start, asked_ok, in_unit. rewrite EB. rewrite (proj2 (Z.eqb_neq _ _)) by lia. rewrite (Z.mul_comm (m_size m) 8). reflexivity.
        -- intros N. destruct D2 as [->|[PF D2]]; [exact (proj1 (proj2 H1) N)|]. destruct (Z_le_gt_dec (8 * m_alt m) (m_size m * 8)) as [LE|GT].
           ++ eapply Z.divide_trans; [|exact D2]. rewrite (Z.mul_comm (m_size m)) in LE |- *. apply pow2_div; [exact (PA N)|apply pow2_8; exact PS|exact LE].
           ++ assert (b2 = b1) as -> by (apply (least_stay _ _ _ LQ); intros _; assert (DU : (m_size m * 8 | b1)) by (eapply Z.divide_trans; [|exact (proj1 (proj2 H1) N)]; rewrite (Z.mul_comm (m_size m)); apply pow2_div; [apply pow2_8; exact PS|exact (PA N)|lia]); destruct DU as [k ->]; exists k; nia).
              exact (proj1 (proj2 H1) N).
      * intros _. unfold spot. rewrite EB. rewrite (Z.mul_comm (m_size m) 8) in *. pose proof (Z.div_mod b2 (8 * m_size m) ltac:(lia)) as DM. pose proof (Z.mod_pos_bound b2 (8 * m_size m) ltac:(lia)) as MB. split; [nia|]. split; [apply Z.divide_factor_r|]. split; [exact MB|].
        intros PF. destruct (LQ2 PF) as [k [K1 K2]]. assert (k = b2 / (8 * m_size m)) as -> by (apply (Z.div_unique b2 (8 * m_size m) k (b2 - 8 * m_size m * k)); lia). nia.
  - assert (Q : exists a, (if packed then Ok 8 else int_of (m_align m * 8)) = Ok a /\ a = (if packed then 8 else 8 * m_align m)) by (destruct packed; [eauto|rewrite int_of_in by lia; eexists; split; [reflexivity|lia]]).
    destruct Q as [a [EA AV]]. rewrite EA. cbn [bind]. assert (P2A : pow2 a /\ 8 <= a <= 8 * m_align m) by (destruct packed; subst a; [split; [apply pow2_1|lia]|split; [apply pow2_8; exact W2|lia]]). destruct P2A as [P2A AB].
    destruct (align_to_total b1 a ltac:(lia) ltac:(lia) ltac:(lia)) as [b2 E2]. rewrite E2. cbn [bind]. pose proof (align_to_ok b1 a b2 ltac:(lia) ltac:(lia) E2) as [R2 _]. apply align_to_least in E2; [|lia|lia].
    rewrite long_of_in by lia. cbn [bind]. rewrite long_of_in by lia. cbn [bind]. rewrite int_conv_id by lia.
    assert (D8 : (8 | b2)) by (eapply Z.divide_trans; [apply (pow2_div 8 a); [apply pow2_1|exact P2A|lia]|apply E2]).
    exists (Z.quot b2 8), 0, b2. unfold m_bits. rewrite EB. rewrite (Z.mul_comm 8 (m_size m)). split; [reflexivity|]. split; [|split; [lia|]].
    + assert (MS : forall x, may_start packed m x <-> asked_ok m x /\ (a | x)).
      { intros x. unfold may_start, asked_ok. rewrite EB. subst a. destruct packed; (split; [intros [X [Y Z0]]; split; auto|intros [X Y]; split; [exact X|]; split]); try exact Y; try discriminate; auto. eapply Z.divide_trans; [|exact Y]. apply Z.divide_factor_l. }
      eapply least_ext; [intros x; symmetry; apply MS|]. destruct H1 as [H1|[PF [_ [-> [AL1 AL2]]]]].
      * apply (least_both _ _ _ _ _ H1 E2). intros N. eapply still_mult; [exact (PA N)|exact P2A|eapply least_ext; [|exact H1]; intros x; unfold asked_ok; split; [intros H; exact (H N)|auto]|exact E2].
      * subst packed. eapply least_ext; [|exact E2]. intros x. split; [|intros [_ H]; exact H]. intros H. split; [|exact H]. intros N. eapply Z.divide_trans; [|exact H]. subst a. apply pow2_div; [exact (PA N)|apply pow2_8; exact W2|lia].
    + intros _. unfold spot. rewrite EB. split; [|reflexivity]. rewrite Z.quot_div_nonneg by lia. destruct D8 as [k ->]. rewrite Z.div_mul by lia. lia.
Qed.
(** *** All members *)
Definition needs (ms : list member) : Z := fold_right (fun m n => room m + 8 + n) 0 ms.
Lemma room_pos packed m : wf_mem packed m -> 0 <= room m /\ 8 * m_align m <= room m /\ 8 * m_alt m <= room m /\ 0 <= m_alt m /\ 0 < m_align m.
Proof. intros [W1 [W2 [W3 _]]]. unfold room. pose proof (pow2_pos _ W2). assert (0 <= m_alt m) by (destruct W3 as [->|X]; [lia|pose proof (pow2_pos _ X); lia]). lia. Qed.
Lemma needs_pos packed ms : Forall (wf_mem packed) ms -> 0 <= needs ms.
Proof. induction 1 as [|m ms W F IH]; cbn [needs fold_right]; [lia|]. fold (needs ms). pose proof (room_pos _ _ W). lia. Qed.
Definition matches (packed : bool) (x : placed) (y : member * Z) : Prop :=
  fst (fst x) = fst y /\ spot packed (fst y) (snd y) (snd (fst x)) (snd x).
Definition keep2 (y : member * Z) : bool := kept (fst y).
Lemma struct_loop_ok packed : forall ms bits alt, Forall (wf_mem packed) ms -> 0 <= bits -> bits + needs ms <= INT_MAX ->
  exists l e lay, struct_loop packed bits alt ms = Ok (l, e, fold_left (next_align packed) ms alt) /\ layout packed bits ms lay e /\
    Forall2 (matches packed) l (filter keep2 lay) /\ bits <= e <= bits + needs ms.
Proof.
  induction ms as [|m ms IH]; intros bits alt W B L.
  - exists [], bits, []. cbn. split; [reflexivity|]. split; [constructor|]. split; [constructor|lia].
  - inversion W as [|? ? Wm Ws]; subst. cbn [needs fold_right] in L |- *. fold (needs ms) in L |- *. pose proof (needs_pos _ _ Ws) as NP. pose proof (room_pos _ _ Wm) as RP.
    destruct (place_member_ok packed m bits Wm B ltac:(lia)) as [o [b [s [E [LS [SR SP]]]]]]. cbn [struct_loop fold_left]. rewrite E. cbn [bind fst snd]. pose proof LS as [LS1 _].
    assert (MB : 0 <= m_bits m) by (destruct Wm as [W1 [_ [_ [W4 _]]]]; unfold m_bits; destruct (m_bf m); [destruct (W4 eq_refl); lia|lia]).
    destruct (IH (s + m_bits m) (next_align packed alt m) Ws ltac:(lia) ltac:(lia)) as [l [e [lay [I1 [I2 [I3 I4]]]]]]. rewrite I1. cbn [bind fst snd].
    eexists _, e, ((m, s) :: lay). split; [reflexivity|]. split; [econstructor; [exact LS|exact I2]|]. split; [|lia]. cbn [filter]. unfold keep2 at 1. cbn [fst]. destruct (kept m) eqn:EK; [|exact I3].
    constructor; [|exact I3]. split; [reflexivity|]. cbn [fst snd]. exact (SP eq_refl).
Qed.
Lemma fold_align packed : forall ms alt, 0 <= alt -> Forall (wf_mem packed) ms ->
  let a := fold_left (next_align packed) ms alt in
  (a = alt \/ In a (flat_map (fun m => if packed then [m_alt m] else [m_alt m; m_align m]) (filter kept ms))) /\ alt <= a /\
  (forall y, In y (flat_map (fun m => if packed then [m_alt m] else [m_alt m; m_align m]) (filter kept ms)) -> y <= a) /\ 8 * a <= 8 * alt + needs ms.
Proof.
  induction ms as [|m ms IH]; intros alt A W a; subst a; [cbn; repeat split; try lia; auto; intros y []|]. inversion W as [|? ? Wm Ws]; subst. cbn [fold_left filter needs fold_right]. fold (needs ms). pose proof (room_pos _ _ Wm) as RP. pose proof (needs_pos _ _ Ws) as NP.
  assert (NA : alt <= next_align packed alt m) by (unfold next_align; destruct (kept m), packed; lia).
  assert (NB : 8 * next_align packed alt m <= 8 * alt + room m) by (unfold next_align; destruct (kept m), packed; lia).
  destruct (IH (next_align packed alt m) ltac:(lia) Ws) as [I1 [I2 [I3 I4]]]. set (a := fold_left _ ms _) in *. clearbody a. unfold next_align in *. destruct (kept m) eqn:EK; [|repeat split; auto; lia].
  cbn [flat_map]. split; [|split; [lia|split; [|lia]]].
  - destruct I1 as [->|I1]; [|right; apply in_or_app; auto].
    destruct packed; cbn [In app].
    + destruct (Z.max_spec alt (m_alt m)) as [[_ ->]|[_ ->]]; auto.
    + destruct (Z.max_spec (Z.max alt (m_align m)) (m_alt m)) as [[_ ->]|[_ ->]]; auto. destruct (Z.max_spec alt (m_align m)) as [[_ ->]|[_ ->]]; auto.
  - intros y Hy. apply in_app_or in Hy as [Hy|Hy]; [|auto]. destruct packed; cbn [In] in Hy; destruct Hy as [<-|Hy]; try lia; try destruct Hy as [<-|[]]; lia.
Qed.
Lemma final_align packed ms alt : 0 <= alt -> Forall (wf_mem packed) ms -> let a := fold_left (next_align packed) ms alt in
  greatest (demands packed alt ms) (if a =? 0 then 1 else a) /\ 0 < (if a =? 0 then 1 else a) /\ 8 * (if a =? 0 then 1 else a) <= 8 * alt + needs ms + 8.
Proof.
  intros A W a. destruct (fold_align packed ms alt A W) as [F1 [F2 [F3 F4]]]. fold a in F1, F2, F3, F4. clearbody a. pose proof (needs_pos _ _ W). unfold greatest, demands. destruct (a =? 0) eqn:E.
  - apply Z.eqb_eq in E. split; [|lia]. split; [left; reflexivity|]. intros y [<-|[<-|Hy]]; [lia|lia|specialize (F3 y Hy); lia].
  - apply Z.eqb_neq in E. split; [|lia]. split; [destruct F1 as [->|F1]; [right; left; reflexivity|right; right; exact F1]|]. intros y [<-|[<-|Hy]]; [lia|lia|specialize (F3 y Hy); lia].
Qed.
Theorem struct_ok packed alt ms : Forall (wf_mem packed) ms -> 0 <= alt -> 2 * needs ms + 8 * alt + 16 <= INT_MAX ->
  exists l size al lay e, struct_decl packed alt ms = Ok (l, size, al) /\ layout packed 0 ms lay e /\ Forall2 (matches packed) l (filter keep2 lay) /\
    greatest (demands packed alt ms) al /\ least (fun s => (8 * al | s)) e (8 * size).
Proof.
  intros W A L. pose proof (needs_pos _ _ W) as NP. destruct (struct_loop_ok packed ms 0 alt W ltac:(lia) ltac:(lia)) as [l [e [lay [E [LY [F R]]]]]]. unfold struct_decl. rewrite E. cbn [bind fst snd]. destruct (final_align packed ms alt A W) as [G1 [G2 G3]].
  assert (INT_MIN <= 0) as IM by (unfold INT_MIN; lia).
  set (a := fold_left _ ms alt) in *. clearbody a. set (al := if a =? 0 then 1 else a) in *.
  assert (Q : exists s, (if (a =? 0) && packed then align_to e 8 else do x <- int_of (al * 8); align_to e x) = Ok s /\ least (fun s => (8 * al | s)) e s /\ 0 <= s).
  { assert (X : exists s, align_to e (8 * al) = Ok s /\ least (fun s => (8 * al | s)) e s /\ 0 <= s).
    { destruct (align_to_total e (8 * al) ltac:(lia) ltac:(lia) ltac:(lia)) as [s ES]. exists s. split; [exact ES|]. pose proof (align_to_ok e (8 * al) s ltac:(lia) ltac:(lia) ES) as [S1 _]. split; [apply align_to_least; [lia|lia|exact ES]|lia]. }
    destruct ((a =? 0) && packed) eqn:C; [apply andb_true_iff in C as [C _]; unfold al in *; rewrite C in *; exact X|]. rewrite int_of_in by lia. cbn [bind]. rewrite Z.mul_comm. exact X. }
  destruct Q as [s [ES [LS S0]]]. exists l, (Z.quot s 8), al, lay, e. split; [|split; [exact LY|split; [exact F|split; [exact G1|]]]].
  - destruct ((a =? 0) && packed); [rewrite ES; reflexivity|]. destruct (int_of (al * 8)) as [x| |]; cbn [bind] in ES |- *; try discriminate. rewrite ES. reflexivity.
  - rewrite Z.quot_div_nonneg by lia. pose proof LS as [_ [[k K] _]]. assert (s = 8 * (al * k)) by lia. replace (8 * (s / 8)) with s; [exact LS|]. rewrite H at 2. rewrite (Z.mul_comm 8 (al * k)), Z.div_mul by lia. lia.
Qed.
(** *** What the layout means *)
Definition ends (y : member * Z) : Z := snd y + m_bits (fst y).
Lemma layout_facts packed : forall lo ms lay e, layout packed lo ms lay e -> Forall (fun m => 0 <= m_bits m) ms ->
  map fst lay = ms /\ lo <= e /\ Forall (fun y => lo <= snd y /\ ends y <= e /\ may_start packed (fst y) (snd y)) lay /\ ForallOrdPairs (fun x y => ends x <= snd y) lay.
Proof.
  induction 1 as [e|lo m s r l e LS LY IH]; intros F; [repeat split; [lia|constructor|constructor]|]. inversion F as [|? ? Fm Fr]; subst. destruct (IH Fr) as [I1 [I2 [I3 I4]]]. destruct LS as [L1 [L2 _]].
  split; [cbn [map fst]; congruence|]. split; [lia|]. split.
  - constructor; [cbn [fst snd]; unfold ends; cbn [fst snd]; repeat split; try lia; try exact L2; apply L2|]. eapply Forall_impl; [|exact I3]. intros y [Y1 [Y2 Y3]]. repeat split; try lia; apply Y3.
  - constructor; [|exact I4]. eapply Forall_impl; [|exact I3]. intros y [Y1 _]. unfold ends. cbn [fst snd]. exact Y1.
Qed.
Definition pos (x : placed) : Z := 8 * snd (fst x) + snd x.
Definition mem (x : placed) : member := fst (fst x).
Lemma fop_filter {A} (R : A -> A -> Prop) f l : ForallOrdPairs R l -> ForallOrdPairs R (filter f l).
Proof.
  induction 1 as [|x l F O IH]; cbn [filter]; [constructor|]. destruct (f x); [|exact IH]. constructor; [|exact IH]. apply Forall_forall. intros y Hy. apply filter_In in Hy as [Hy _]. rewrite Forall_forall in F. auto.
Qed.
Lemma fop_forall2 {A B} (R : A -> A -> Prop) (Q : B -> B -> Prop) (M : A -> B -> Prop) : (forall x y x' y', M x y -> M x' y' -> Q y y' -> R x x') -> forall l l', Forall2 M l l' -> ForallOrdPairs Q l' -> ForallOrdPairs R l.
Proof.
  intros H. induction 1 as [|x y l l' MX F IH]; intros O; [constructor|]. inversion O as [|? ? O1 O2]; subst. constructor; [|auto]. clear -H MX F O1. induction F as [|a b l l' MA F IH]; [constructor|]. inversion O1; subst. constructor; [eapply H; eauto|auto].
Qed.
Lemma forall2_in {A B} (M : A -> B -> Prop) l l' x : Forall2 M l l' -> In x l -> exists y, In y l' /\ M x y.
Proof. induction 1 as [|a b l l' MA F IH]; intros []; [subst; exists b; split; [left; reflexivity|exact MA]|]. destruct (IH H) as [y [Y1 Y2]]. exists y. split; [right; exact Y1|exact Y2]. Qed.
Theorem struct_members_ok packed alt ms : Forall (wf_mem packed) ms -> 0 <= alt -> 2 * needs ms + 8 * alt + 16 <= INT_MAX -> forall l size al, struct_decl packed alt ms = Ok (l, size, al) ->
  map mem l = filter kept ms /\ ForallOrdPairs (fun x y => pos x + m_bits (mem x) <= pos y) l /\ (al | size) /\
  forall x, In x l -> 0 <= pos x /\ pos x + m_bits (mem x) <= 8 * size /\ may_start packed (mem x) (pos x) /\
    (m_bf (mem x) = true -> packed = false -> m_align (mem x) = m_size (mem x) -> pow2 alt \/ alt = 0 -> 0 <= snd (fst x) /\ snd (fst x) + m_size (mem x) <= size).
Proof.
  intros W A L l size al H. destruct (struct_ok packed alt ms W A L) as [l' [size' [al' [lay [e [E [LY [F [G LS]]]]]]]]]. rewrite E in H. injection H as -> -> ->.
  assert (FB : Forall (fun m => 0 <= m_bits m) ms) by (eapply Forall_impl; [|exact W]; intros m [W1 [_ [_ [W4 _]]]]; unfold m_bits; destruct (m_bf m); [destruct (W4 eq_refl); lia|lia]).
  destruct (layout_facts _ _ _ _ _ LY FB) as [I1 [I2 [I3 I4]]].
  assert (PS : forall x y, matches packed x y -> pos x = snd y /\ mem x = fst y) by (intros x y [M1 [M2 _]]; unfold pos, mem; auto).
  split; [|split; [|split]].
  - rewrite <- I1. clear -F PS. assert (map mem l = map fst (filter keep2 lay)) as -> by (induction F as [|x y l l' MX F IH]; [reflexivity|cbn [map]; rewrite IH; f_equal; apply PS; exact MX]). clear. induction lay as [|y lay IH]; [reflexivity|]. cbn [filter map]. unfold keep2 at 1. destruct (kept (fst y)); cbn [map]; congruence.
  - eapply fop_forall2; [|exact F|apply fop_filter; exact I4]. intros x y x' y' M1 M2 Q. destruct (PS _ _ M1) as [-> ->]. destruct (PS _ _ M2) as [-> _]. exact Q.
  - destruct LS as [_ [[k K] _]]. exists k. lia.
  - intros x Hx. destruct (forall2_in _ _ _ _ F Hx) as [y [Hy MX]]. destruct (PS _ _ MX) as [P1 P2]. apply filter_In in Hy as [Hy KY]. pose proof Hy as Hy'. rewrite Forall_forall in I3. destruct (I3 y Hy) as [Y1 [Y2 Y3]]. unfold ends in Y2. destruct LS as [LS1 [LS2 _]].
    rewrite P1, P2. split; [exact Y1|]. split; [lia|]. split; [exact Y3|]. intros BF PF AS PA. destruct MX as [M1 [M2 M3]]. rewrite BF in M3. destruct M3 as [D [BB BW]]. specialize (BW PF).
    assert (HM : In (fst y) ms) by (rewrite <- I1; apply in_map; exact Hy'). rewrite Forall_forall in W. pose proof (W _ HM) as [W1 [W2 [W3 [W4 W5]]]]. destruct (W4 BF) as [PSZ [WW [WN SU]]]. pose proof (pow2_pos _ PSZ) as SP.
    assert (WP : 0 < m_width (fst y)) by (destruct (Z.eq_dec (m_width (fst y)) 0) as [Z0|]; [unfold keep2, kept in KY; rewrite BF, (WN Z0) in KY; discriminate|lia]).
    assert (AL : (m_size (fst y) | al)).
    { destruct G as [G1 G2]. assert (m_align (fst y) <= al) by (apply G2; unfold demands; do 2 right; apply in_flat_map; exists (fst y); split; [apply filter_In; split; [exact HM|exact KY]|rewrite PF; cbn; auto]).
      rewrite <- AS. apply pow2_div; [exact W2| |lia]. unfold demands in G1. destruct G1 as [<-|[<-|G1]]; [exists 0; split; [lia|reflexivity]|destruct PA as [PA| ->]; [exact PA|pose proof (pow2_pos _ W2); lia]|].
      apply in_flat_map in G1 as [m [Hm G1]]. apply filter_In in Hm as [Hm _]. destruct (W _ Hm) as [V1 [V2 [V3 _]]]. rewrite PF in G1. destruct G1 as [<-|[<-|[]]]; [destruct V3 as [V3|V3]; [pose proof (pow2_pos _ W2); lia|exact V3]|exact V2]. }
    assert (DS : (m_size (fst y) | size)) by (eapply Z.divide_trans; [exact AL|]; destruct LS2 as [k K]; exists k; lia).
    destruct D as [i D]. destruct DS as [j DJ]. rewrite D in *. rewrite DJ in *. unfold m_bits in Y2. rewrite BF in Y2.
    assert (8 * (i * m_size (fst y)) < 8 * (j * m_size (fst y))) by lia. assert (i < j) by nia. assert (-1 < i) by nia. nia.
Qed.
(** *** Unions *)
Lemma union_size_ok packed m : wf_mem packed m -> room m + 8 <= INT_MAX -> exists sz, union_size m = Ok sz /\ 0 <= sz <= room m + 8 /\ least (fun s => (8 | s)) (m_bits m) (8 * sz).
Proof.
  intros W L. pose proof (room_pos _ _ W) as RP. destruct W as [W1 [_ [_ [W4 _]]]]. unfold union_size, m_bits, room in *. destruct (m_bf m).
  - destruct (W4 eq_refl) as [_ [WW _]]. destruct (align_to_total (m_width m) 8 ltac:(lia) ltac:(lia) ltac:(lia)) as [r E]. rewrite E. cbn [bind]. pose proof (align_to_ok (m_width m) 8 r ltac:(lia) ltac:(lia) E) as [R1 [[k K] _]]. apply align_to_least in E; [|lia|lia]. exists (Z.quot r 8). split; [reflexivity|].
    rewrite Z.quot_div_nonneg by lia. subst r. rewrite Z.div_mul by lia. split; [lia|]. rewrite Z.mul_comm. exact E.
  - assert (INT_MIN <= 0) by (unfold INT_MIN; lia). rewrite int_conv_id by lia. exists (m_size m). split; [reflexivity|]. split; [lia|]. apply least_here. apply Z.divide_factor_l.
Qed.
Lemma union_loop_ok packed : forall ms size alt, Forall (wf_mem packed) ms -> needs ms <= INT_MAX ->
  exists size', union_loop packed size alt ms = Ok (filter kept ms, size', fold_left (next_align packed) ms alt) /\ size <= size' /\ (size' = size \/ exists m, In m ms /\ least (fun s => (8 | s)) (m_bits m) (8 * size')) /\
    (forall m, In m ms -> m_bits m <= 8 * size') /\ size' <= Z.max size (needs ms).
Proof.
  induction ms as [|m ms IH]; intros size alt W L; [exists size; cbn; repeat split; auto; try lia; intros m []|]. inversion W as [|? ? Wm Ws]; subst. cbn [needs fold_right] in L |- *. fold (needs ms) in L |- *. pose proof (needs_pos _ _ Ws) as NP. pose proof (room_pos _ _ Wm) as RP.
  destruct (union_size_ok packed m Wm ltac:(lia)) as [sz [E [S1 S2]]]. cbn [union_loop fold_left filter]. rewrite E. cbn [bind]. destruct (IH (Z.max size sz) (next_align packed alt m) Ws ltac:(lia)) as [size' [I1 [I2 [I3 [I4 I5]]]]]. rewrite I1. cbn [bind fst snd]. exists size'.
  split; [destruct (kept m); reflexivity|]. split; [lia|]. split; [|split; [|lia]].
  - destruct I3 as [->|[m' [M1 M2]]]; [|right; exists m'; split; [right; exact M1|exact M2]]. destruct (Z.max_spec size sz) as [[_ ->]|[_ ->]]; [right; exists m; split; [left; reflexivity|exact S2]|auto].
  - intros m' [<-|Hm]; [destruct S2 as [S2 _]; lia|auto].
Qed.
Theorem union_ok packed alt ms : Forall (wf_mem packed) ms -> 0 <= alt -> 2 * needs ms + 8 * alt + 16 <= INT_MAX ->
  exists size al, union_decl packed alt ms = Ok (map (fun m => (m, 0, 0)) (filter kept ms), size, al) /\ greatest (demands packed alt ms) al /\
    least (fun s => (al | s) /\ forall m, In m ms -> m_bits m <= 8 * s) 0 size.
Proof.
  intros W A L. pose proof (needs_pos _ _ W) as NP. destruct (union_loop_ok packed ms (-1) alt W ltac:(lia)) as [sz [E [S1 [S2 [S3 S4]]]]]. unfold union_decl. rewrite E. cbn [bind fst snd]. destruct (final_align packed ms alt A W) as [G1 [G2 G3]].
  assert (INT_MIN <= 0) as IM by (unfold INT_MIN; lia). set (al := if _ =? 0 then _ else _) in *. clearbody al. rewrite int_conv_id by lia.
  destruct (align_to_total (Z.max sz 0) al ltac:(lia) ltac:(lia) ltac:(lia)) as [s ES]. rewrite ES. cbn [bind]. exists s, al. split; [reflexivity|]. split; [exact G1|]. apply align_to_least in ES; [|lia|lia]. destruct ES as [E1 [E2 E3]].
  split; [lia|]. split; [split; [exact E2|intros m Hm; specialize (S3 m Hm); lia]|]. intros s' H [D C]. destruct (Z_lt_le_dec s' (Z.max sz 0)) as [LT|GE]; [|apply (E3 s'); [lia|exact D]].
  destruct S2 as [->|[m [M1 [M2 [M3 M4]]]]]; [lia|]. specialize (C m M1). apply (M4 (8 * s')); [lia|apply Z.divide_factor_l].
Qed.
