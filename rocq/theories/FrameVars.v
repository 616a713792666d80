(** C28: local variables. *)
From Coq Require Import ZArith List Bool Lia.
From Verif Require Import Base FrameSpec FrameModel FrameProofs.
Import ListNotations.
Local Open Scope Z_scope.

Section TreeInd.
Variable A : Type.
Variable P : tree A -> Prop.
Hypothesis H : forall vs cs, Forall P cs -> P (Node vs cs).
Fixpoint tree_ind2 (t : tree A) : P t :=
  match t with
  | Node vs cs => H vs cs ((fix go (cs : list (tree A)) : Forall P cs := match cs with [] => Forall_nil P | c :: r => Forall_cons c (tree_ind2 c) (go r) end) cs)
  end.
End TreeInd.
Lemma align_to_ok n a r : 0 <= n -> 0 < a -> align_to n a = Ok r -> n <= r < n + a /\ (a | r) /\ r <= INT_MAX.
Proof.
  intros N A H. unfold align_to in H. rewrite (proj2 (Z.eqb_neq a 0)) in H by lia.
  destruct (int_of (n + a)) as [x| |] eqn:E1; cbn [bind] in H; try discriminate. apply int_of_ok in E1 as [-> _].
  destruct (int_of (n + a - 1)) as [x| |] eqn:E2; cbn [bind] in H; try discriminate. apply int_of_ok in E2 as [-> _].
  apply int_of_ok in H as [-> [_ M]]. rewrite Z.quot_div_nonneg by lia. pose proof (Z.div_mod (n + a - 1) a ltac:(lia)). pose proof (Z.mod_pos_bound (n + a - 1) a A).
  split; [nia|]. split; [apply Z.divide_factor_r|]. rewrite Z.quot_div_nonneg in M by lia. exact M.
Qed.
Lemma align_to_total n a : 0 <= n -> 0 < a -> n + a <= INT_MAX -> exists r, align_to n a = Ok r.
Proof.
  intros N A L. unfold align_to. rewrite (proj2 (Z.eqb_neq a 0)) by lia. assert (INT_MIN <= 0) by (unfold INT_MIN; lia). rewrite (int_of_in (n + a)) by lia. cbn [bind]. rewrite (int_of_in (n + a - 1)) by lia. cbn [bind].
  pose proof (Z.div_mod (n + a - 1) a ltac:(lia)). pose proof (Z.mod_pos_bound (n + a - 1) a A). assert (0 <= (n + a - 1) / a) by (apply Z.div_pos; lia). rewrite Z.quot_div_nonneg by lia. rewrite int_of_in by nia. eauto.
Qed.
Definition wf_var (v : lvar) : Prop := 0 <= lsize v /\ 0 < lalign v.
Lemma var_align_pos v : wf_var v -> 0 < var_align v.
Proof. intros [A B]. unfold var_align. destruct (_ && _); [lia|]. destruct (lvla v); lia. Qed.
Definition indep (x y : lvar * Z) : Prop :=
  lstack (fst x) = false -> lstack (fst y) = false -> apart (snd x) (lsize (fst x)) (snd y) (lsize (fst y)).
Definition within (b d : Z) (x : lvar * Z) : Prop :=
  if lstack (fst x) then snd x = lstackofs (fst x) + 16
  else - d <= snd x /\ snd x + lsize (fst x) <= - b /\ (var_align (fst x) | snd x).
Lemma within_weak b d b' d' x : b' <= b -> d <= d' -> within b d x -> within b' d' x.
Proof. unfold within. destruct (lstack (fst x)); [auto|]. intros A B [C [D E]]. repeat split; try lia. exact E. Qed.
Lemma within_indep b d b' d' x y : within b d x -> within b' d' y -> d <= b' -> indep x y.
Proof. unfold within, indep, apart. intros X Y L SX SY. rewrite SX in X. rewrite SY in Y. lia. Qed.
Lemma fop_app {A} (R : A -> A -> Prop) l1 l2 : ForallOrdPairs R l1 -> ForallOrdPairs R l2 -> (forall x y, In x l1 -> In y l2 -> R x y) -> ForallOrdPairs R (l1 ++ l2).
Proof.
  induction 1 as [|x l F O IH]; intros F2 C; [exact F2|]. cbn [app]. constructor; [|apply IH; [exact F2|intros; apply C; [right; assumption|assumption]]].
  apply Forall_app. split; [exact F|]. apply Forall_forall. intros y Hy. apply C; [left; reflexivity|exact Hy].
Qed.
(** *** There is room *)
Definition need (l : list lvar) : Z := fold_right (fun v n => lsize v + var_align v + n) 0 l.
Lemma need_pos l : Forall wf_var l -> 0 <= need l.
Proof. induction 1 as [|v l W F IH]; cbn [need fold_right]; [lia|]. fold (need l). pose proof (var_align_pos v W). destruct W. lia. Qed.
Lemma need_app a b : need (a ++ b) = need a + need b.
Proof. induction a as [|v a IH]; cbn [need fold_right app]; [reflexivity|]. fold (need (a ++ b)) (need a). lia. Qed.
Definition ofs_fits (v : lvar) : Prop := 0 <= lstackofs v <= INT_MAX - 16.
Lemma int_conv_id z : INT_MIN <= z <= INT_MAX -> int_conv z = z.
Proof. unfold int_conv, sext, INT_MIN, INT_MAX. intros H. destruct (Z_lt_le_dec z 0); [rewrite <- (Z.mod_unique z (2^32) (-1) (z + 2^32)) by lia; rewrite (proj2 (Z.ltb_ge _ _)) by lia; lia|rewrite Z.mod_small by lia; rewrite (proj2 (Z.ltb_lt _ _)) by lia; reflexivity]. Qed.
Lemma long_of_in z : INT_MIN <= z <= INT_MAX -> long_of z = Ok z.
Proof. unfold long_of, INT_MIN, INT_MAX. intros H. rewrite !(proj2 (Z.leb_le _ _)) by lia. reflexivity. Qed.
Lemma assign_vars_ok : forall vs b l d, Forall wf_var vs -> 0 <= b -> b + need vs <= INT_MAX -> assign_vars vs b = Ok (l, d) ->
  map fst l = vs /\ b <= d <= b + need vs /\ (forall x, In x l -> within b d x) /\ ForallOrdPairs indep l.
Proof.
  assert (INT_MIN <= 0) as IM by (unfold INT_MIN; lia).
  induction vs as [|v vs IH]; intros b l d W B L H; cbn [assign_vars] in H; [injection H as <- <-; cbn [need fold_right]; repeat split; [lia|lia|intros x []|constructor]|].
  inversion W as [|? ? Wv Ws]; subst. pose proof (var_align_pos v Wv) as VA. pose proof (need_pos _ Ws) as NP. cbn [need fold_right] in L |- *. fold (need vs) in L |- *. pose proof Wv as [W1 W2]. destruct (lstack v) eqn:ES.
  - destruct (int_of _) as [o| |] eqn:EO; cbn [bind] in H; try discriminate. apply int_of_ok in EO as [-> _]. destruct (assign_vars vs b) as [[l' d']| |] eqn:E; cbn [bind fst snd] in H; try discriminate. injection H as <- <-.
    destruct (IH _ _ _ Ws B ltac:(lia) E) as [I1 [I2 [I3 I4]]]. split; [cbn [map fst]; congruence|]. split; [lia|]. split.
    + intros x [<-|Hx]; [unfold within; cbn [fst snd]; rewrite ES; reflexivity|auto].
    + constructor; [|exact I4]. apply Forall_forall. intros y _ E1. cbn [fst] in E1. congruence.
  - rewrite long_of_in in H by lia. cbn [bind] in H. rewrite int_conv_id in H by lia. destruct (align_to _ _) as [b2| |] eqn:EA; cbn [bind] in H; try discriminate.
    apply align_to_ok in EA as [A1 [A2 A3]]; [|lia|exact VA]. rewrite int_of_in in H by (unfold INT_MIN, INT_MAX in *; lia). cbn [bind] in H. destruct (assign_vars vs b2) as [[l' d']| |] eqn:E; cbn [bind fst snd] in H; try discriminate. injection H as <- <-.
    destruct (IH b2 _ _ Ws ltac:(lia) ltac:(lia) E) as [I1 [I2 [I3 I4]]].
    assert (WX : within b b2 (v, - b2)) by (unfold within; cbn [fst snd]; rewrite ES; repeat split; try lia; apply Z.divide_opp_r; exact A2).
    split; [cbn [map fst]; congruence|]. split; [lia|]. split.
    + intros x [<-|Hx]; [eapply within_weak; [| |exact WX]; lia|eapply within_weak; [| |apply I3; exact Hx]; lia].
    + constructor; [|exact I4]. apply Forall_forall. intros y Hy. eapply within_indep; [exact WX|apply I3; exact Hy|lia].
Qed.
Definition placed_ok (reuse : bool) (b d : Z) (t : tree lvar) (p : tree (lvar * Z)) : Prop :=
  tree_map fst p = t /\ b <= d <= b + need (everything t) /\ (forall x, In x (everything p) -> within b d x) /\
  (forall q, In q (paths p) -> ForallOrdPairs indep q) /\ (reuse = false -> ForallOrdPairs indep (everything p)).
Section Go.
Variable reuse : bool.
Definition go := fix go (cs : list (tree lvar)) (bottom max_depth : Z) : outcome (list (tree (lvar * Z)) * Z) :=
                 match cs with
                 | [] => Ok ([], max_depth)
                 | c :: cs' =>
                     do x <- assign_lvar_offsets reuse c bottom;
                     do y <- (if reuse then go cs' bottom (Z.max max_depth (snd x)) else go cs' (snd x) (snd x));
                     Ok (fst x :: fst y, snd y)
                 end.
Lemma assign_unfold vs cs b : assign_lvar_offsets reuse (Node vs cs) b = (do r <- assign_vars vs b; do q <- go cs (snd r) (snd r); Ok (Node (fst r) (fst q), snd q)).
Proof. reflexivity. Qed.
Lemma go_ok : forall cs, Forall (fun t => Forall wf_var (everything t) -> forall b p d, 0 <= b -> b + need (everything t) <= INT_MAX -> assign_lvar_offsets reuse t b = Ok (p, d) -> placed_ok reuse b d t p) cs ->
  Forall wf_var (flat_map everything cs) -> forall b m ps d, 0 <= b -> b <= m -> (reuse = false -> m = b) -> m + need (flat_map everything cs) <= INT_MAX -> go cs b m = Ok (ps, d) ->
  map (tree_map fst) ps = cs /\ m <= d <= m + need (flat_map everything cs) /\ (forall x, In x (flat_map everything ps) -> within b d x) /\
  (forall q, In q (flat_map paths ps) -> ForallOrdPairs indep q) /\ (reuse = false -> ForallOrdPairs indep (flat_map everything ps)).
Proof.
  induction 1 as [|c cs PC F IH]; intros W b m ps d B M MB L H; cbn [go] in H; [injection H as <- <-; cbn [flat_map need fold_right]; repeat split; [lia|lia|intros x []|intros q []|intros; constructor]|].
  cbn [flat_map] in W, L |- *. rewrite need_app in L |- *. apply Forall_app in W as [W1 W2]. pose proof (need_pos _ W1) as NP1. pose proof (need_pos _ W2) as NP2. specialize (PC W1). fold go in H. destruct (assign_lvar_offsets reuse c b) as [[p d1]| |] eqn:E; cbn [bind fst snd] in H; try discriminate.
  destruct (PC _ _ _ B ltac:(lia) E) as [C1 [C2 [C3 [C4 C5]]]].
  assert (Q : exists b2 m2 ps2, go cs b2 m2 = Ok (ps2, d) /\ ps = p :: ps2 /\ 0 <= b2 /\ b <= b2 /\ b2 <= m2 /\ (reuse = false -> m2 = b2 /\ b2 = d1) /\ m <= m2 <= m + need (everything c) /\ d1 <= m2).
  { destruct reuse.
    - destruct (go cs b (Z.max m d1)) as [[ps2 d2]| |] eqn:G; cbn [bind fst snd] in H; try discriminate. injection H as <- <-. exists b, (Z.max m d1), ps2. repeat split; auto; try lia; discriminate.
    - destruct (go cs d1 d1) as [[ps2 d2]| |] eqn:G; cbn [bind fst snd] in H; try discriminate. injection H as <- <-. exists d1, d1, ps2. specialize (MB eq_refl). repeat split; auto; lia. }
  destruct Q as [b2 [m2 [ps2 [G [-> [B2 [B3 [B4 [B5 [B6 B7]]]]]]]]]]. destruct (IH W2 b2 m2 ps2 d B2 B4 (fun R => proj1 (B5 R)) ltac:(lia) G) as [I1 [I2 [I3 [I4 I5]]]].
  split; [cbn [map]; congruence|]. split; [lia|]. split; [|split].
  - intros x Hx. cbn [flat_map] in Hx. apply in_app_or in Hx as [Hx|Hx]; [eapply within_weak; [| |apply C3; exact Hx]; lia|eapply within_weak; [| |apply I3; exact Hx]; lia].
  - intros q Hq. cbn [flat_map] in Hq. apply in_app_or in Hq as [Hq|Hq]; auto.
  - intros R. cbn [flat_map]. apply fop_app; auto. intros x y Hx Hy. eapply within_indep; [apply C3; exact Hx|apply I3; exact Hy|]. destruct (B5 R). lia.
Qed.
Theorem assign_ok t : Forall wf_var (everything t) -> forall b p d, 0 <= b -> b + need (everything t) <= INT_MAX -> assign_lvar_offsets reuse t b = Ok (p, d) -> placed_ok reuse b d t p.
Proof.
  induction t as [vs cs IH] using tree_ind2. intros W b p d B L H. rewrite assign_unfold in H. cbn [everything] in W, L. rewrite need_app in L. apply Forall_app in W as [W1 W2]. pose proof (need_pos _ W1) as NP1. pose proof (need_pos _ W2) as NP2.
  destruct (assign_vars vs b) as [[l d1]| |] eqn:E; cbn [bind fst snd] in H; try discriminate. destruct (go cs d1 d1) as [[ps d2]| |] eqn:G; cbn [bind fst snd] in H; try discriminate. injection H as <- <-.
  destruct (assign_vars_ok _ _ _ _ W1 B ltac:(lia) E) as [V1 [V2 [V3 V4]]]. destruct (go_ok cs IH W2 d1 d1 ps d2 ltac:(lia) (Z.le_refl _) (fun _ => eq_refl) ltac:(lia) G) as [G1 [G2 [G3 [G4 G5]]]].
  assert (X : forall x y, In x l -> In y (flat_map everything ps) -> indep x y) by (intros x y Hx Hy; eapply within_indep; [apply V3; exact Hx|apply G3; exact Hy|lia]).
  split; [cbn [tree_map]; congruence|]. split; [cbn [everything]; rewrite need_app; lia|]. split; [|split].
  - intros x Hx. cbn [everything] in Hx. apply in_app_or in Hx as [Hx|Hx]; [eapply within_weak; [| |apply V3; exact Hx]; lia|eapply within_weak; [| |apply G3; exact Hx]; lia].
  - intros q Hq. cbn [paths] in Hq. destruct Hq as [<-|Hq]; [exact V4|]. apply in_map_iff in Hq as [q' [<- Hq]]. apply fop_app; [exact V4|apply G4; exact Hq|]. intros x y Hx Hy. apply X; [exact Hx|].
    apply in_flat_map in Hq as [c [Hc Hq]]. apply in_flat_map. exists c. split; [exact Hc|]. clear -Hq Hy. revert q' y Hq Hy. induction c as [vs cs IH] using tree_ind2. intros q y Hq Hy. cbn [paths] in Hq. cbn [everything]. apply in_or_app. destruct Hq as [<-|Hq]; [auto|].
    apply in_map_iff in Hq as [q' [<- Hq]]. apply in_app_or in Hy as [Hy|Hy]; [auto|]. right. apply in_flat_map in Hq as [c [Hc Hq]]. apply in_flat_map. exists c. split; [exact Hc|]. rewrite Forall_forall in IH. eapply IH; eauto.
  - intros R. cbn [everything]. apply fop_app; auto.
Qed.
Lemma assign_vars_total : forall vs b, Forall wf_var vs -> Forall ofs_fits vs -> 0 <= b -> b + need vs <= INT_MAX -> exists l d, assign_vars vs b = Ok (l, d) /\ b <= d <= b + need vs.
Proof.
  assert (INT_MIN <= 0) as IM by (unfold INT_MIN; lia).
  induction vs as [|v vs IH]; intros b W O B L; [exists [], b; cbn; split; [reflexivity|lia]|]. inversion W as [|? ? Wv Ws]; subst. inversion O as [|? ? Ov Os]; subst. cbn [need fold_right] in L. fold (need vs) in L. pose proof (need_pos _ Ws). pose proof (var_align_pos v Wv) as VA. destruct Wv as [W1 W2]. cbn [assign_vars need fold_right]. fold (need vs).
  destruct (lstack v).
  - unfold ofs_fits in Ov. rewrite int_of_in by lia. cbn [bind]. destruct (IH b Ws Os B ltac:(lia)) as [l [d [E D]]]. rewrite E. cbn [bind fst snd]. do 2 eexists. split; [reflexivity|lia].
  - rewrite long_of_in by lia. cbn [bind]. rewrite int_conv_id by lia. destruct (align_to_total (b + lsize v) (var_align v) ltac:(lia) VA ltac:(lia)) as [r E]. rewrite E. cbn [bind]. apply align_to_ok in E as [A1 [_ A2]]; [|lia|lia]. rewrite int_of_in by (unfold INT_MIN, INT_MAX in *; lia). cbn [bind].
    destruct (IH r Ws Os ltac:(lia) ltac:(lia)) as [l [d [E2 D]]]. rewrite E2. cbn [bind fst snd]. do 2 eexists. split; [reflexivity|lia].
Qed.
Theorem assign_total t : Forall wf_var (everything t) -> Forall ofs_fits (everything t) -> forall b, 0 <= b -> b + need (everything t) <= INT_MAX -> exists p d, assign_lvar_offsets reuse t b = Ok (p, d) /\ b <= d <= b + need (everything t).
Proof.
  induction t as [vs cs IH] using tree_ind2. intros W O b B L. cbn [everything] in W, O, L |- *. rewrite need_app in L |- *. apply Forall_app in W as [W1 W2]. apply Forall_app in O as [O1 O2]. pose proof (need_pos _ W2) as NP. pose proof (need_pos _ W1) as NP1.
  rewrite assign_unfold. destruct (assign_vars_total vs b W1 O1 B ltac:(lia)) as [l [d [E D]]]. rewrite E. cbn [bind fst snd].
  assert (G : forall b m, 0 <= b -> b <= m -> (reuse = false -> m = b) -> m + need (flat_map everything cs) <= INT_MAX -> exists ps d, go cs b m = Ok (ps, d) /\ m <= d <= m + need (flat_map everything cs)).
  { clear -IH W2 O2. induction IH as [|c cs PC F IHF]; intros b m B M MB L; [exists [], m; cbn; split; [reflexivity|lia]|]. cbn [flat_map] in *. rewrite need_app in L |- *. apply Forall_app in W2 as [W2 W3]. apply Forall_app in O2 as [O2 O3]. pose proof (need_pos _ W3). pose proof (need_pos _ W2).
    destruct (PC W2 O2 b B ltac:(lia)) as [p [d [E D]]]. cbn [go]. fold go. rewrite E. cbn [bind fst snd]. specialize (IHF W3 O3). destruct reuse.
    - destruct (IHF b (Z.max m d) B ltac:(lia) ltac:(discriminate) ltac:(lia)) as [ps [d2 [E2 D2]]]. rewrite E2. cbn [bind fst snd]. do 2 eexists. split; [reflexivity|lia].
    - specialize (MB eq_refl). destruct (IHF d d ltac:(lia) (Z.le_refl _) (fun _ => eq_refl) ltac:(lia)) as [ps [d2 [E2 D2]]]. rewrite E2. cbn [bind fst snd]. do 2 eexists. split; [reflexivity|lia]. }
  destruct (G d d ltac:(lia) (Z.le_refl _) (fun _ => eq_refl) ltac:(lia)) as [ps [d2 [E2 D2]]]. rewrite E2. cbn [bind fst snd]. do 2 eexists. split; [reflexivity|lia].
Qed.
End Go.
(** *** Alignment of the frame *)
Lemma pow2_pos z : pow2 z -> 0 < z. Proof. intros [k [K ->]]. apply Z.pow_pos_nonneg; lia. Qed.
Lemma pow2_div a b : pow2 a -> pow2 b -> a <= b -> (a | b).
Proof. intros [i [I ->]] [j [J ->]] L. apply Z.pow_le_mono_r_iff in L; [|lia|lia]. exists (2 ^ (j - i)). rewrite <- Z.pow_add_r by lia. f_equal. lia. Qed.
Lemma pow2_max a b : pow2 a -> pow2 b -> pow2 (Z.max a b).
Proof. intros A B. destruct (Z.max_spec a b) as [[_ ->]|[_ ->]]; assumption. Qed.
Lemma lvar_align_ok t : Forall (fun v => pow2 (lalign v)) (everything t) -> forall a, pow2 a ->
  pow2 (get_lvar_align t a) /\ a <= get_lvar_align t a /\ forall v, In v (everything t) -> lstack v = false -> lalign v <= get_lvar_align t a.
Proof.
  induction t as [vs cs IH] using tree_ind2. intros W a A. cbn [everything] in W. apply Forall_app in W as [W1 W2]. cbn [get_lvar_align everything].
  assert (V : forall a, pow2 a -> let r := fold_left (fun a v => if lstack v then a else Z.max a (lalign v)) vs a in pow2 r /\ a <= r /\ forall v, In v vs -> lstack v = false -> lalign v <= r).
  { clear -W1. induction W1 as [|v vs PV F IHV]; intros a A; cbn [fold_left]; [split; [exact A|split; [lia|intros v []]]|].
    assert (A2 : pow2 (if lstack v then a else Z.max a (lalign v))) by (destruct (lstack v); [exact A|apply pow2_max; assumption]). destruct (IHV _ A2) as [I1 [I2 I3]]. split; [exact I1|]. split; [destruct (lstack v); lia|].
    intros u [<-|Hu] S; [rewrite S in I2 |- *; lia|auto]. }
  destruct (V a A) as [V1 [V2 V3]]. set (a1 := fold_left _ vs a) in *. clearbody a1. clear V.
  assert (C : let r := fold_left (fun a c => Z.max a (get_lvar_align c a)) cs a1 in pow2 r /\ a1 <= r /\ forall v, In v (flat_map everything cs) -> lstack v = false -> lalign v <= r).
  { clear -IH W2 V1. revert a1 V1. induction IH as [|c cs PC F IHF]; intros a1 V1; cbn [fold_left flat_map]; [split; [exact V1|split; [lia|intros v []]]|]. cbn [flat_map] in W2. apply Forall_app in W2 as [W2 W3].
    destruct (PC W2 a1 V1) as [P1 [P2 P3]]. destruct (IHF W3 (Z.max a1 (get_lvar_align c a1)) (pow2_max _ _ V1 P1)) as [I1 [I2 I3]]. split; [exact I1|]. split; [lia|].
    intros v Hv S. apply in_app_or in Hv as [Hv|Hv]; [specialize (P3 v Hv S); lia|auto]. }
  destruct C as [C1 [C2 C3]]. split; [exact C1|]. split; [lia|]. intros v Hv S. apply in_app_or in Hv as [Hv|Hv]; [specialize (V3 v Hv S); lia|auto].
Qed.
Lemma frame_ok0 va dv rs reuse t p size : Forall wf_var (everything t) -> 200 + need (everything t) <= INT_MAX -> layout_frame va dv rs reuse t = Ok (p, size) ->
  tree_map fst p = t /\ (8 | size) /\
  (forall v o, In (v, o) (everything p) -> if lstack v then o = lstackofs v + 16 else - size <= o /\ o + lsize v <= - frame_start va dv rs) /\
  (forall q, In q (paths p) -> ForallOrdPairs indep q) /\ (reuse = false -> ForallOrdPairs indep (everything p)) /\
  (Forall (fun v => pow2 (lalign v)) (everything t) -> forall base, (get_lvar_align t 16 | base) -> forall v o, In (v, o) (everything p) -> lstack v = false ->
     (lvla v = false -> (lalign v | base + o)) /\ (lvla v = true -> (8 | base + o)) /\ (larray v = true -> 16 <= lsize v -> (16 | base + o))).
Proof.
  intros W L H. unfold layout_frame in H. destruct (assign_lvar_offsets _ _ _) as [[p' d]| |] eqn:E; cbn [bind fst snd] in H; try discriminate. destruct (align_to d 8) as [s| |] eqn:EA; cbn [bind] in H; try discriminate. injection H as <- <-.
  assert (FS : 0 <= frame_start va dv rs <= 192) by (destruct va, dv, rs; cbn; lia). destruct (assign_ok reuse t W _ _ _ (proj1 FS) ltac:(lia) E) as [A1 [A2 [A3 [A4 A5]]]]. apply align_to_ok in EA as [B1 [B2 _]]; [|lia|lia].
  split; [exact A1|]. split; [exact B2|]. split; [|split; [exact A4|split; [exact A5|]]].
  - intros v o HI. specialize (A3 _ HI). unfold within in A3. cbn [fst snd] in A3. destruct (lstack v); [exact A3|]. lia.
  - intros PW base DB v o HI S. specialize (A3 _ HI). unfold within in A3. cbn [fst snd] in A3. rewrite S in A3. destruct A3 as [_ [_ AD]].
    assert (HV : In v (everything t)).
    { rewrite <- A1. clear -HI. induction p' as [vs cs IH] using tree_ind2. cbn [everything tree_map] in *. apply in_or_app. apply in_app_or in HI as [HI|HI]; [left; exact (in_map fst _ _ HI)|right]. apply in_flat_map in HI as [c [Hc HI]]. apply in_flat_map. exists (tree_map fst c). split; [apply in_map; exact Hc|]. rewrite Forall_forall in IH. apply IH; assumption. }
    assert (P16 : pow2 16) by (exists 4; split; [lia|reflexivity]). destruct (lvar_align_ok t PW 16 P16) as [G1 [G2 G3]]. specialize (G3 v HV S). rewrite Forall_forall in PW. specialize (PW v HV). pose proof (pow2_pos _ PW) as PP.
    assert (D1 : (lalign v | base)) by (eapply Z.divide_trans; [apply pow2_div; [exact PW|exact G1|exact G3]|exact DB]).
    assert (D16 : (16 | base)) by (eapply Z.divide_trans; [apply pow2_div; [exact P16|exact G1|exact G2]|exact DB]).
    assert (D8 : (8 | base)) by (eapply Z.divide_trans; [exists 2; reflexivity|exact D16]).
    unfold var_align in AD. destruct (larray v && (16 <=? lsize v)) eqn:EAR.
    + assert (M16 : (16 | o)) by (eapply Z.divide_trans; [apply pow2_div; [exact P16|apply pow2_max; [exact P16|exact PW]|lia]|exact AD]).
      assert (MA : (lalign v | o)) by (eapply Z.divide_trans; [apply pow2_div; [exact PW|apply pow2_max; [exact P16|exact PW]|lia]|exact AD]).
      repeat split; intros; apply Z.divide_add_r; auto. eapply Z.divide_trans; [exists 2; reflexivity|exact M16].
    + assert (NA : larray v = true -> 16 <= lsize v -> False) by (intros X Y; rewrite X in EAR; cbn [andb] in EAR; apply Z.leb_gt in EAR; lia).
      destruct (lvla v); (split; [intros; try discriminate; apply Z.divide_add_r; assumption|]; split; [intros; try discriminate; apply Z.divide_add_r; assumption|]; intros X Y; destruct (NA X Y)).
Qed.
Definition apart2 (a b : Z * Z) : Prop := apart (fst a) (snd a) (fst b) (snd b).
Lemma fop_skipn {A} (R : A -> A -> Prop) n l : ForallOrdPairs R l -> ForallOrdPairs R (skipn n l).
Proof. revert l. induction n as [|n IH]; intros l H; [exact H|]. destruct l; [exact H|]. inversion H; subst. cbn [skipn]. auto. Qed.
Lemma in_skipn {A} (x : A) n l : In x (skipn n l) -> In x l.
Proof. revert l. induction n as [|n IH]; intros l H; [exact H|]. destruct l; [exact H|]. right. apply IH. exact H. Qed.
Lemma saved_in va dv rs gp fp s : In s (saved va dv rs gp fp) -> - frame_start va dv rs <= fst s /\ fst s + snd s <= 0 /\ 0 < snd s /\ (snd s | fst s).
Proof.
  unfold saved. intros H. rewrite !in_app_iff in H.
  assert (V : forall k, In s (map (fun o => (o, 8)) (skipn gp [-176; -168; -160; -152; -144; -136]) ++ map (fun o => (o, 16)) (skipn fp [-128; -112; -96; -80; -64; -48; -32; -16])) -> 176 <= k -> - k <= fst s /\ fst s + snd s <= 0 /\ 0 < snd s /\ (snd s | fst s)).
  { clear H. intros k H K. apply in_app_or in H as [H|H]; apply in_map_iff in H as [o [<- H]]; apply in_skipn in H; cbn [fst snd];
      repeat (destruct H as [<-|H]; [split; [lia|split; [lia|split; [lia|apply Z.mod_divide; [lia|reflexivity]]]]|]); destruct H. }
  destruct H as [H|[H|H]].
  - destruct va; [|destruct H]. apply V; [exact H|]. unfold frame_start. destruct dv, rs; lia.
  - destruct dv; [|destruct H]. destruct H as [<-|[]]. cbn [fst snd]. unfold frame_start. destruct va, rs; (split; [lia|split; [lia|split; [lia|apply Z.mod_divide; [lia|reflexivity]]]]).
  - destruct rs; [|destruct H]. destruct H as [<-|[]]. cbn [fst snd]. unfold frame_start. destruct va, dv; (split; [lia|split; [lia|split; [lia|apply Z.mod_divide; [lia|reflexivity]]]]).
Qed.
Lemma saved_apart va dv rs gp fp : ForallOrdPairs apart2 (saved va dv rs gp fp).
Proof.
  assert (V : ForallOrdPairs apart2 (map (fun o => (o, 8)) (skipn gp [-176; -168; -160; -152; -144; -136]) ++ map (fun o => (o, 16)) (skipn fp [-128; -112; -96; -80; -64; -48; -32; -16]))).
  { apply fop_app.
    - rewrite <- skipn_map. apply fop_skipn. cbn [map]. repeat constructor; unfold apart2, apart; cbn [fst snd]; lia.
    - rewrite <- skipn_map. apply fop_skipn. cbn [map]. repeat constructor; unfold apart2, apart; cbn [fst snd]; lia.
    - intros x y Hx Hy. apply in_map_iff in Hx as [o [<- Ho]]. apply in_map_iff in Hy as [q [<- Hq]]. apply in_skipn in Ho, Hq. unfold apart2, apart. cbn [fst snd]. left.
      assert (o <= -136) by (cbn [In] in Ho; lia). assert (-128 <= q) by (cbn [In] in Hq; lia). lia. }
  assert (L : forall s, In s (if va then map (fun o => (o, 8)) (skipn gp [-176; -168; -160; -152; -144; -136]) ++ map (fun o => (o, 16)) (skipn fp [-128; -112; -96; -80; -64; -48; -32; -16]) else []) -> - frame_start va false false <= fst s).
  { intros s Hs. assert (HS : In s (saved va false false gp fp)) by (unfold saved; apply in_or_app; left; exact Hs). apply saved_in in HS. lia. }
  unfold saved. apply fop_app; [destruct va; [exact V|constructor]| |].
  - apply fop_app; [destruct dv; repeat constructor|destruct rs; repeat constructor|]. intros x y Hx Hy. destruct dv; [|destruct Hx]. destruct rs; [|destruct Hy]. destruct Hx as [<-|[]], Hy as [<-|[]]. unfold apart2, apart, frame_start. cbn [fst snd]. destruct va; lia.
  - intros x y Hx Hy. specialize (L _ Hx). unfold apart2, apart. right. apply in_app_or in Hy as [Hy|Hy].
    + destruct dv; [|destruct Hy]. destruct Hy as [<-|[]]. unfold frame_start in *. cbn [fst snd]. destruct va; lia.
    + destruct rs; [|destruct Hy]. destruct Hy as [<-|[]]. unfold frame_start in *. cbn [fst snd]. destruct va, dv; lia.
Qed.
Theorem frame_ok va dv rs reuse t p size : Forall wf_var (everything t) -> 200 + need (everything t) <= INT_MAX -> layout_frame va dv rs reuse t = Ok (p, size) ->
  tree_map fst p = t /\ (8 | size) /\
  (forall v o, In (v, o) (everything p) -> if lstack v then o = lstackofs v + 16 else - size <= o /\ o + lsize v <= 0) /\
  (forall gp fp, ForallOrdPairs apart2 (saved va dv rs gp fp) /\
     forall s, In s (saved va dv rs gp fp) -> - size <= fst s /\ fst s + snd s <= 0 /\ (snd s | fst s) /\
       forall v o, In (v, o) (everything p) -> lstack v = false -> apart o (lsize v) (fst s) (snd s)) /\
  (forall q, In q (paths p) -> ForallOrdPairs indep q) /\ (reuse = false -> ForallOrdPairs indep (everything p)) /\
  (Forall (fun v => pow2 (lalign v)) (everything t) -> forall base, (get_lvar_align t 16 | base) -> forall v o, In (v, o) (everything p) -> lstack v = false ->
     (lvla v = false -> (lalign v | base + o)) /\ (lvla v = true -> (8 | base + o)) /\ (larray v = true -> 16 <= lsize v -> (16 | base + o))).
Proof.
  intros W L H. pose proof (frame_ok0 _ _ _ _ _ _ _ W L H) as [F1 [F2 [F3 F4]]]. split; [exact F1|]. split; [exact F2|].
  assert (FS : 0 <= frame_start va dv rs <= 192) by (destruct va, dv, rs; cbn; lia).
  assert (SZ : frame_start va dv rs <= size).
  { unfold layout_frame in H. destruct (assign_lvar_offsets _ _ _) as [[p' d]| |] eqn:E; cbn [bind fst snd] in H; try discriminate. destruct (align_to d 8) as [s| |] eqn:EA; cbn [bind] in H; try discriminate. injection H as <- <-.
    destruct (assign_ok reuse t W _ _ _ (proj1 FS) ltac:(lia) E) as [_ [A2 _]]. apply align_to_ok in EA as [B1 _]; lia. }
  split; [|split; [|exact F4]].
  - intros v o HI. specialize (F3 v o HI). destruct (lstack v); [exact F3|]. lia.
  - intros gp fp. split; [apply saved_apart|]. intros s Hs. apply saved_in in Hs as [S1 [S2 [S3 S4]]]. split; [lia|]. split; [exact S2|]. split; [exact S4|].
    intros v o HI LS. specialize (F3 v o HI). rewrite LS in F3. unfold apart. lia.
Qed.
Theorem frame_total va dv rs reuse t : Forall wf_var (everything t) -> Forall ofs_fits (everything t) -> 200 + need (everything t) <= INT_MAX -> exists r, layout_frame va dv rs reuse t = Ok r.
Proof.
  intros W O L. assert (FS : 0 <= frame_start va dv rs <= 192) by (destruct va, dv, rs; cbn; lia). pose proof (need_pos _ W).
  destruct (assign_total reuse t W O (frame_start va dv rs) ltac:(lia) ltac:(lia)) as [p [d [E D]]]. unfold layout_frame. rewrite E. cbn [bind fst snd]. destruct (align_to_total d 8 ltac:(lia) ltac:(lia) ltac:(lia)) as [s EA]. rewrite EA. cbn [bind]. eauto.
Qed.
