(** Proofs for AsmModel.v: prepare_inline_asm. *)
From Coq Require Import Ascii String ZArith List Bool Lia Arith.
From Verif Require Import AsmSpec AsmModel AsmProofs AsmInv AsmPhase.
Import ListNotations.
Local Open Scope string_scope.
Local Open Scope nat_scope.
Local Open Scope list_scope.

Definition all (i : nat) : Prop := True.
Definition shr (i : nat) (a c : op) : Prop := input (o_src c) = true /\ (late (o_src a) (loc_of a) = true \/ (In i (nums (o_src c)) /\ input (o_src a) = false)).
Record Alloc (os : list operand) (C : list nat) (s : state) : Prop := {
  l_inv : Inv os all s;
  l_apart : forall i j a c, i <> j -> nth_error (ops s) i = Some a -> nth_error (ops s) j = Some c -> o_reg a <> 0 -> o_reg a = o_reg c ->
    (pinned os (o_src a) -> pinned os (o_src c) -> False) -> shr i a c \/ shr j c a;
  l_clob : forall i a, nth_error (ops s) i = Some a -> o_reg a <> 0 -> pinned os (o_src a) \/ ~ In (o_reg a) C;
  l_cin : forall x, In x C -> In x (u_in (used s)) /\ In x (u_out (used s)) }.
Definition no_digits (os : list operand) : Prop := forall o, In o os -> input o = false -> nums o = [].

Lemma alloc_step : forall os C s i a k r s', no_digits os -> Alloc os C s -> nth_error (ops s) i = Some a -> o_kind a = KNull -> placed k = true -> r <> 0 ->
  asm_get_use s a r = false -> good (ops s) (place a k r) -> asm_set_use s i (place a k r) = Ok s' ->
  Alloc os C s' /\ placing os all s i (place a k r) s'.
Proof.
  intros os C s i a k r s' WF [V A B X] Hi Ka Pk Rz GU G H.
  pose proof (set_use_ok os all s i a (place a k r) s' V Hi Ka eq_refl eq_refl Pk (k_early _ (v_fact _ _ _ V _ _ Hi Logic.I Ka)) G H) as PL.
  split; [|exact PL]. destruct PL as [G1 G2 G3 G4 G5].
  assert (V' : Inv os all s') by (apply inv_ext with (1 := G1); intros; split; [intros; exact Logic.I|intros; right; exact Logic.I]).
  assert (NU : ~ In r (u_in (used s)) /\ (input (o_src a) = false -> ~ In r (u_out (used s)))).
  { unfold asm_get_use, out_only in GU. rewrite Ka in GU. cbn [is_kreg] in GU. rewrite andb_false_r in GU. cbn [andb] in GU.
    destruct (input (o_src a)); [apply mem_not in GU; split; [exact GU|discriminate]|]. apply orb_false_iff in GU as [GU1 GU2]. apply mem_not in GU1, GU2. auto. }
  destruct NU as [NU1 NU2].
  (* an old operand with the register *)
  assert (OLD : forall j c, nth_error (ops s) j = Some c -> o_reg c = r -> input (o_src a) = true /\ late (o_src c) (loc_of c) = true).
  { intros j c Hj R. destruct (v_use _ _ _ V _ _ Hj ltac:(congruence)) as [U1 U2]. rewrite R in *. destruct (input (o_src c)); [destruct (NU1 (U1 eq_refl))|].
    destruct (U2 eq_refl) as [U3 U4]. destruct (input (o_src a)) eqn:IA; [|destruct (NU2 eq_refl U3)]. split; [reflexivity|].
    destruct (late (o_src c) (loc_of c)); [reflexivity|destruct (NU1 (U4 eq_refl))]. }
  (* the operand itself or its match *)
  assert (NEW : forall j c, nth_error (ops s') j = Some c -> j <> i -> nth_error (ops s) j = Some c \/ (o_reg c = r /\ shr i (place a k r) c /\ input (o_src a) = false)).
  { intros j c Hj N. destruct (G5 _ _ Hj N) as [Y|[d [Y [Kd [-> [Nd IB]]]]]]; [left; exact Y|]. right. split; [reflexivity|]. cbn [place o_src] in *. split; [|exact IB].
    unfold shr. cbn [place o_src]. split; [|right; auto]. destruct (input (o_src d)) eqn:ID; [reflexivity|]. exfalso.
    rewrite (WF (o_src d)) in Nd; [destruct Nd| |exact ID]. rewrite <- (v_src _ _ _ V). apply in_map. apply nth_error_In with j. exact Y. }
  constructor; [exact V'| | |intros x Hx; destruct (X x Hx); split; [apply (proj1 G4)|apply (proj2 G4)]; assumption].
  - assert (PAIR : forall j c, j <> i -> nth_error (ops s') j = Some c -> o_reg c = r -> shr i (place a k r) c \/ shr j c (place a k r)).
    { intros j c N Hj R. destruct (NEW _ _ Hj N) as [Y|[_ [Y _]]]; [|left; exact Y]. destruct (OLD _ _ Y R) as [Z1 Z2]. right. split; [exact Z1|left; exact Z2]. }
    intros j m c d N Hj Hm R E Q. destruct (Nat.eq_dec j i) as [->|Ni].
    { rewrite G2 in Hj. injection Hj as <-. apply PAIR; auto. }
    destruct (Nat.eq_dec m i) as [->|Mi].
    { rewrite G2 in Hm. injection Hm as <-. destruct (PAIR j c Ni Hj E); auto. }
    destruct (NEW _ _ Hj Ni) as [Yj|[Rj [Yj IA]]]; destruct (NEW _ _ Hm Mi) as [Ym|[Rm [Ym IA']]].
    + exact (A _ _ _ _ N Yj Ym R E Q).
    + destruct (OLD _ _ Yj ltac:(congruence)). congruence.
    + destruct (OLD _ _ Ym ltac:(congruence)). congruence.
    + exfalso. destruct (G5 _ _ Hj Ni) as [Z|[e [Ze [Ke [-> _]]]]].
      { destruct (OLD _ _ Z Rj). congruence. }
      destruct (G5 _ _ Hm Mi) as [Z|[e' [Ze' [Ke' [-> _]]]]].
      { destruct (OLD _ _ Z Rm). congruence. }
      (* only one operand is matched *)
      clear -H Hj Hm N Ni Mi Ze Ze' Ke Ke'. unfold asm_set_use in H. cbn [place o_reg o_src o_match] in H.
      destruct (negb (r <? REG_END)); [discriminate H|].
      assert (ONE : forall l u, Ok (State l u) = Ok s' -> l = set_nth i (place a k r) (ops s) -> False).
      { intros l u X ->. injection X as <-. cbn [ops] in Hj. rewrite set_nth_neq in Hj by exact Ni. rewrite Ze in Hj. injection Hj as Hj. rewrite Hj in Ke. discriminate Ke. }
      destruct (input (o_src a)); [eapply ONE; [exact H|reflexivity]|]. destruct (out_only _ _); [eapply ONE; [exact H|reflexivity]|].
      destruct (has_matching _ _); [|eapply ONE; [exact H|reflexivity]]. destruct (o_match a) as [x|]; [|eapply ONE; [exact H|reflexivity]].
      destruct (nth_error _ x) as [y|]; [|eapply ONE; [exact H|reflexivity]]. injection H as <-. cbn [ops] in Hj, Hm.
      destruct (Nat.eq_dec j x) as [->|Nx].
      * rewrite set_nth_neq, set_nth_neq in Hm by auto. rewrite Ze' in Hm. injection Hm as Hm. rewrite Hm in Ke'. discriminate Ke'.
      * rewrite set_nth_neq, set_nth_neq in Hj by auto. rewrite Ze in Hj. injection Hj as Hj. rewrite Hj in Ke. discriminate Ke.
  - intros j c Hj R. destruct (Nat.eq_dec j i) as [->|Ni].
    { rewrite G2 in Hj. injection Hj as <-. right. cbn [place o_reg]. intros Y. destruct (NU1 (proj1 (X _ Y))). }
    destruct (NEW _ _ Hj Ni) as [Y|[-> _]]; [exact (B _ _ Y R)|]. right. intros Y. destruct (NU1 (proj1 (X _ Y))).
Qed.
Lemma find_get : forall s a l r, find_free s a l = Some r -> In r l /\ asm_get_use s a r = false.
Proof. intros s a l r H. apply find_some in H as [I N]. split; [exact I|]. destruct (asm_get_use s a r); [discriminate N|reflexivity]. Qed.
Lemma range_in : forall a b r, In r (range a b) <-> a <= r <= b /\ a <= b.
Proof. intros a b r. unfold range. rewrite in_seq. lia. Qed.
(** Kinds are not taken back. *)
Definition kept (s s' : state) : Prop := forall i a, nth_error (ops s) i = Some a -> exists c, nth_error (ops s') i = Some c /\ (o_kind a <> KNull -> o_kind c <> KNull).
Lemma kept_refl : forall s, kept s s. Proof. intros s i a H. exists a. auto. Qed.
Lemma kept_trans : forall a b c, kept a b -> kept b c -> kept a c.
Proof. intros a b c H K i x X. destruct (H _ _ X) as [y [Y N]]. destruct (K _ _ Y) as [z [Z M]]. exists z. auto. Qed.
Lemma same_length : forall os D D' s s', Inv os D s -> Inv os D' s' -> length (ops s') = length (ops s).
Proof. intros os D D' s s' V V'. rewrite <- (map_length o_src (ops s)), <- (map_length o_src (ops s')), (v_src _ _ _ V), (v_src _ _ _ V'). reflexivity. Qed.
Lemma placing_kept : forall os s i b s', Inv os all s -> o_kind b <> KNull -> placing os all s i b s' -> kept s s'.
Proof.
  intros os s i b s' V K [G1 G2 G3 G4 G5] j a Hj. pose proof (same_length _ _ _ _ _ V G1) as L.
  destruct (nth_error (ops s') j) as [c|] eqn:Hc; [|apply nth_error_None in Hc; apply nth_lt in Hj; lia].
  exists c. split; [reflexivity|]. destruct (Nat.eq_dec j i) as [->|N]; [rewrite G2 in Hc; injection Hc as <-; auto|].
  destruct (G5 _ _ Hc N) as [X|[d [_ [_ [-> _]]]]]; [rewrite X in Hj; injection Hj as <-; auto|]. discriminate.
Qed.
Lemma assign2_ok : forall os C l p is s s', no_digits os -> Alloc os C s ->
  (forall s a i, Inv os all s -> nth_error (ops s) i = Some a -> o_kind a = KNull -> p a = true -> forall r, In r l -> r <> 0 /\ letter (o_src a) (fun c => class c r)) ->
  asm_assign_oprands2 l p is s = Ok s' -> Alloc os C s' /\ kept s s'.
Proof.
  intros os C l p is. induction is as [|i is IH]; intros s s' WF AL HL H; cbn [asm_assign_oprands2] in H.
  - injection H as <-. split; [exact AL|apply kept_refl].
  - destruct (nth_error (ops s) i) as [a|] eqn:Hi; [|discriminate H]. bi H.
    assert (X : Alloc os C a0 /\ kept s a0).
    { destruct (o_kind a) eqn:Ka; try (injection E as <-; split; [exact AL|apply kept_refl]).
      destruct (p a) eqn:Pa; [|injection E as <-; split; [exact AL|apply kept_refl]].
      destruct (find_free s a l) as [r|] eqn:F; [|injection E as <-; split; [exact AL|apply kept_refl]].
      apply find_get in F as [I GU]. destruct (HL s a i (l_inv _ _ _ AL) Hi Ka Pa r I) as [Rz LE].
      destruct (alloc_step os C s i a KReg r a0) as [Y Z]; auto.
      - split; [left; exact LE|]. intros x Hx. cbn [place o_src] in Hx. rewrite (k_var _ (v_fact _ _ _ (l_inv _ _ _ AL) _ _ Hi Logic.I Ka)) in Hx. discriminate Hx.
      - split; [exact Y|]. apply placing_kept with (3 := Z); [exact (l_inv _ _ _ AL)|discriminate]. }
    destruct X as [AL' K]. destruct (IH a0 s' WF AL' HL H) as [AL'' K']. split; [exact AL''|]. apply kept_trans with a0; assumption.
Qed.
Lemma try_get : forall b s a l r, try_reg b s a l = Some r -> b = true /\ In r l /\ asm_get_use s a r = false.
Proof. intros b s a l r H. unfold try_reg in H. destruct b; [|discriminate H]. apply find_get in H as [I G]. auto. Qed.
Lemma assign1_ok : forall os C s i a s', no_digits os -> Alloc os C s -> nth_error (ops s) i = Some a -> o_kind a = KNull -> assign1 s i a = Ok s' ->
  Alloc os C s' /\ kept s s' /\ exists c, nth_error (ops s') i = Some c /\ o_kind c <> KNull.
Proof.
  intros os C s i a s' WF AL Hi Ka H. pose proof (l_inv _ _ _ AL) as V. pose proof (v_fact _ _ _ V _ _ Hi Logic.I Ka) as F.
  assert (VAR : forall r x, a_var (snd (o_src a)) = Some x -> gp r = true -> gp_named (bare x) r) by (intros r x X; rewrite (k_var _ F) in X; discriminate X).
  assert (ONE : forall k r, placed k = true -> r <> 0 -> asm_get_use s a r = false -> good (ops s) (place a k r) -> asm_set_use s i (place a k r) = Ok s' ->
    Alloc os C s' /\ kept s s' /\ exists c, nth_error (ops s') i = Some c /\ o_kind c <> KNull).
  { intros k r Pk Rz GU G X. destruct (alloc_step os C s i a k r s' WF AL Hi Ka Pk Rz GU G X) as [Y Z].
    assert (NK : o_kind (place a k r) <> KNull) by (cbn [place o_kind]; intros ->; discriminate Pk).
    split; [exact Y|]. split; [apply placing_kept with (3 := Z); [exact V|exact NK]|]. exists (place a k r). split; [exact (g_new _ _ _ _ _ _ Z)|exact NK]. }
  unfold assign1 in H.
  destruct (try_reg (o_fp a) s a (range XMM0 (XMM0 + 15))) as [r|] eqn:T1.
  { apply try_get in T1 as [Q [I GU]]. apply range_in in I as [I _]. apply (ONE KReg r); auto; [unfold XMM0 in I; lia|]. split; [|exact (VAR r)].
    left. apply fp_class; [exact (k_fp _ F Q)|]. unfold xmm, within. apply andb_true_iff. rewrite !Nat.leb_le. exact I. }
  destruct (try_reg (o_x87 a) s a (range ST0 (ST0 + 7))) as [r|] eqn:T2.
  { apply try_get in T2 as [Q [I GU]]. apply range_in in I as [I _]. apply (ONE KReg r); auto; [unfold ST0 in I; lia|]. split; [|exact (VAR r)].
    left. apply x87_class; [exact (k_x87 _ F Q)|]. unfold st, within. apply andb_true_iff. rewrite !Nat.leb_le. exact I. }
  assert (GP : forall r, AX <= r <= R15 -> gp r = true) by (intros r I; unfold gp, within; apply andb_true_iff; rewrite !Nat.leb_le; unfold AX, R15, SP in *; lia).
  destruct (try_reg (o_gp a) s a (range AX R15)) as [r|] eqn:T3.
  { apply try_get in T3 as [Q [I GU]]. apply range_in in I as [I _]. apply (ONE KReg r); auto; [unfold AX in I; lia|]. split; [|exact (VAR r)].
    left. apply gp_class; [exact (k_gp _ F Q)|exact (GP r I)]. }
  destruct (try_reg (o_mem a) s a (range AX R15)) as [r|] eqn:T4; [|discriminate H].
  apply try_get in T4 as [Q [I GU]]. apply range_in in I as [I _]. assert (Rz : r <> 0) by (unfold AX in I; lia). apply (ONE KMem r); auto.
  split; [exact (k_mem _ F Q)|]. split; [intros Z; cbn [place o_reg] in Z; contradiction|intros _; exact (GP r I)].
Qed.
Lemma rest_ok : forall os C is s s', no_digits os -> Alloc os C s -> assign_rest is s = Ok s' ->
  Alloc os C s' /\ kept s s' /\ forall i, In i is -> exists c, nth_error (ops s') i = Some c /\ o_kind c <> KNull.
Proof.
  intros os C is. induction is as [|i is IH]; intros s s' WF AL H; cbn [assign_rest] in H.
  - injection H as <-. split; [exact AL|]. split; [apply kept_refl|]. intros i [].
  - destruct (nth_error (ops s) i) as [a|] eqn:Hi; [|discriminate H]. bi H.
    assert (X : Alloc os C a0 /\ kept s a0 /\ exists c, nth_error (ops a0) i = Some c /\ o_kind c <> KNull).
    { destruct (o_kind a) eqn:Ka; try (injection E as <-; split; [exact AL|]; split; [apply kept_refl|]; exists a; split; [exact Hi|rewrite Ka; discriminate]).
      apply (assign1_ok os C s i a a0); auto. }
    destruct X as [AL' [K [c [Hc Nc]]]]. destruct (IH a0 s' WF AL' H) as [AL'' [K' L]]. split; [exact AL''|]. split; [apply kept_trans with a0; assumption|].
    intros j [<-|I]; [|exact (L j I)]. destruct (K' _ _ Hc) as [d [Hd Nd]]. exists d. auto.
Qed.
Lemma assign_ok : forall os C s s', no_digits os -> Alloc os C s -> asm_assign_oprands s = Ok s' ->
  Alloc os C s' /\ forall i a, nth_error (ops s') i = Some a -> o_kind a <> KNull.
Proof.
  intros os C s s' WF AL H. unfold asm_assign_oprands in H. bi H. bi H. bi H.
  assert (CL : forall c l r, class c r = true -> letter l (one [c]) -> letter l (fun x => class x r)) by (intros c l r X; intros [y [I O]]; apply one_in in O as [<-|[]]; exists c; auto).
  assert (F : forall s a i, Inv os all s -> nth_error (ops s) i = Some a -> o_kind a = KNull -> fact a) by (intros s0 a2 i V Hi Ka; exact (v_fact _ _ _ V _ _ Hi Logic.I Ka)).
  destruct (assign2_ok os C highbyte o_hb (seq 0 (length (ops s))) s a WF AL) with (2 := E) as [A1 K1].
  { intros s0 x i V Hi Ka Px r I. split; [repeat (destruct I as [<-|I]; [discriminate|]); destruct I|]. apply (CL "Q"%char); [|exact (k_hb _ (F _ _ _ V Hi Ka) Px)].
    repeat (destruct I as [<-|I]; [reflexivity|]); destruct I. }
  destruct (assign2_ok os C legacy o_leg (seq 0 (length (ops s))) a a0 WF A1) with (2 := E0) as [A2 K2].
  { intros s0 x i V Hi Ka Px r I. split; [repeat (destruct I as [<-|I]; [discriminate|]); destruct I|]. apply (CL "R"%char); [|exact (k_leg _ (F _ _ _ V Hi Ka) Px)].
    repeat (destruct I as [<-|I]; [reflexivity|]); destruct I. }
  destruct (assign2_ok os C free o_free (seq 0 (length (ops s))) a0 a1 WF A2) with (2 := E1) as [A3 K3].
  { intros s0 x i V Hi Ka Px r I. split; [repeat (destruct I as [<-|I]; [discriminate|]); destruct I|]. apply (CL "U"%char); [|exact (k_free _ (F _ _ _ V Hi Ka) Px)].
    repeat (destruct I as [<-|I]; [reflexivity|]); destruct I. }
  destruct (rest_ok _ _ _ _ _ WF A3 H) as [A4 [K4 L]]. split; [exact A4|]. intros i x Hx. destruct (L i) as [c [Hc Nc]].
  - apply in_seq. apply nth_lt in Hx. rewrite (same_length _ _ _ _ _ (l_inv _ _ _ AL) (l_inv _ _ _ A4)) in Hx. lia.
  - congruence.
Qed.

(** * Constraints and clobbers *)
Lemma constraints_ok : forall os l D s s', Inv os D s -> NoDup l -> (forall i, In i l -> ~ D i) -> asm_constraints l s = Ok s' ->
  Inv os (fun j => In j l \/ D j) s' /\ (P os s -> P os s') /\ wider (used s) (used s').
Proof.
  intros os l. induction l as [|i l IH]; intros D s s' V ND N H; cbn [asm_constraints] in H.
  - injection H as <-. split; [apply inv_ext with (1 := V); intros i; split; [auto|intros [[]|X]; exact X]|]. split; [auto|apply wider_refl].
  - bi H. inversion ND as [|x l' NI ND' EQ]; subst x l'. destruct (constraint_ok os D s i a V (N i (or_introl eq_refl)) E) as [V1 [P1 W1]].
    destruct (IH _ a s' V1 ND') with (2 := H) as [V2 [P2 W2]].
    { intros j Hj [->|X]; [contradiction|]. exact (N j (or_intror Hj) X). }
    split; [apply inv_ext with (1 := V2); intros j; cbn [In]; split; [intros [X|[X|X]]; auto|intros [[X|X]|X]; auto]|]. split; [auto|]. destruct W1 as [A1 A2], W2 as [B1 B2]. split; auto.
Qed.
Lemma clob_ok : forall l u u', asm_clobbers l u = Ok u' -> u_in u = u_out u -> u_in u' = u_out u' /\ (forall r, In r (u_in u) -> In r (u_in u')) /\
  forall s r, In s l -> s <> "cc" -> s <> "memory" -> ident_reg s = Ok r -> Nat.eqb r SP || st r = false -> In r (u_in u').
Proof.
  intros l. induction l as [|x l IH]; intros u u' H EQ; cbn [asm_clobbers] in H.
  - injection H as <-. split; [exact EQ|]. split; [auto|]. intros s r [].
  - destruct (String.eqb x "cc" || String.eqb x "memory") eqn:S.
    { destruct (IH _ _ H EQ) as [A [B C]]. split; [exact A|]. split; [exact B|]. intros s r [<-|I] N1 N2; [|apply C; assumption].
      apply String.eqb_neq in N1, N2. rewrite N1, N2 in S. discriminate S. }
    bi H. destruct (Nat.eqb a SP || st a) eqn:Q.
    { destruct (IH _ _ H EQ) as [A [B C]]. split; [exact A|]. split; [exact B|]. intros s r [<-|I] N1 N2; [|apply C; assumption]. intros R R'. congruence. }
    destruct (a <? REG_END) eqn:LT; [|discriminate H]. destruct (IH _ _ H) as [A [B C]]; [cbn [u_in u_out]; congruence|]. split; [exact A|].
    split; [intros r Hr; apply B; right; exact Hr|]. intros s r [<-|I] N1 N2; [|apply C; assumption]. intros R _. apply B. left. congruence.
Qed.
Lemma acquire_ok : forall l r, acquire_gp l = Ok r -> AX <= r <= R15 /\ ~ In r l.
Proof.
  intros l r H. unfold acquire_gp in H. destruct (find _ _) as [x|] eqn:F; [|discriminate H]. injection H as ->. apply find_some in F as [I N]. apply range_in in I as [I _].
  split; [exact I|]. apply mem_not. destruct (mem r l); [discriminate N|reflexivity].
Qed.
Record planned (os : list operand) (C : list nat) (p : plan) (s : state) (outs : nat) : Prop := {
  w_ops : ops s = p_ops p;
  w_alloc : Alloc os C s;
  w_all : forall i a, nth_error (ops s) i = Some a -> o_kind a <> KNull;
  w_alt1 : (p_alt1 p = 0 /\ ~ In BP (u_in (used s)) /\ ~ In BP (u_out (used s))) \/
           (AX <= p_alt1 p <= R15 /\ ~ In (p_alt1 p) (u_in (used s)) /\ ~ In (p_alt1 p) (u_out (used s)));
  w_alt2 : (p_alt2 p = 0 /\ ~ In BX (u_in (used s)) /\ ~ In BX (u_out (used s))) \/
           (AX <= p_alt2 p <= R15 /\ ~ In (p_alt2 p) (u_in (used s)) /\ ~ In (p_alt2 p) (u_out (used s)) /\ p_alt2 p <> p_alt1 p);
  w_tmp : 0 < outs -> ~ In (p_tmp p) (u_out (used s)) /\ ((p_tmp p = BP /\ p_alt1 p <> 0) \/ (p_tmp p = BX /\ p_alt2 p <> 0) \/
           (AX <= p_tmp p <= R15 /\ p_tmp p <> p_alt1 p /\ p_tmp p <> p_alt2 p));
  w_tmp0 : outs = 0 -> p_tmp p = 0;
  w_mask : forall r, R12 <= r <= R15 -> In r (u_in (used s)) \/ In r (u_out (used s)) \/ r = p_alt1 p \/ r = p_alt2 p \/ (0 < outs /\ r = p_tmp p) -> In r (p_mask p) }.
Lemma prepare_ok : forall outs ins cl p, no_digits (outs ++ ins) -> prepare outs ins cl = Ok p -> exists u s, asm_clobbers cl (Use [] []) = Ok u /\
  planned (outs ++ ins) (u_in u) p s (length outs).
Proof.
  intros outs ins cl p WF H. unfold prepare in H. bi H. bi H. bi H. bi H. exists a, a2. split; [reflexivity|].
  destruct (clob_ok _ _ _ E eq_refl) as [UE _].
  set (os := outs ++ ins) in *. set (s0 := State (map new_op os) a) in *.
  assert (MAP : forall i x, nth_error (ops s0) i = Some x -> exists o, x = new_op o).
  { intros i x Hx. cbn [ops s0] in Hx. apply nth_error_In in Hx. apply in_map_iff in Hx as [o [<- _]]. exists o. reflexivity. }
  assert (V0 : Inv os (fun _ => False) s0).
  { constructor.
    - cbn [ops s0]. rewrite map_map. cbn [new_op o_src]. apply map_id.
    - intros i x Hx _. destruct (MAP _ _ Hx) as [o ->]. reflexivity.
    - intros i x Hx K. destruct (MAP _ _ Hx) as [o ->]. destruct (K eq_refl).
    - intros i x _ [].
    - intros i x j Hx M. destruct (MAP _ _ Hx) as [o ->]. discriminate M.
    - intros i x Hx R. destruct (MAP _ _ Hx) as [o ->]. destruct (R eq_refl).
    - intros i x Hx. destruct (MAP _ _ Hx) as [o ->]. cbn [new_op o_reg]. unfold REG_END. lia.
    - intros i x Hx K. destruct (MAP _ _ Hx) as [o ->]. destruct (K eq_refl). }
  assert (P0 : P os s0) by (intros i x Hx R; destruct (MAP _ _ Hx) as [o ->]; destruct (R eq_refl)).
  destruct (constraints_ok os _ _ _ _ V0 (seq_NoDup _ _) (fun _ _ F => F) E0) as [V1 [P1 W1]].
  destruct (constraints_ok os (seq 0 (length outs)) _ a0 a1 V1 (seq_NoDup _ _)) with (2 := E1) as [V2 [P2 W2]].
  { intros i I [J|[]]. apply in_seq in I, J. lia. }
  assert (V3 : Inv os all a1).
  { destruct V2 as [X1 X2 X3 X4 X5 X6 X7 X8]. constructor; auto.
    - intros; exact Logic.I.
    - intros i x Hx _. apply X4 with i; [exact Hx|]. apply nth_lt in Hx. rewrite <- (map_length o_src), X1 in Hx. unfold os in Hx. rewrite app_length in Hx.
      destruct (Nat.lt_ge_cases i (length outs)); [left|right; left]; apply in_seq; lia.
    - intros i x j Hx M. destruct (X5 i x j Hx M) as [_ Y]. split; [exact Logic.I|exact Y]. }
  assert (A0 : Alloc os (u_in a) a1).
  { constructor; [exact V3| | |].
    - intros i j x y _ Hi Hj R RE Q. destruct Q; [apply (P2 (P1 P0) i x Hi R)|apply (P2 (P1 P0) j y Hj); congruence].
    - intros i x Hi R. left. apply (P2 (P1 P0)) with i; assumption.
    - intros x Hx. destruct W1 as [A1 A2], W2 as [B1 B2]. cbn [used s0] in A1, A2. split; [auto|]. apply B2, A2. rewrite <- UE. exact Hx. }
  destruct (assign_ok os (u_in a) a1 a2 WF A0 E2) as [A4 KN].
  bi H. destruct a3 as [alt1 u1]. bi H. destruct a3 as [alt2 u2]. bi H. destruct a3 as [tmp u3].
  apply (f_equal (fun x => match x with Ok y => y | _ => p end)) in H. cbv beta iota in H. subst p.
  set (U := used a2) in *.
  assert (B1 : (alt1 = 0 /\ u1 = U /\ ~ In BP (u_in U ++ u_out U)) \/ (AX <= alt1 <= R15 /\ ~ In alt1 (u_in U ++ u_out U) /\ u1 = Use (alt1 :: u_in U) (alt1 :: u_out U))).
  { destruct (mem BP _) eqn:M; [right|left; apply mem_not in M; injection E3 as <- <-; auto]. bi E3. injection E3 as <- <-. apply acquire_ok in E6 as [X Y]. auto. }
  assert (B2 : (alt2 = 0 /\ u2 = u1 /\ ~ In BX (u_in u1 ++ u_out u1)) \/ (AX <= alt2 <= R15 /\ ~ In alt2 (u_in u1 ++ u_out u1) /\ u2 = Use (alt2 :: u_in u1) (alt2 :: u_out u1))).
  { destruct (mem BX _) eqn:M; [right|left; apply mem_not in M; injection E4 as <- <-; auto]. bi E4. injection E4 as <- <-. apply acquire_ok in E6 as [X Y]. auto. }
  assert (B3 : (outs = [] /\ u3 = u2 /\ tmp = 0) \/ (~ In tmp (u_out u2) /\ ((tmp = BP /\ alt1 <> 0 /\ u3 = u2) \/ (tmp = BX /\ alt2 <> 0 /\ u3 = u2) \/
     (AX <= tmp <= R15 /\ u3 = Use (u_in u2) (tmp :: u_out u2))))).
  { destruct outs as [|o outs]; [left; injection E5 as <- <-; auto|right].
    destruct (negb (Nat.eqb alt1 0) && negb (mem BP (u_out u2))) eqn:Q1.
    { injection E5 as <- <-. apply andb_true_iff in Q1 as [Q1 Q2]. apply negb_true_iff in Q1, Q2. apply Nat.eqb_neq in Q1. apply mem_not in Q2. auto 10. }
    destruct (negb (Nat.eqb alt2 0) && negb (mem BX (u_out u2))) eqn:Q3.
    { injection E5 as <- <-. apply andb_true_iff in Q3 as [Q3 Q2]. apply negb_true_iff in Q3, Q2. apply Nat.eqb_neq in Q3. apply mem_not in Q2. auto 10. }
    bi E5. injection E5 as <- <-. apply acquire_ok in E6 as [X Y]. auto 10. }
  assert (I1 : forall x, In x (u_in u1) <-> In x (u_in U) \/ (alt1 <> 0 /\ x = alt1)).
  { intros x. destruct B1 as [[-> [-> _]]|[X [_ ->]]]; [|cbn [u_in In]; unfold AX in X]; intuition lia. }
  assert (O1 : forall x, In x (u_out u1) <-> In x (u_out U) \/ (alt1 <> 0 /\ x = alt1)).
  { intros x. destruct B1 as [[-> [-> _]]|[X [_ ->]]]; [|cbn [u_out In]; unfold AX in X]; intuition lia. }
  assert (I2 : forall x, In x (u_in u2) <-> In x (u_in u1) \/ (alt2 <> 0 /\ x = alt2)).
  { intros x. destruct B2 as [[-> [-> _]]|[X [_ ->]]]; [|cbn [u_in In]; unfold AX in X]; intuition lia. }
  assert (O2 : forall x, In x (u_out u2) <-> In x (u_out u1) \/ (alt2 <> 0 /\ x = alt2)).
  { intros x. destruct B2 as [[-> [-> _]]|[X [_ ->]]]; [|cbn [u_out In]; unfold AX in X]; intuition lia. }
  constructor; cbv beta iota delta [p_ops p_alt1 p_alt2 p_tmp p_mask]; fold U; auto.
  - destruct B1 as [[-> [_ N]]|[X [N _]]]; [left|right]; rewrite in_app_iff in N; apply Decidable.not_or in N as [N1 N2]; auto.
  - destruct B2 as [[-> [_ N]]|[X [N _]]]; [left|right]; rewrite in_app_iff in N; rewrite I1, O1 in N; [split; [reflexivity|]; split; intros Z; apply N; auto|]. split; [exact X|]. split; [intros Z; apply N; auto|]. split; [intros Z; apply N; auto|].
    intros ->. apply N. left. right. split; [unfold AX in X; lia|reflexivity].
  - intros LO. destruct B3 as [[-> _]|[N B3]]; [cbn [length] in LO; lia|]. rewrite O2, O1 in N. split; [intros Z; apply N; auto|].
    destruct B3 as [[-> [Z _]]|[[-> [Z _]]|[X _]]]; [auto|auto|]. right. right. split; [exact X|]. unfold AX in X. split; intros ->; apply N; [left|]; right; split; auto; lia.
  - intros LO. destruct B3 as [[_ [_ Z]]|[_ B3]]; [exact Z|]. destruct outs; [discriminate E5 || (injection E5 as <- _; reflexivity)|discriminate LO].
  - intros r R Q. apply filter_In. split; [apply range_in; unfold R12, R15, BP in *; lia|]. apply mem_in. apply in_app_iff.
    assert (Rz : r <> 0) by (unfold R12 in R; lia).
    assert (Q2 : In r (u_in u2) \/ In r (u_out u2) \/ (0 < length outs /\ r = tmp)) by (rewrite I2, O2, I1, O1; destruct Q as [Q|[Q|[->|[->|Q]]]]; auto).
    destruct B3 as [[-> [-> _]]|[N B3]]; [destruct Q2 as [Q2|[Q2|[Q2 _]]]; auto; cbn [length] in Q2; lia|].
    destruct B3 as [[-> [Z ->]]|[[-> [Z ->]]|[X ->]]].
    + destruct Q2 as [Q2|[Q2|[_ ->]]]; auto. unfold BP, R15 in R. lia.
    + destruct Q2 as [Q2|[Q2|[_ ->]]]; auto. unfold BX, R15 in R. lia.
    + cbn [u_in u_out In]. destruct Q2 as [Q2|[Q2|[_ ->]]]; auto.
Qed.
