(** Proofs for AsmModel.v: the state of the assignment of operands. *)
From Coq Require Import Ascii String ZArith List Bool Lia Arith.
From Verif Require Import AsmSpec AsmModel AsmProofs.
Import ListNotations.
Local Open Scope string_scope.
Local Open Scope nat_scope.
Local Open Scope list_scope.

Definition placed (k : kind) : bool := match k with KReg | KMem => true | _ => false end.
(** What is known of an operand not yet placed. *)
Record fact (a : op) : Prop := {
  k_early : o_early a = early (o_src a);
  k_mem : o_mem a = true -> letter (o_src a) (one Lmem);
  k_gp : o_gp a = true -> letter (o_src a) (one Lgp);
  k_fp : o_fp a = true -> letter (o_src a) (one Lfp);
  k_x87 : o_x87 a = true -> letter (o_src a) (one ["f"%char]);
  k_hb : o_hb a = true -> letter (o_src a) (one ["Q"%char]);
  k_leg : o_leg a = true -> letter (o_src a) (one ["R"%char]);
  k_free : o_free a = true -> letter (o_src a) (one ["U"%char]);
  k_var : a_var (snd (o_src a)) = None }.
Definition used_ok (u : use) (a : op) : Prop :=
  (input (o_src a) = true -> In (o_reg a) (u_in u)) /\
  (input (o_src a) = false -> In (o_reg a) (u_out u) /\ (late (o_src a) (loc_of a) = false -> In (o_reg a) (u_in u))).
Definition good (l : list op) (a : op) : Prop :=
  match loc_of a with
  | Imm v => a_int (snd (o_src a)) = true /\ a_const (snd (o_src a)) = Some v /\ (ranged (o_src a) \/ letter (o_src a) (fun c => const c v))
  | Reg r => (letter (o_src a) (fun c => class c r) \/ exists n b, In n (nums (o_src a)) /\ nth_error l n = Some b /\ placed (o_kind b) = true /\ o_reg b = r) /\
             (forall s, a_var (snd (o_src a)) = Some s -> gp r = true -> gp_named (bare s) r)
  | x => permits [] (o_src a) x
  end.
Record Inv (os : list operand) (D : nat -> Prop) (s : state) : Prop := {
  v_src : map o_src (ops s) = os;
  v_reg : forall i a, nth_error (ops s) i = Some a -> placed (o_kind a) = false -> o_reg a = 0;
  v_done : forall i a, nth_error (ops s) i = Some a -> o_kind a <> KNull -> D i;
  v_fact : forall i a, nth_error (ops s) i = Some a -> D i -> o_kind a = KNull -> fact a;
  v_match : forall i a j, nth_error (ops s) i = Some a -> o_match a = Some j -> D j /\ exists p, nth_error os j = Some p /\ In i (nums p);
  v_use : forall i a, nth_error (ops s) i = Some a -> o_reg a <> 0 -> used_ok (used s) a;
  v_low : forall i a, nth_error (ops s) i = Some a -> o_reg a < REG_END;
  v_good : forall i a, nth_error (ops s) i = Some a -> o_kind a <> KNull -> good (ops s) a }.
Lemma inv_src : forall os D s i a, Inv os D s -> nth_error (ops s) i = Some a -> nth_error os i = Some (o_src a).
Proof. intros os D s i a V H. rewrite <- (v_src _ _ _ V). apply map_nth_error. exact H. Qed.
Lemma inv_ext : forall os D D' s, Inv os D s -> (forall i, D i <-> D' i) -> Inv os D' s.
Proof.
  intros os D D' s [V1 V2 V3 V4 V5 V6 V8 V7] E. constructor; auto.
  - intros i a H K. apply E. eauto.
  - intros i a H K. apply E in K. eauto.
  - intros i a j H M. destruct (V5 i a j H M) as [K X]. split; [apply E; exact K|exact X].
Qed.
Definition wider (u u' : use) : Prop := (forall x, In x (u_in u) -> In x (u_in u')) /\ (forall x, In x (u_out u) -> In x (u_out u')).
Lemma used_wider : forall u u' a, wider u u' -> used_ok u a -> used_ok u' a.
Proof. intros u u' a [W1 W2] [A B]. split; [auto|]. intros H. destruct (B H) as [C E]. split; auto. Qed.
Lemma good_set : forall l i b c, nth_error l i = Some c -> placed (o_kind c) = false -> forall a, good l a -> good (set_nth i b l) a.
Proof.
  intros l i b c H K a G. unfold good in *. destruct (loc_of a); auto. destruct G as [[G|[n [d [G1 [G2 [G3 G4]]]]]] V]; (split; [|exact V]).
  - left. exact G.
  - right. exists n, d. repeat split; auto. destruct (Nat.eq_dec n i) as [->|N]; [congruence|rewrite set_nth_neq by exact N; exact G2].
Qed.
Lemma inv_set : forall os D s i a b u, Inv os D s -> nth_error (ops s) i = Some a -> o_kind a = KNull -> o_src b = o_src a -> o_match b = o_match a ->
  wider (used s) u -> (placed (o_kind b) = false -> o_reg b = 0) -> (o_kind b = KNull -> fact b) -> (o_reg b <> 0 -> used_ok u b) -> o_reg b < REG_END ->
  (o_kind b <> KNull -> good (ops s) b) -> Inv os (fun j => j = i \/ D j) (State (set_nth i b (ops s)) u).
Proof.
  intros os D s i a b u [V1 V2 V3 V4 V5 V6 V8 V7] Hi Hk Hs Hm W P1 P2 P3 P5 P4. constructor; cbn [ops used].
  - rewrite (set_nth_map _ _ _ _ _ a) by (auto; exact Hs). exact V1.
  - intros j c H. apply nth_set in H as [[-> ->]|[N H]]; eauto.
  - intros j c H K. apply nth_set in H as [[-> ->]|[N H]]; [left; reflexivity|right; eauto].
  - intros j c H Dj K. apply nth_set in H as [[-> ->]|[N H]]; [auto|]. destruct Dj as [->|Dj]; [contradiction|eauto].
  - intros j c k H M. apply nth_set in H as [[-> ->]|[N H]].
    + rewrite Hm in M. destruct (V5 i a k Hi M) as [X Y]. split; [right; exact X|exact Y].
    + destruct (V5 j c k H M) as [X Y]. split; [right; exact X|exact Y].
  - intros j c H R. apply nth_set in H as [[-> ->]|[N H]]; [auto|]. apply used_wider with (1 := W). eauto.
  - intros j c H. apply nth_set in H as [[-> ->]|[N H]]; eauto.
  - intros j c H K. apply good_set with a; [exact Hi|rewrite Hk; reflexivity|]. apply nth_set in H as [[-> ->]|[N H]]; eauto.
Qed.
Definition with_match (c : op) (i : nat) : op :=
  Op (o_src c) (o_kind c) (Some i) (o_reg c) (o_mem c) (o_gp c) (o_fp c) (o_x87 c) (o_early c) (o_hb c) (o_leg c) (o_free c).
Lemma inv_match : forall os D s i p k c, Inv os D s -> nth_error (ops s) k = Some c -> D i -> nth_error os i = Some p -> In k (nums p) ->
  Inv os D (State (set_nth k (with_match c i) (ops s)) (used s)).
Proof.
  intros os D s i p k c [V1 V2 V3 V4 V5 V6 V8 V7] Hk Di Hp Hn. constructor; cbn [ops used].
  - rewrite (set_nth_map _ _ _ _ _ c) by auto. exact V1.
  - intros j b H. apply nth_set in H as [[-> ->]|[N H]]; [exact (V2 _ _ Hk)|eauto].
  - intros j b H. apply nth_set in H as [[-> ->]|[N H]]; [exact (V3 _ _ Hk)|eauto].
  - intros j b H. apply nth_set in H as [[-> ->]|[N H]]; [|eauto]. intros Dk K. destruct (V4 _ _ Hk Dk K). constructor; assumption.
  - intros j b x H M. apply nth_set in H as [[-> ->]|[N H]]; [|eauto]. injection M as <-. split; [exact Di|]. exists p. auto.
  - intros j b H. apply nth_set in H as [[-> ->]|[N H]]; [exact (V6 _ _ Hk)|eauto].
  - intros j b H. apply nth_set in H as [[-> ->]|[N H]]; [exact (V8 _ _ Hk)|eauto].
  - assert (G : forall a, good (ops s) a -> good (set_nth k (with_match c i) (ops s)) a).
    { intros a G. unfold good in *. destruct (loc_of a); auto. destruct G as [[G|[n [d [G1 [G2 [G3 G4]]]]]] V]; (split; [|exact V]); [left; exact G|].
      right. destruct (Nat.eq_dec n k) as [->|N].
      - exists k, (with_match c i). assert (d = c) by congruence. subst d. repeat split; auto. apply set_nth_eq. apply nth_lt with c. exact Hk.
      - exists n, d. rewrite set_nth_neq by exact N. auto. }
    intros j b H K. apply G. apply nth_set in H as [[-> ->]|[N H]]; [|eauto]. exact (V7 _ _ Hk K).
Qed.

(** * asm_set_use *)
Record placing (os : list operand) (D : nat -> Prop) (s : state) (i : nat) (b : op) (s' : state) : Prop := {
  g_inv : Inv os (fun j => j = i \/ D j) s';
  g_new : nth_error (ops s') i = Some b;
  g_low : o_reg b < REG_END;
  g_wide : wider (used s) (used s');
  g_old : forall j c, nth_error (ops s') j = Some c -> j <> i -> nth_error (ops s) j = Some c \/
    (exists a, nth_error (ops s) j = Some a /\ o_kind a = KNull /\ c = place a KReg (o_reg b) /\ In i (nums (o_src a)) /\ input (o_src b) = false) }.
Lemma set_use_ok : forall os D s i a b s', Inv os D s -> nth_error (ops s) i = Some a -> o_kind a = KNull -> o_src b = o_src a -> o_match b = o_match a ->
  placed (o_kind b) = true -> o_early b = early (o_src b) -> good (ops s) b -> asm_set_use s i b = Ok s' -> placing os D s i b s'.
Proof.
  intros os D s i a b s' V Hi Hk Hs Hm P E G H. unfold asm_set_use in H. destruct (o_reg b <? REG_END) eqn:LT; [|discriminate H]. cbn [negb] in H.
  apply Nat.ltb_lt in LT. pose proof (nth_lt _ _ _ _ Hi) as Li.
  assert (NN : o_kind b <> KNull) by (intros X; rewrite X in P; discriminate P).
  assert (SET : forall u, wider (used s) u -> used_ok u b -> Inv os (fun j => j = i \/ D j) (State (set_nth i b (ops s)) u)).
  { intros u W U. apply inv_set with a; auto; congruence. }
  assert (OLD : forall j c, nth_error (set_nth i b (ops s)) j = Some c -> j <> i -> nth_error (ops s) j = Some c).
  { intros j c X N. rewrite set_nth_neq in X by exact N. exact X. }
  destruct (input (o_src b)) eqn:IN.
  { injection H as <-. assert (W : wider (used s) (Use (o_reg b :: u_in (used s)) (u_out (used s)))) by (split; cbn; auto).
    constructor; cbn [ops used]; auto; [|apply set_nth_eq; exact Li]. apply SET; [exact W|]. split; [left; reflexivity|congruence]. }
  destruct (out_only (set_nth i b (ops s)) b) eqn:OO.
  { injection H as <-. assert (W : wider (used s) (Use (u_in (used s)) (o_reg b :: u_out (used s)))) by (split; cbn; auto).
    constructor; cbn [ops used]; auto; [|apply set_nth_eq; exact Li]. apply SET; [exact W|]. split; [congruence|]. intros _. split; [left; reflexivity|].
    intros LA. exfalso. unfold out_only in OO. unfold late in LA. rewrite E in OO. repeat (apply andb_true_iff in OO as [OO ?]).
    rewrite OO in LA. destruct (early (o_src b)); [discriminate|]. unfold loc_of in LA. destruct (o_kind b); discriminate. }
  set (u := Use (o_reg b :: u_in (used s)) (o_reg b :: u_out (used s))) in *.
  assert (W : wider (used s) u) by (split; cbn; auto).
  assert (U : used_ok u b) by (split; [intros; left; reflexivity|intros _; split; [left; reflexivity|intros _; left; reflexivity]]).
  pose proof (SET u W U) as V1.
  assert (PLAIN : s' = State (set_nth i b (ops s)) u -> placing os D s i b s').
  { intros ->. constructor; cbn [ops used]; auto. apply set_nth_eq; exact Li. }
  destruct (has_matching (set_nth i b (ops s)) b) eqn:HM; [|injection H as <-; apply PLAIN; reflexivity].
  destruct (o_match b) as [j|] eqn:M; [|injection H as <-; apply PLAIN; reflexivity].
  destruct (nth_error (set_nth i b (ops s)) j) as [c|] eqn:Hj; [|injection H as <-; apply PLAIN; reflexivity].
  injection H as <-. unfold has_matching in HM. rewrite M, Hj in HM.
  assert (Kc : o_kind c = KNull) by (destruct (o_kind c); try discriminate HM; reflexivity).
  assert (Nij : j <> i). { intros ->. rewrite set_nth_eq in Hj by exact Li. injection Hj as <-. contradiction. }
  pose proof (OLD _ _ Hj Nij) as Hj0. symmetry in Hm. destruct (v_match _ _ _ V _ _ _ Hi Hm) as [Dj [p [Hp Np]]].
  pose proof (inv_src _ _ _ _ _ V Hj0) as Hp'. rewrite Hp in Hp'. injection Hp' as ->.
  assert (FC : fact c) by exact (v_fact _ _ _ V _ _ Hj0 Dj Kc).
  assert (V2 : Inv os (fun k => k = j \/ k = i \/ D k) (State (set_nth j (place c KReg (o_reg b)) (set_nth i b (ops s))) u)).
  { apply inv_set with (s := State (set_nth i b (ops s)) u) (a := c); auto; cbn [ops used].
    - split; auto.
    - discriminate.
    - discriminate.
    - intros _. split; cbn [place o_reg]; [intros; left; reflexivity|intros _; split; [left; reflexivity|intros _; left; reflexivity]].
    - intros _. split.
      + right. exists i, b. repeat split; auto. apply set_nth_eq. exact Li.
      + intros s0 X. cbn [place o_src] in X. rewrite (k_var _ FC) in X. discriminate X. }
  constructor; cbn [ops used]; auto.
  - apply inv_ext with (1 := V2). intros k. split; [intros [->|X]; [right; exact Dj|exact X]|intros X; right; exact X].
  - rewrite set_nth_neq by congruence. apply set_nth_eq. exact Li.
  - intros k d Hd N. apply nth_set in Hd as [[-> ->]|[N' Hd]]; [|left; exact (OLD _ _ Hd N)].
    right. exists c. repeat split; auto.
Qed.
