(** The code generator terminates and never reaches an internal error. *)
From Coq Require Import ZArith List Bool Lia.
From Verif Require Import Base BitLemmas IntSpec IntLemmas IntModel IntTyped IntProofs IntFold
  IntElab IntMain X86 CgModel CgSpec CgLemmas CgSeq CgSeq2 CgSeq3 CgInv CgTree CgGen CgMain.
Import ListNotations.
Local Open Scope Z_scope.

(** Weight of a tree: a cast to _Bool may be replaced by a comparison with zero. *)
Fixpoint wgt (n : node) : nat :=
  match n with
  | NNum _ _ | NVar _ _ | NBit _ _ _ _ => 1
  | NPos _ a | NNeg _ a | NBitNot _ a | NNot a => S (wgt a)
  | NCast t a => (if is_bool t then 8 else 1) + wgt a
  | NBin _ _ a b | NShl _ a b | NShr _ a b | NSar _ a b | NCmp _ a b
  | NLogAnd a b | NLogOr a b | NComma _ a b => S (Nat.max (wgt a) (wgt b))
  | NCond _ c a b => S (Nat.max (wgt c) (Nat.max (wgt a) (wgt b)))
  end.
Definition meas (md : mode) (n : node) : nat :=
  2 * wgt n + match md with MCond _ _ => 1 | _ => 0 end.

(** Constant shift counts can be written as immediates. *)
Fixpoint counts_ok (c : cfg) (n : node) : Prop :=
  match n with
  | NNum _ _ | NVar _ _ | NBit _ _ _ _ => True
  | NPos _ a | NNeg _ a | NBitNot _ a | NNot a | NCast _ a => counts_ok c a
  | NShl _ a b | NShr _ a b | NSar _ a b =>
      (forall v, eval2 c b = Ok v -> in_imm_range v = true) /\ counts_ok c a /\ counts_ok c b
  | NBin _ _ a b | NCmp _ a b | NLogAnd a b | NLogOr a b | NComma _ a b => counts_ok c a /\ counts_ok c b
  | NCond _ k a b => counts_ok c k /\ counts_ok c a /\ counts_ok c b
  end.

Lemma wgt_pos n : (1 <= wgt n)%nat.
Proof. induction n; cbn [wgt]; try lia. Qed.

Section Total.
Variable G : genv.
Hypothesis CO : cfg_ok (gc G).
Hypothesis LX : strict (gc G) = false.
Local Notation cok := (counts_ok (gc G)).

Lemma new_cast_wgt n t n' : new_cast (gc G) n t = Ok n' -> cok n ->
  cok n' /\ (wgt n' <= wgt n + if is_bool t then 8 else 1)%nat.
Proof.
  unfold new_cast. intros H K.
  assert (D : Ok (NCast t n) = Ok n' -> cok n' /\ (wgt n' <= wgt n + if is_bool t then 8 else 1)%nat).
  { intros [= <-]. split; [exact K|]. cbn [wgt]. destruct (is_bool t); lia. }
  destruct (opt (gc G)); [|auto]. destruct (eval2 (gc G) (NCast t n)).
  - injection H as <-. cbn [counts_ok wgt]. pose proof (wgt_pos n). split; auto. lia.
  - discriminate.
  - destruct (_ && _); [injection H as <-; split; [exact K|]; lia|].
    destruct (is_redundant_cast n t) eqn:RC; [|auto]. injection H as <-.
    destruct n; try discriminate RC. cbn [set_cast_ty counts_ok wgt] in *. split; [exact K|]. destruct (is_bool t), (is_bool t0); lia.
Qed.

Lemma promo_wgt n n' : int_promotion (gc G) n = Ok n' -> wtn n -> cok n -> cok n' /\ (wgt n' <= wgt n + 1)%nat.
Proof.
  unfold int_promotion. intros H W K.
  assert (X : forall t, is_bool t = false -> new_cast (gc G) n t = Ok n' -> cok n' /\ (wgt n' <= wgt n + 1)%nat).
  { intros t B H1. apply new_cast_wgt in H1; auto. rewrite B in H1. exact H1. }
  assert (I : Ok n = Ok n' -> cok n' /\ (wgt n' <= wgt n + 1)%nat) by (intros [= <-]; split; auto; lia).
  destruct (is_bitfield2 n) as [w|] eqn:B.
  - destruct (_ && _); [apply (X ty_uint); auto|]. destruct (Z.leb_spec w 32) as [L|L]; [apply (X ty_int); auto|].
    apply (X (nty n)); auto. destruct (is_bool (nty n)) eqn:IB; [|reflexivity].
    exfalso. pose proof (bf_width n w W B) as BW. destruct (is_ty_inv _ (wtn_is_ty n W)) as [i [E1 E2]].
    rewrite E1 in IB, BW. rewrite ?ity_mty in BW. destruct i; try discriminate IB. cbn in BW. lia.
  - destruct (_ <? 4); [apply (X ty_int); auto|]. destruct (_ =? 4); [|auto].
    destruct (int_rank (nty n)); try discriminate. cbn [bind] in H. destruct (_ <? 1); [|auto].
    apply (X (if uns (nty n) then ty_uint else ty_int)); auto. destruct (uns (nty n)); reflexivity.
Qed.

Lemma usual_wgt a b p : usual_arith_conv (gc G) a b = Ok p -> wtn a -> wtn b -> cok a -> cok b ->
  cok (fst p) /\ cok (snd p) /\ (wgt (fst p) <= wgt a + 2)%nat /\ (wgt (snd p) <= wgt b + 2)%nat.
Proof.
  unfold usual_arith_conv. intros H Wa Wb Ka Kb. bnd H. injection H as <-. cbn [fst snd].
  pose proof (int_promotion_ok _ a _ CO Wa E) as [_ [Ta _]]. pose proof (int_promotion_ok _ b _ CO Wb E0) as [_ [Tb _]].
  rewrite Ta, Tb, common_type_ok in E1 by (apply promoted_big; intros; apply bf_width; auto). injection E1 as <-.
  assert (NB : forall i j, 32 <= iwidth i -> 32 <= iwidth j -> is_bool (mty (usual i j)) = false).
  { intros i j Li Lj. destruct i; try (cbn in Li; lia); destruct j; try (cbn in Lj; lia); reflexivity. }
  assert (PB : forall n, wtn n -> 32 <= iwidth (promoted_m (is_bitfield2 n) (ity (nty n)))).
  { intros n Wn. pose proof (promoted_big (is_bitfield2 n) (ity (nty n)) ltac:(intros; apply bf_width; auto)) as P.
    destruct (arith_inv _ (big_arith _ P)) as [j [E4 [E5 [L _]]]]. rewrite ity_mty in E5. rewrite E5. exact L. }
  apply promo_wgt in E, E0; auto. destruct E as [Ka1 La], E0 as [Kb1 Lb].
  apply new_cast_wgt in E2, E3; auto. rewrite NB in E2, E3 by auto. destruct E2, E3. repeat split; auto; lia.
Qed.

Lemma bool_expr_none n : forall h bx,
  bool_expr_opt2 n h bx = match bool_expr_opt2 n h None with Some r => Some r | None => bx end.
Proof.
  induction n; intros h bx; cbn [bool_expr_opt2]; try reflexivity; try (destruct (is_bool _); reflexivity).
  - apply IHn.
  - destruct (is_bool t).
    + rewrite (IHn h (Some _)). destruct (bool_expr_opt2 n h None); reflexivity.
    + apply IHn.
Qed.

Lemma bool_expr_wgt n : forall h e f, wtn n -> cok n -> bool_expr_opt2 n h None = Some (e, f) ->
  wtn e /\ cok e /\ boolish e = true /\ (wgt e <= wgt n)%nat /\
  ((is_not n = true \/ (exists t a, n = NCast t a /\ (is_bool t = false \/ bool_expr_opt2 a h None <> None))) -> (wgt e < wgt n)%nat).
Proof.
  induction n; intros h e f W K H; cbn [bool_expr_opt2] in H;
  try (match type of H with (if is_bool ?t then _ else _) = _ => destruct (is_bool t) eqn:B; [|discriminate] end;
    injection H as <- <-; split; [exact W|]; split; [exact K|]; split; [exact B|]; split; [lia|];
    intros [X|[t' [a' [X _]]]]; discriminate X);
  try (injection H as <- <-; split; [exact W|]; split; [exact K|]; split; [reflexivity|]; split; [lia|];
    intros [X|[t' [a' [X _]]]]; discriminate X).
  - destruct (IHn _ _ _ W K H) as [A [B [D [L _]]]]. cbn [wgt]. repeat split; auto. intros _. lia.
  - cbn [wtn counts_ok wgt] in *. destruct W as [Tt W].
    destruct (bool_expr_opt2 n h None) as [[e' f']|] eqn:BE.
    + rewrite bool_expr_none, BE in H. injection H as -> ->.
      destruct (IHn _ _ _ W K BE) as [A [B [D [L _]]]]. repeat split; auto; [destruct (is_bool t); lia|]. intros _. destruct (is_bool t); lia.
    + rewrite bool_expr_none, BE in H. destruct (is_bool t) eqn:IB; [|discriminate]. injection H as <- <-.
      cbn [wgt]. rewrite IB. split; [split; auto|]. split; [exact K|]. split; [exact IB|]. split; [lia|].
      intros [X|[t' [a' [X Y]]]]; [discriminate X|]. injection X as <- <-. destruct Y as [Y|Y]; congruence.
Qed.

Lemma const_total n : exists k, const_of G n = Ok k.
Proof. unfold const_of. pose proof (eval2_lax (gc G) n LX). destruct (eval2 (gc G) n); eauto. congruence. Qed.

Lemma is_ty_sizes t : is_ty t -> exists s, size_of (sz t) = Ok s.
Proof. intros T. destruct (is_ty_inv t T) as [i [-> _]]. destruct i; cbn; eauto. Qed.
Lemma is_ty_opsizes t : is_ty t -> exists s, opsize_of (sz t) = Ok s.
Proof. intros T. unfold opsize_of. destruct (is_ty_sizes t T) as [s ->]. cbn [bind]. eauto. Qed.

Variable rec : mode -> node -> gst -> outcome gst.
Variable N : nat.
Definition ok (n : node) : Prop := wtn n /\ cok n.
Hypothesis TOT : forall md n st, (meas md n < N)%nat -> ok n -> exists st', rec md n st = Ok st'.
(** Every recursive call extends the output and keeps the stack of temporaries. *)
Hypothesis EXT : forall n st st', rec MExpr n st = Ok st' -> exists g s, slots st' = bumpm g s (slots st).

Ltac tot md n st := let s := fresh "s" in let E := fresh "HR" in
  destruct (TOT md n st) as [s E]; [unfold meas in *; cbn [wgt] in *; lia|unfold ok; cbn [wtn counts_ok] in *; tauto|rewrite E; cbn [bind]].

Lemma pop_total st1 st2 n r64 dest must : rec MExpr n (push st1) = Ok st2 -> exists p, pop_gp G r64 dest must st2 = Ok p.
Proof.
  intros H. destruct (EXT _ _ _ H) as [g [s E]]. unfold pop_gp, pop_from, pop_tmpstack. rewrite E. cbn [push slots bumpm s_kind s_gp s_st s_loc].
  destruct (GP_SLOTS <=? _)%nat; [destruct (reuse G)|]; cbn [bind s_kind]; eauto. destruct must; eauto.
Qed.

Lemma pop_total_emit st1 st2 n r64 dest must c : rec MExpr n (push st1) = Ok st2 -> exists p, pop_gp G r64 dest must (emit c st2) = Ok p.
Proof.
  intros H. destruct (EXT _ _ _ H) as [g [s E]]. unfold pop_gp, pop_from, pop_tmpstack. cbn [emit slots]. rewrite E. cbn [push slots bumpm s_kind s_gp s_st s_loc].
  destruct (GP_SLOTS <=? _)%nat; [destruct (reuse G)|]; cbn [bind s_kind]; eauto. destruct must; eauto.
Qed.

Lemma cmp2_total l r st : (2 * wgt l < N)%nat -> (2 * wgt r < N)%nat -> ok l -> ok r ->
  exists x, gen_cmp_opt_gp2 G rec l r st = Ok x.
Proof.
  intros L1 L2 [Wl Kl] [Wr Kr]. unfold gen_cmp_opt_gp2. destruct (const_total r) as [k ->]. cbn [bind].
  destruct (is_ty_opsizes _ (wtn_is_ty l Wl)) as [s Es]. destruct k.
  - destruct (is_memop G l) as [[b o]|]; [eauto|]. tot MExpr l st. rewrite Es. cbn [bind]. eauto.
  - destruct (is_memop G l) as [[b o]|]; [|eauto]. tot MExpr r st. rewrite Es. cbn [bind]. eauto.
Qed.

Lemma cmp_opt_total o l r st : (2 * wgt l < N)%nat -> (2 * wgt r < N)%nat -> ok l -> ok r ->
  exists x, gen_cmp_opt_gp G rec o l r st = Ok x.
Proof.
  intros L1 L2 Hl Hr. unfold gen_cmp_opt_gp. destruct (cmp2_total l r st L1 L2 Hl Hr) as [x ->]. cbn [bind].
  destruct x; [eauto|]. destruct (cmp2_total r l st L2 L1 Hr Hl) as [y ->]. cbn [bind]. destruct y; eauto.
Qed.

Lemma cmp_plain_total l r st : (2 * wgt l < N)%nat -> (2 * wgt r < N)%nat -> ok l -> ok r ->
  exists x, gen_cmp_plain G rec l r st = Ok x.
Proof.
  intros L1 L2 [Wl Kl] [Wr Kr]. unfold gen_cmp_plain. tot MExpr l st. tot MExpr r (push s).
  destruct (pop_total _ _ _ (sz (nty l) =? 8) DI false HR0) as [p ->]. cbn [bind].
  destruct (is_ty_opsizes _ (wtn_is_ty l Wl)) as [sz' ->]. cbn [bind]. eauto.
Qed.

Lemma zero_ok a p : ok a -> usual_arith_conv (gc G) a (NNum (nty a) 0) = Ok p ->
  ok (NCmp CNe (fst p) (snd p)) /\ (wgt (NCmp CNe (fst p) (snd p)) <= wgt a + 3)%nat.
Proof.
  intros [Wa Ka] E. assert (Wz : wtn (NNum (nty a) 0)).
  { cbn [wtn]. split; [apply wtn_is_ty; auto|]. destruct (is_ty_inv _ (wtn_is_ty a Wa)) as [i [-> _]]. rewrite ity_mty. destruct i; reflexivity. }
  destruct (usual_wgt _ _ _ E Wa Wz Ka Logic.I) as [K1 [K2 [L1 L2]]]. pose proof (wgt_pos a).
  destruct p as [a2 b2]. cbn [fst snd] in *.
  destruct (usual_arith_conv_ok _ _ _ _ _ CO Wa Wz E) as [X [Y [T1 [T2 [BG _]]]]].
  split; [split|].
  - cbn [wtn]. rewrite T1, T2. repeat split; auto. apply big_arith. exact BG.
  - cbn [counts_ok]. auto.
  - cbn [wgt] in *. lia.
Qed.

Lemma zero_conv a : ok a -> exists p, usual_arith_conv (gc G) a (NNum (nty a) 0) = Ok p.
Proof.
  intros [Wa Ka]. apply usual_arith_conv_lax; auto. cbn [wtn]. split; [apply wtn_is_ty; auto|].
  destruct (is_ty_inv _ (wtn_is_ty a Wa)) as [i [-> _]]. rewrite ity_mty. destruct i; reflexivity.
Qed.

Lemma cmp_zero_total a o st : (2 * wgt a + 6 < N)%nat -> ok a -> exists x, gen_cmp_zero G rec a o st = Ok x.
Proof.
  intros L Ha. unfold gen_cmp_zero. destruct (zero_conv a Ha) as [p E]. rewrite E. cbn [bind].
  destruct (zero_ok a p Ha E) as [[W K] L2]. tot MExpr (NCmp o (fst p) (snd p)) st. eauto.
Qed.

Lemma cond_tail_total e jc l st : (2 * wgt e < N)%nat -> ok e -> exists x, gen_cond_tail rec e jc l st = Ok x.
Proof. intros L [W K]. unfold gen_cond_tail. tot MExpr e st. eauto. Qed.

Lemma bool_opt_wgt n e f : ok n -> bool_expr_opt n = Some (e, f) -> ok e /\ (wgt e <= wgt n)%nat.
Proof. intros [W K] H. destruct (bool_expr_wgt _ _ _ _ W K H) as [A [B [_ [L _]]]]. split; [split|]; auto. Qed.

Lemma cond_total n0 jc0 l st : (2 * wgt n0 + 1 <= N)%nat -> ok n0 -> exists x, gen_cond G rec n0 jc0 l st = Ok x.
Proof.
  intros L H0. unfold gen_cond. destruct (opt (gc G)); [|apply cond_tail_total; auto; lia].
  assert (X : exists n jc, (match bool_expr_opt n0 with Some (e, flip) => (e, xorb jc0 flip) | None => (n0, jc0) end) = (n, jc)
     /\ ok n /\ (2 * wgt n + 1 <= N)%nat).
  { destruct (bool_expr_opt n0) as [[e f]|] eqn:B; [|eauto 6]. destruct (bool_opt_wgt _ _ _ H0 B) as [O L2].
    exists e, (xorb jc0 f). repeat split; auto; try apply O. lia. }
  destruct X as [n [jc [-> [[W K] L2]]]]. destruct (const_total n) as [k ->]. cbn [bind]. destruct k; [eauto|].
  destruct n; try (apply cond_tail_total; [lia|split; auto]).
  - cbn [wtn counts_ok wgt] in *.
    destruct (cmp_opt_total o n1 n2 st) as [r ->]; [lia|lia|split; tauto|split; tauto|]. cbn [bind].
    destruct r as [[o' st1]|]; cbn [bind]; [eauto|].
    destruct (cmp_plain_total n1 n2 st) as [r ->]; [lia|lia|split; tauto|split; tauto|]. cbn [bind]. eauto.
  - cbv zeta. destruct (Bool.eqb false jc).
    + tot (MCond jc l) n1 st. tot (MCond jc l) n2 s. eauto.
    + destruct (count_ st) as [c st0]. tot (MCond false (LShort, c)) n1 st0. tot (MCond false (LShort, c)) n2 s. eauto.
  - cbv zeta. destruct (Bool.eqb true jc).
    + tot (MCond jc l) n1 st. tot (MCond jc l) n2 s. eauto.
    + destruct (count_ st) as [c st0]. tot (MCond true (LShort, c)) n1 st0. tot (MCond true (LShort, c)) n2 s. eauto.
  - destruct (is_bool t) eqn:B; [|apply cond_tail_total; [lia|split; auto]]. cbn [wtn counts_ok wgt] in *. rewrite B in L2.
    assert (On : ok n) by (split; tauto).
    destruct (zero_conv n On) as [p E]. rewrite E. cbn [bind]. destruct (zero_ok n p On E) as [[W' K'] L3].
    tot (MCond jc l) (NCmp CNe (fst p) (snd p)) st. eauto.
Qed.

Lemma logical_total is_or a b flip st : (2 * wgt a + 1 < N)%nat -> (2 * wgt b + 1 < N)%nat -> ok a -> ok b ->
  exists x, gen_logical rec is_or a b flip st = Ok x.
Proof.
  intros L1 L2 [Wa Ka] [Wb Kb]. unfold gen_logical. destruct (count_ st) as [c st0].
  tot (MCond is_or (LShort, c)) a st0. tot (MCond is_or (LShort, c)) b s. eauto.
Qed.

Lemma bool_total n st : (2 * wgt n <= N)%nat -> ok n -> exists x, gen_bool_opt G rec n st = Ok x.
Proof.
  intros L [Wn Kn]. unfold gen_bool_opt. unfold bool_expr_opt. destruct (bool_expr_opt2 n false None) as [[e flip]|] eqn:BE; [|eauto].
  destruct (bool_expr_wgt _ _ _ _ Wn Kn BE) as [W [K [_ [LE ST]]]].
  destruct (negb (is_not n) && _) eqn:PE; [eauto|].
  assert (LT : (wgt e < wgt n)%nat).
  { apply ST. apply andb_false_iff in PE. destruct PE as [PE|PE]; [left; apply negb_false_iff in PE; exact PE|].
    apply orb_false_iff in PE. destruct PE as [P1 P2]. right. destruct n; try discriminate P1. exists t, n. split; [reflexivity|].
    destruct (is_bool t); [right|left; reflexivity]. cbn [andb] in P2. destruct (bool_expr_opt2 n false None); congruence. }
  assert (D : exists x, (do r <- rec MExpr e st; Ok (Some (if flip then emit [Alu AXor None (I 1) (R S1 AX)] r else r))) = Ok x).
  { tot MExpr e st. eauto. }
  destruct e; try exact D.
  - cbn [wtn counts_ok wgt] in *. tot MExpr (NCmp (flip_cmp o flip) e1 e2) st. eauto.
  - cbn [wtn counts_ok wgt] in *. destruct (logical_total false e1 e2 flip st) as [x ->]; [lia|lia|split; tauto|split; tauto|]. cbn [bind]. eauto.
  - cbn [wtn counts_ok wgt] in *. destruct (logical_total true e1 e2 flip st) as [x ->]; [lia|lia|split; tauto|split; tauto|]. cbn [bind]. eauto.
  - destruct (is_bool t) eqn:B; [|exact D]. cbn [wtn counts_ok wgt] in *. rewrite B in *.
    destruct (cmp_zero_total e (if flip then CEq else CNe) st) as [x ->]; [lia|split; tauto|]. cbn [bind]. eauto.
Qed.

Lemma after_total n st c : (2 * wgt n < N)%nat -> ok n ->
  exists x, (do st1 <- rec MExpr n st; Ok (Some (emit c st1))) = Ok x.
Proof. intros L [W K]. tot MExpr n st. eauto. Qed.

Lemma divmod_total d t e v st : (2 * wgt e < N)%nat -> ok e -> is_ty t -> exists x, divmod_opt rec d t e v st = Ok x.
Proof.
  intros L He T. unfold divmod_opt. destruct (is_ty_sizes t T) as [s ->]. cbn [bind]. cbv zeta.
  repeat first [apply after_total; auto; fail | match goal with
    | |- context [if ?b then _ else _] => lazymatch b with context [if _ then _ else _] => fail | _ => destruct b end
    | |- context [match find_pow ?a ?b ?c ?d with _ => _ end] => destruct (find_pow a b c d) end]; eauto; apply after_total; auto.
Qed.

Lemma arith2_total o n l r p st : (2 * wgt l < N)%nat -> ok l -> ok r -> (n = 4 \/ n = 8) ->
  match o with BDiv | BMod => False | _ => True end -> exists x, gen_arith_opt_gp2 G rec o n l r p st = Ok x.
Proof.
  intros L [W K] [Wr Kr] Hn Ho. unfold gen_arith_opt_gp2.
  assert (SN : exists s, size_of n = Ok s) by (destruct Hn as [-> | ->]; cbn; eauto). destruct SN as [s Es]. rewrite Es. cbn [bind].
  assert (AI : exists i, arith_ins o = Ok i) by (destruct o; cbn; eauto; contradiction). destruct AI as [i Ei]. rewrite Ei. cbn [bind]. cbv zeta.
  tot MExpr l st.
  destruct p as [|[|[|p]]].
  - destruct (const_total r) as [k ->]. cbn [bind]. destruct k; [|eauto].
    assert (AR : exists c, imm_arith o n (limit_imm z n) = Ok c).
    { unfold imm_arith. rewrite Es, Ei. cbn [bind]. destruct o; try contradiction; repeat match goal with |- context [if ?b then _ else _] => destruct b end; eauto;
      match goal with |- context [match ?b with Some _ => _ | None => _ end] => destruct b end; eauto. }
    destruct AR as [c ->]. cbn [bind]. eauto.
  - destruct (is_memop G r) as [[b ofs]|]; cbn [bind]; eauto.
  - destruct r; eauto. destruct (is_memop G r) as [[b ofs]|]; eauto. destruct (n <=? _); cbn [bind]; eauto.
  - destruct r; eauto. destruct (is_memop G r) as [[b ofs]|]; eauto. destruct (Z.ltb_spec (sz (nty r)) n); eauto.
    cbn [wtn] in Wr. destruct Wr as [_ Wr]. destruct (is_ty_inv _ (wtn_is_ty r Wr)) as [j [E4 _]]. rewrite E4 in *.
    destruct (negb _ && _) eqn:U.
    + apply andb_true_iff in U. destruct j; cbn in *; try (destruct U; discriminate); eauto; destruct Hn; subst; lia.
    + destruct j; cbn; eauto.
Qed.

Lemma orelse_total a b : (exists x, a = Ok x) -> (exists y, b = Ok y) -> exists z : option gst, orelse a b = Ok z.
Proof. intros [x ->] [y ->]. unfold orelse. cbn [bind]. destruct x; eauto. Qed.

Lemma arith_total nd n st : (2 * wgt nd <= N)%nat -> ok nd -> (n = 4 \/ n = 8 \/ (forall o t a b, nd <> NBin o t a b)) ->
  exists x, gen_arith_opt_gp G rec nd n st = Ok x.
Proof.
  intros L [W K] Hn. unfold gen_arith_opt_gp. destruct nd; eauto. cbn [wtn counts_ok wgt] in *.
  assert (H : n = 4 \/ n = 8) by (destruct Hn as [H|[H|H]]; auto; exfalso; eapply H; reflexivity).
  assert (O1 : ok nd1) by (split; tauto). assert (O2 : ok nd2) by (split; tauto).
  cbv zeta. destruct o; eauto; repeat apply orelse_total; apply arith2_total; auto; lia.
Qed.

Lemma shift_opt_total o t a b st : (2 * wgt a < N)%nat -> ok a -> is_ty t ->
  (forall v, eval2 (gc G) b = Ok v -> in_imm_range v = true) -> exists x, gen_shift_opt_gp G rec o t a b st = Ok x.
Proof.
  intros L [W K] T C. unfold gen_shift_opt_gp. destruct (is_ty_sizes t T) as [s Es]. rewrite Es. cbn [bind].
  destruct (const_of G b) as [[v|]| |] eqn:KB; cbn [bind]; try (destruct (const_total b); congruence).
  - unfold const_of in KB. destruct (eval2 (gc G) b) eqn:EB; try discriminate. injection KB as <-.
    tot MExpr a st. unfold imm_shift. rewrite Es. cbn [bind]. rewrite (C _ eq_refl). destruct (_ =? 0); cbn [bind]; eauto.
  - destruct (is_memop G b) as [[b' o']|]; eauto. tot MExpr a st. eauto.
Qed.

Lemma arith_is_ty t : arith_ty t -> is_ty t.
Proof. intros H. destruct (arith_inv t H) as [i [-> _]]. unfold is_ty. rewrite ity_mty. reflexivity. Qed.
Lemma arith_sz t : arith_ty t -> sz t = 4 \/ sz t = 8.
Proof. intros H. destruct (arith_inv t H) as [i [-> [_ [L NB]]]]. destruct i; cbn in *; auto; lia. Qed.

Lemma gp_opt_total n st : (2 * wgt n <= N)%nat -> ok n -> exists x, gen_gp_opt G rec n st = Ok x.
Proof.
  intros L [W K]. unfold gen_gp_opt. destruct n;
  try (apply arith_total; [exact L|split; [exact W|exact K]|right; right; discriminate]);
  cbn [wtn counts_ok wgt] in *;
  try (apply shift_opt_total; [lia|split; tauto|apply arith_is_ty; tauto|tauto]).
  - assert (AT : arith_ty t) by tauto.
    destruct o; try (apply arith_total; [exact L|split; [exact W|exact K]|destruct (arith_sz t AT); auto]);
    destruct (const_total n2) as [k ->]; cbn [bind]; destruct k; eauto; apply divmod_total; [lia|split; tauto|apply arith_is_ty; auto|lia|split; tauto|apply arith_is_ty; auto].
  - destruct (cmp_opt_total o n1 n2 st) as [x ->]; [lia|lia|split; tauto|split; tauto|]. cbn [bind]. destruct x as [[? ?]|]; eauto.
Qed.

Lemma load3_total t b o : is_ty t -> exists c, load3 t b o = Ok c.
Proof. intros T. destruct (is_ty_inv t T) as [i [-> _]]. destruct i; cbn; eauto. Qed.
Lemma bit_load_total t w off ofs : is_ty t -> exists c, gen_bitfield_load t w off ofs = Ok c.
Proof.
  intros T. unfold gen_bitfield_load. destruct (load3_total t (BReg AX) ofs T) as [c ->]. destruct (is_ty_opsizes t T) as [s ->]. cbn [bind].
  cbv zeta. unfold bitwidth_to_ty. repeat match goal with |- context [if ?b then _ else _] =>
    lazymatch b with off =? _ => fail | uns _ => fail | _ =>  destruct b end end;
  try (destruct (off =? off / 8 * 8); eauto; destruct (uns t); cbn; eauto); eauto.
Qed.

Lemma load_opt_total n : wtn n -> exists x, gen_load_opt_gp G n = Ok x.
Proof.
  intros W. unfold gen_load_opt_gp. destruct n; eauto. cbn [wtn] in W. destruct W as [T W].
  destruct (is_memop G n) as [[b o]|]; eauto. cbv zeta.
  destruct (is_ty_inv t T) as [i [-> _]]. destruct (is_ty_inv _ (wtn_is_ty n W)) as [j [E1 _]]. rewrite E1.
  destruct i, j; cbn; eauto.
Qed.

Lemma expr_opt_total n st : (2 * wgt n <= N)%nat -> ok n -> exists x, gen_expr_opt G rec n st = Ok x.
Proof.
  intros L O. pose proof O as [W K]. unfold gen_expr_opt. destruct (const_total n) as [k ->]. cbn [bind]. destruct k; [eauto|].
  destruct (load_opt_total n W) as [l ->]. cbn [bind]. destruct l; [eauto|].
  destruct (is_memop G n) as [[b o]|].
  { destruct (load3_total (nty n) b o (wtn_is_ty n W)) as [c ->]. cbn [bind]. eauto. }
  apply orelse_total; [apply bool_total; auto|]. apply orelse_total; [apply gp_opt_total; auto|]. apply orelse_total.
  - destruct n; eauto. destruct ((sz t =? 4) && _) eqn:E; eauto. apply andb_true_iff in E. destruct E as [E1 E2]. apply Z.eqb_eq in E1, E2.
    cbn [wtn counts_ok wgt] in *. apply arith_total; [destruct (is_bool t); lia|split; tauto|auto].
  - destruct n; eauto.
    + cbn [wtn] in W. destruct (var_memop G x (moff G x)) as [[b' o']|].
      * destruct (bit_load_total t w off 0) as [c ->]; [tauto|]. cbn [bind]. eauto.
      * destruct (bit_load_total t w off (moff G x)) as [c ->]; [tauto|]. cbn [bind]. eauto.
    + destruct (const_total n1) as [q ->]. cbn [bind]. destruct q; eauto.
      destruct (z =? 0); [tot MExpr n3 st|tot MExpr n2 st]; eauto.
Qed.

Lemma binary_total o t a b st : (2 * wgt a < N)%nat -> (2 * wgt b < N)%nat -> ok a -> ok b -> exists x, gen_binary G rec o t a b st = Ok x.
Proof.
  intros L1 L2 [Wa Ka] [Wb Kb]. unfold gen_binary. tot MExpr a st. tot MExpr b (push s).
  destruct (pop_total _ _ _ (sz (nty a) =? 8) DI false HR0) as [[r st3] ->]. cbn [bind]. eauto.
Qed.

Lemma shift_total o t a b st : (2 * wgt a < N)%nat -> (2 * wgt b < N)%nat -> is_ty t -> ok a -> ok b -> exists x, gen_shift G rec o t a b st = Ok x.
Proof.
  intros L1 L2 T [Wa Ka] [Wb Kb]. unfold gen_shift. tot MExpr a st. tot MExpr b (push s).
  destruct (is_ty_opsizes t T) as [sz' ->]. cbn [bind].
  destruct (pop_total_emit _ _ _ (sz t =? 8) AX true [Mov None (R S1 AX) (R S1 CX)] HR0) as [p ->]. cbn [bind]. eauto.
Qed.

Lemma plain_total n st : (2 * wgt n <= N)%nat -> ok n -> exists x, gen_expr_plain G rec n st = Ok x.
Proof.
  intros L [W K]. destruct n; cbn [gen_expr_plain]; pose proof W as W0; cbn [wtn counts_ok wgt] in W, K, L.
  - eauto.
  - destruct (load3_total t (BReg AX) 0 W) as [c ->]. cbn [bind]. destruct (loc G x); eauto.
  - destruct (bit_load_total t w off 0) as [c ->]; [tauto|]. cbn [bind]. eauto.
  - tot MExpr n st. eauto.
  - tot MExpr n st. destruct (is_ty_opsizes (nty n)) as [s' ->]; [apply wtn_is_ty; tauto|]. cbn [bind]. eauto.
  - tot MExpr n st. eauto.
  - tot MExpr n st. eauto.
  - apply binary_total; [lia|lia|split; tauto|split; tauto].
  - apply shift_total; [lia|lia|apply arith_is_ty; tauto|split; tauto|split; tauto].
  - apply shift_total; [lia|lia|apply arith_is_ty; tauto|split; tauto|split; tauto].
  - apply shift_total; [lia|lia|apply arith_is_ty; tauto|split; tauto|split; tauto].
  - destruct (cmp_plain_total n1 n2 st) as [r ->]; [lia|lia|split; tauto|split; tauto|]. cbn [bind]. eauto.
  - apply logical_total; [lia|lia|split; tauto|split; tauto].
  - apply logical_total; [lia|lia|split; tauto|split; tauto].
  - destruct (count_ st) as [c st0]. tot (MCond false (LElse, c)) n1 st0. tot MExpr n2 s.
    match goal with |- context [rec MExpr n3 ?q] => tot MExpr n3 q end. eauto.
  - tot MVoid n1 st. tot MExpr n2 s. eauto.
  - unfold gen_cast. destruct (is_bool t); [apply cmp_zero_total; [lia|split; tauto]|]. tot MExpr n st. eauto.
Qed.

Lemma expr2_total n st : (2 * wgt n <= N)%nat -> ok n -> exists x, gen_expr2 G rec n st = Ok x.
Proof.
  intros L O. unfold gen_expr2. destruct (opt (gc G)); [|apply plain_total; auto].
  destruct (expr_opt_total n st L O) as [x ->]. cbn [bind]. destruct x; [eauto|]. apply plain_total; auto.
Qed.

Lemma void_total n st : (2 * wgt n <= N)%nat -> ok n -> exists x, gen_void_expr G rec n st = Ok x.
Proof.
  intros L O. pose proof O as [W K]. destruct n; cbn [gen_void_expr]; eauto; try (apply expr2_total; auto; fail);
  cbn [wtn counts_ok wgt] in W, K, L;
  try (tot MVoid n st; eauto; fail); try (tot MVoid n1 st; tot MVoid n2 s; eauto; fail).
  destruct (is_bool t); tot MVoid n st; eauto.
Qed.
End Total.

(** The generator succeeds on every well-typed tree whose constant shift counts fit, given
    enough fuel. *)
Theorem gen_total G : cfg_ok (gc G) -> strict (gc G) = false -> saved (lptr G) -> 0 <= lvar_sz G ->
  forall f md n st, (meas md n < f)%nat -> wtn n -> counts_ok (gc G) n -> exists st', gen G f md n st = Ok st'.
Proof.
  intros CO LX FS LV. induction f as [|f IH]; intros md n st L W K; [lia|].
  assert (EXT : forall n st st', gen G f MExpr n st = Ok st' -> exists g s, slots st' = bumpm g s (slots st)).
  { intros n0 s0 s1 H. set (bs := fun _ : reg => 0).
    assert (F0 : frame_ok G bs (- 1)) by (unfold frame_ok, lpv, bs; repeat split; try lia; exact FS).
    destruct (gen_ok G (fun _ => 0) (fun _ => 0) bs (-1) (fun _ => 0) F0 CO f MExpr n0 s0 s1 H) as [c [g [s [X _]]]].
    exists g, s. apply (ex_sl _ _ _ _ _ _ X). }
  assert (TOT : forall md' n' st1, (meas md' n' < f)%nat -> ok G n' -> exists st', gen G f md' n' st1 = Ok st').
  { intros md' n' st1 H [W' K']. apply IH; auto. }
  unfold meas in L. destruct md; cbn [gen].
  - eapply expr2_total; eauto; [lia|split; auto].
  - eapply void_total; eauto; [lia|split; auto].
  - eapply cond_total; eauto; [lia|split; auto].
Qed.
