(** Facts about trees used by the code generation proof: leaves, conditions, constants. *)
From Coq Require Import ZArith List Bool Lia.
From Verif Require Import Base BitLemmas IntSpec IntLemmas IntModel IntTyped IntProofs IntFold
  IntElab IntMain X86 CgModel CgLemmas CgSeq CgSeq2 CgSeq3 CgInv.
Import ListNotations.
Local Open Scope Z_scope.

Lemma conv_zero i u x : in_range i x -> iwidth i <= iwidth u -> u <> TBool -> (conv u x =? 0) = (x =? 0).
Proof.
  intros R W N. destruct (Z.eqb_spec x 0) as [->|NX].
  - rewrite conv_id; [reflexivity|]. apply in_range_nb. pose proof (iwidth_pos u).
    pose proof (pow2_pos (iwidth u - 1) ltac:(lia)). pose proof (pow2_pos (iwidth u) ltac:(lia)).
    destruct (isigned u); lia.
  - apply Z.eqb_neq. intros Q. apply NX.
    assert (M : x mod 2 ^ iwidth u = 0).
    { rewrite <- conv_mod by auto. rewrite Q. apply Z.mod_0_l.
      pose proof (pow2_pos (iwidth u)). pose proof (iwidth_pos u). lia. }
    apply in_range_nb in R. pose proof (iwidth_pos u) as P2. pose proof (iwidth_pos i).
    assert (2 ^ iwidth i <= 2 ^ iwidth u) by (apply Z.pow_le_mono_r; lia).
    assert (2 ^ (iwidth i - 1) <= 2 ^ (iwidth u - 1)) by (apply Z.pow_le_mono_r; lia).
    pose proof (pow2_half (iwidth u) ltac:(lia)). pose proof (pow2_pos (iwidth u - 1) ltac:(lia)).
    apply Z.mod_divide in M; [|lia]. destruct M as [k M].
    assert (B : - 2 ^ iwidth u < x < 2 ^ iwidth u) by (destruct (isigned i); lia).
    set (q := 2 ^ iwidth u) in *. assert (k = 0); [|subst k; lia]. nia.
Qed.

Lemma conv_bool x : conv TBool x = b2z (negb (x =? 0)).
Proof. unfold conv. destruct (x =? 0); reflexivity. Qed.

Lemma c_cmp_flip o f x y : c_cmp (flip_cmp o f) x y = xorb (c_cmp o x y) f.
Proof.
  destruct f; cbn [flip_cmp]; [|rewrite xorb_false_r; reflexivity].
  rewrite xorb_true_r. destruct o; cbn [c_cmp];
  destruct (Z.eqb_spec x y), (Z.ltb_spec x y), (Z.leb_spec x y), (Z.ltb_spec y x), (Z.leb_spec y x);
  cbn; try reflexivity; lia.
Qed.

Lemma c_cmp_swap o x y : c_cmp (swap_cmp o) y x = c_cmp o x y.
Proof. destruct o; cbn [c_cmp swap_cmp]; try reflexivity; rewrite Z.eqb_sym; reflexivity. Qed.

Lemma flip_swap o f : flip_cmp (swap_cmp o) f = swap_cmp (flip_cmp o f).
Proof. destruct o, f; reflexivity. Qed.

Section Tree.
Variable G : genv.
Variable sym : nat -> Z.
Variable env : nat -> Z.
Variable bs : reg -> Z.
Variable P : Z.
Variable mem0 : Z -> Z.
Hypothesis FR : frame_ok G bs P.
Hypothesis CO : cfg_ok (gc G).

Local Notation cgok := (cgok G sym env bs P mem0).
Local Notation place := (place G sym env bs P mem0).
Local Notation good := (good G bs P mem0).
Local Notation vaddr := (vaddr G sym bs).
Local Notation slc := (slc sym).

(** ** Conversions keep the placement of leaves. *)
Lemma new_cast_place n t n' : new_cast (gc G) n t = Ok n' -> place n -> place n'.
Proof.
  unfold new_cast. intros H L. destruct (opt (gc G)); [|injection H as <-; exact L].
  destruct (eval2 (gc G) (NCast t n)); [injection H as <-; exact Logic.I|discriminate|].
  destruct (negb (is_bitfield n) && same (gc G) (nty n) t); [injection H as <-; exact L|].
  destruct (is_redundant_cast n t) eqn:E; injection H as <-; [|exact L].
  destruct n; try discriminate. exact L.
Qed.

Lemma int_promotion_place n n' : int_promotion (gc G) n = Ok n' -> place n -> place n'.
Proof.
  unfold int_promotion. intros H L. destruct (is_bitfield2 n).
  - destruct (_ && _); [eapply new_cast_place; eauto|]. destruct (_ <=? _); eapply new_cast_place; eauto.
  - destruct (_ <? _); [eapply new_cast_place; eauto|]. destruct (sz (nty n) =? 4); [|congruence].
    bnd H. destruct (a <? 1); [eapply new_cast_place; eauto|congruence].
Qed.

Lemma usual_place a b a2 b2 : usual_arith_conv (gc G) a b = Ok (a2, b2) -> place a -> place b ->
  place a2 /\ place b2.
Proof.
  unfold usual_arith_conv. intros H La Lb. bnd H. injection H as <- <-.
  split; eapply new_cast_place; eauto; eapply int_promotion_place; eauto.
Qed.

Lemma cond_cast_place n n' : cond_cast (gc G) n = Ok n' -> place n -> place n'.
Proof. intros H L. destruct n; try (eapply new_cast_place; [exact H|exact L]); injection H as <-; exact L. Qed.

Lemma cond_cast_boolish n n' : wtn n -> cond_cast (gc G) n = Ok n' -> boolish n' = true.
Proof.
  intros W H.
  assert (N : new_cast (gc G) n ty_bool = Ok n' -> boolish n' = true).
  { intros E. apply new_cast_ok in E; auto; [|reflexivity]. destruct E.
    unfold boolish. rewrite cr_ty. destruct n'; reflexivity. }
  destruct n; try (apply N; exact H); injection H as <-; reflexivity.
Qed.

(** ** Values of conditions *)
Lemma in_range_bool v : in_range TBool v -> v = 0 \/ v = 1.
Proof. unfold in_range, imin, imax. cbn. lia. Qed.

Lemma b2z_01 b : b2z b = 0 \/ b2z b = 1. Proof. destruct b; auto. Qed.

Lemma boolish_val n v : wtn n -> venv env n -> boolish n = true -> teval env n = Some v -> v = 0 \/ v = 1.
Proof.
  intros W V B T.
  assert (H : is_bool (nty n) = true -> v = 0 \/ v = 1).
  { intros E. pose proof (teval_range env n W V v T) as R.
    replace (ity (nty n)) with TBool in R; [apply in_range_bool; exact R|].
    unfold ity. unfold is_bool in E. destruct (kd (nty n)); try discriminate. reflexivity. }
  destruct n; try (apply H; exact B); cbn [teval] in T.
  - destruct (teval env n); [|discriminate]. injection T as <-. apply b2z_01.
  - destruct (teval env n1), (teval env n2); try discriminate. injection T as <-. apply b2z_01.
  - destruct (teval env n1) as [x|]; [|discriminate]. destruct (x =? 0); [injection T as <-; auto|].
    destruct (teval env n2); [|discriminate]. injection T as <-. apply b2z_01.
  - destruct (teval env n1) as [x|]; [|discriminate]. destruct (negb (x =? 0)); [injection T as <-; auto|].
    destruct (teval env n2); [|discriminate]. injection T as <-. apply b2z_01.
Qed.

(** ** Widths *)
Lemma wbits_cases n : wbits n = 64 \/ wbits n = 32.
Proof. unfold wbits. destruct (_ || _); auto. Qed.

Lemma wbits_boolish n : boolish n = true -> wbits n = 64.
Proof. unfold wbits. intros ->. rewrite orb_true_r. reflexivity. Qed.

Lemma bool_boolish n : is_bool (nty n) = true -> boolish n = true.
Proof. intros H. destruct n; try exact H; reflexivity. Qed.

Lemma wbits_le n a : boolish n = is_bool (nty n) -> nty a = nty n -> 0 <= wbits n <= wbits a.
Proof.
  intros B T. unfold wbits. rewrite T, B. destruct (sz (nty n) =? 8); cbn [orb]; [lia|].
  destruct (is_bool (nty n)) eqn:E.
  - rewrite bool_boolish by congruence. lia.
  - destruct (boolish a); lia.
Qed.

Lemma arith_nobool t : arith_ty t -> is_bool t = false.
Proof. intros H. apply arith_inv in H. destruct H as [i [-> [_ [W [N _]]]]]. destruct i; try reflexivity. congruence. Qed.

Lemma wbits_arith n : arith_ty (nty n) -> iwidth (ity (nty n)) <= wbits n /\
  (boolish n = is_bool (nty n) -> wbits n = iwidth (ity (nty n))).
Proof.
  intros A. pose proof (arith_nobool _ A) as NB. apply arith_inv in A. destruct A as [i [E [Ei [W [N [S U]]]]]].
  rewrite Ei, S. unfold wbits.
  assert (C : sz (nty n) = 4 \/ sz (nty n) = 8) by (rewrite E in *; destruct i; cbn in *; try lia; congruence).
  destruct (Z.eqb_spec (sz (nty n)) 8) as [->|N8]; cbn [orb].
  - split; [lia|reflexivity].
  - assert (Q : sz (nty n) = 4) by lia. rewrite Q. split; [destruct (boolish n); lia|]. intros ->. rewrite NB. reflexivity.
Qed.

Lemma opnd a r v : arith_ty (nty a) -> eqm (wbits a) r v -> eqm (iwidth (ity (nty a))) r v.
Proof.
  intros A E. eapply eqm_le; [|exact E]. destruct (wbits_arith a A) as [H _].
  apply arith_inv in A. destruct A as [i [_ [Ei [W _]]]]. rewrite Ei in *. lia.
Qed.

Lemma arith_size t : arith_ty t -> exists s, size_of (sz t) = Ok s /\ opsize_of (sz t) = Ok s /\ big s /\
  nbits s = iwidth (ity t) /\ nbits s = 8 * sz t /\ gsize (sz t =? 8) = s /\ (sz t =? 8) = size_eqb s S8.
Proof.
  intros A. apply arith_inv in A. destruct A as [i [-> [E [W [N _]]]]]. rewrite E.
  destruct i; try congruence; cbn in W; try lia; eexists; (split; [reflexivity|]); unfold big; auto 10.
Qed.

Lemma is_ty_size t : is_ty t -> sz t = 1 \/ sz t = 2 \/ sz t = 4 \/ sz t = 8.
Proof. intros H. destruct (is_ty_inv t H) as [i [-> _]]. destruct i; cbn; auto. Qed.

Lemma eqm_le64 n r v : eqm 64 r v -> eqm (wbits n) r v.
Proof. apply eqm_le. destruct (wbits_cases n) as [-> | ->]; lia. Qed.

(** ** Constants *)
Lemma const_val n r : wtn n -> venv env n -> kenv (gc G) env n -> const_of G n = Ok (Some r) ->
  forall v, teval env n = Some v -> r = rep64 v.
Proof.
  intros W V K C v T. pose proof (eval2_ok (gc G) env n W V K v T) as A. unfold const_of in C.
  destruct (eval2 (gc G) n); try discriminate. injection C as <-. exact A.
Qed.

Lemma limit_imm_ok y s n : size_of n = Ok s -> 4 <= n ->
  eqm (nbits s) (limit_imm (rep64 y) n) y /\ imm_dom s (limit_imm (rep64 y) n).
Proof.
  intros S L. destruct (size_big n s S L) as [Bs NB]. unfold limit_imm, imm_dom.
  unfold size_of in S. destruct (Z.eqb_spec n 1); [lia|]. destruct (Z.eqb_spec n 2); [lia|].
  destruct (Z.eqb_spec n 4).
  - injection S as <-. cbn [nbits size_eqb]. split.
    + eapply eqm_trans; [apply eqm_sext; lia|]. apply eqm_rep64. lia.
    + rewrite sx_sext by lia. pose proof (sx_range 32 (rep64 y) ltac:(lia)). lia.
  - destruct (Z.eqb_spec n 8); [|discriminate]. injection S as <-. cbn [nbits size_eqb]. split.
    + apply eqm_rep64. lia.
    + pose proof (rep64_range y). unfold two63 in *. lia.
Qed.

(** ** Leaves in memory *)
Lemma mem_outside a k m : good m -> 0 <= k -> outside G bs P a k ->
  loadn (Z.to_nat k) a (mm m) = loadn (Z.to_nat k) a mem0.
Proof.
  intros [_ Gm] K [_ O]. apply loadn_ext. intros x Hx. apply Gm.
  rewrite Z2Nat.id in Hx by auto. destruct FR as [_ [_ [_ FV]]]. lia.
Qed.

Lemma var_memop_ok x ex b o : var_memop G x ex = Some (b, o) -> vloc_ok G sym x ->
  stable b /\ forall m, good m -> ea sym b o m = (vaddr x + ex) mod 2 ^ 64.
Proof.
  unfold var_memop, vloc_ok, CgInv.vaddr. destruct (loc G x) as [r o'|s rip|]; [| |discriminate].
  - intros [= <- <-] C. split; [exact C|]. intros m [Gc _]. unfold ea. rewrite Gc by exact C.
    rewrite Zplus_mod_idemp_l. f_equal. lia.
  - destruct rip; [|discriminate]. intros [= <- <-] C. split; [exact Logic.I|]. reflexivity.
Qed.

Lemma vaddr_range x : vloc_ok G sym x -> 0 <= vaddr x < 2 ^ 64.
Proof.
  unfold vloc_ok, CgInv.vaddr. destruct (loc G x); [|tauto|tauto]. intros _. apply mod_bound. lia.
Qed.

Lemma gen_addr_ok x m : vloc_ok G sym x -> good m ->
  slc (gen_addr G x) m (fun m' => rg m' AX = vaddr x).
Proof.
  intros V Gm. pose proof (vaddr_range x V) as RG.
  assert (D : slc (gen_addr_var G x) m (fun m' => rg m' AX = vaddr x)).
  { unfold gen_addr_var. unfold vloc_ok in V. unfold CgInv.vaddr in *. destruct (loc G x) as [r o|s rip|]; [| |contradiction].
    - xgo. unfold ea. destruct Gm as [Gc _]. rewrite Gc by exact V. apply Z.mod_mod. lia.
    - destruct V as [V1 V2]. destruct (pic G).
      + destruct rip; cbn [negb]; xgo.
        * unfold ea. rewrite Z.add_0_r, Z.mod_mod by lia. apply Z.mod_small. lia.
        * apply Z.mod_small. lia.
      + cbn [negb]. xgo. apply Z.mod_small. specialize (V2 eq_refl). lia. }
  unfold gen_addr. destruct (opt (gc G)); [|exact D].
  destruct (var_memop G x 0) as [[b o]|] eqn:E; [|exact D].
  destruct (var_memop_ok x 0 b o E V) as [S H]. xgo. rewrite H by auto. rewrite Z.add_0_r, Z.mod_mod by lia.
  apply Z.mod_small. lia.
Qed.

Lemma leaf_holds t x b o m : is_ty t -> leafv G sym env bs P mem0 t x -> good m ->
  ea sym b o m = vaddr x -> holds sym b o (tysize t) (env x) m.
Proof.
  intros T [V [O H]] Gm E. unfold holds. rewrite E. pose proof (is_ty_size t T).
  unfold tysize in *. rewrite mem_outside by (auto; lia). rewrite H, Z2Nat.id by lia. reflexivity.
Qed.

Lemma memop_ok n : forall b o v m, is_memop G n = Some (b, o) -> cgok n -> teval env n = Some v -> good m ->
  stable b /\ holds sym b o (tysize (nty n)) v m.
Proof.
  unfold is_memop.
  induction n; intros b' o' v' m H [W V K L] T Gm; try discriminate H.
  - cbn [skip_gp_cast nty teval] in *. injection T as <-. cbn [wtn CgInv.place] in *.
    destruct L as [L1 L2]. destruct (var_memop_ok x 0 b' o' H L1) as [S E]. split; [exact S|].
    apply leaf_holds; auto; [split; auto|]. rewrite E by auto. rewrite Z.add_0_r.
    apply Z.mod_small. apply vaddr_range; auto.
  - cbn [skip_gp_cast] in H. destruct ((sz t =? sz (nty n)) && negb (is_bool t)) eqn:C; [|discriminate].
    apply andb_true_iff in C. destruct C as [C1 C2]. apply Z.eqb_eq in C1. apply negb_true_iff in C2.
    cbn [wtn venv kenv CgInv.place nty teval] in *. destruct W as [Tt W].
    destruct (teval env n) as [w|] eqn:TW; [|discriminate]. injection T as <-.
    destruct (IHn b' o' w m H (mkcgok _ _ _ _ _ _ _ W V K L) eq_refl Gm) as [S HH]. split; [exact S|].
    unfold tysize in *. rewrite C1. unfold holds in *. rewrite HH. symmetry.
    destruct (is_ty_inv t Tt) as [i [Et Ei]]. rewrite Ei.
    replace (8 * Z.of_nat (Z.to_nat (sz (nty n)))) with (iwidth i).
    + apply conv_mod. intros ->. subst t. discriminate.
    + rewrite <- C1, Et. destruct i; try reflexivity. subst t. discriminate.
Qed.

Lemma holds_eqm b o k x y m : eqm (8 * Z.of_nat k) x y -> holds sym b o k x m -> holds sym b o k y m.
Proof. unfold holds, eqm. congruence. Qed.

(** ** Comparison with zero *)
Lemma cmp_zero_ok o a p : usual_arith_conv (gc G) a (NNum (nty a) 0) = Ok p -> o = CEq \/ o = CNe ->
  cgok a -> cgok (NCmp o (fst p) (snd p)) /\
  forall v, teval env a = Some v -> teval env (NCmp o (fst p) (snd p)) = Some (b2z (c_cmp o v 0)).
Proof.
  intros H Ho [W V K L]. destruct p as [p q]. cbn [fst snd].
  pose proof (wtn_is_ty a W) as TA. destruct (is_ty_inv _ TA) as [i [Ei Ii]].
  assert (WN : wtn (NNum (nty a) 0)).
  { cbn [wtn]. split; [exact TA|]. rewrite Ii. destruct i; reflexivity. }
  destruct (usual_arith_conv_ok (gc G) a (NNum (nty a) 0) p q CO W WN H) as
    [Wp [Wq [Tp [Tq [RK [_ [_ [Ep Eq_]]]]]]]].
  destruct (usual_place a (NNum (nty a) 0) p q H L Logic.I) as [Lp Lq].
  destruct (Ep env V K) as [Vp [Kp Vp']]. destruct (Eq_ env Logic.I Logic.I) as [Vq [Kq Vq']].
  set (pa := promoted_m (is_bitfield2 a) (ity (nty a))) in *.
  cbn [is_bitfield2 nty] in *. set (pb := promoted_m None (ity (nty a))) in *. set (u := usual pa pb) in *.
  split.
  - constructor; cbn [wtn venv kenv CgInv.place nty]; auto. rewrite Tp, Tq.
    split; [apply big_arith; exact RK|]. auto.
  - intros v T. cbn [teval opt2]. rewrite (Vp' v T).
    rewrite (Vq' 0) by (cbn [teval]; rewrite Ii; destruct i; reflexivity).
    assert (NU : u <> TBool) by (intros E; rewrite E in RK; cbn in RK; lia).
    assert (Z0 : conv u (conv pb 0) = 0).
    { replace (conv pb 0) with 0 by (destruct pb; reflexivity). destruct u; reflexivity. }
    rewrite Z0.
    pose proof (promote_value env a W V v T) as RP. fold pa in RP. rewrite (conv_id pa) by auto.
    assert (WD : iwidth pa <= iwidth u).
    { assert (Ra : 3 <= irank pa) by (apply promoted_big; intros; apply bf_width; auto).
      assert (Rb : 3 <= irank pb) by (apply promoted_big; intros; discriminate).
      unfold u. clear - Ra Rb. destruct pa; cbn in Ra; try lia; destruct pb; cbn in Rb; try lia; vm_compute; discriminate. }
    pose proof (conv_zero pa u v RP WD NU) as CZ.
    assert (QQ : c_cmp o (conv u v) 0 = c_cmp o v 0) by (destruct Ho as [-> | ->]; cbn [c_cmp]; rewrite CZ; reflexivity).
    cbn [opt2]. rewrite QQ. reflexivity.
Qed.

(** ** Boolean structure *)
Lemma bool_expr_opt2_ok : forall n h bx e f, bool_expr_opt2 n h bx = Some (e, f) ->
  bx = Some (e, f) \/
  (boolish e = true /\ (cgok n -> cgok e /\ forall v, teval env n = Some v ->
      exists w, teval env e = Some w /\ (v = 0 \/ v = 1) /\
        xorb (negb (v =? 0)) h = xorb (negb (w =? 0)) f)).
Proof.
  assert (SELF : forall n h (e : node) (f : bool), boolish n = true -> Some (n, h) = Some (e, f) ->
    boolish e = true /\ (cgok n -> cgok e /\ forall v, teval env n = Some v ->
      exists w, teval env e = Some w /\ (v = 0 \/ v = 1) /\ xorb (negb (v =? 0)) h = xorb (negb (w =? 0)) f)).
  { intros n h e f B [= <- <-]. split; [exact B|]. intros C. split; [exact C|]. intros v T. exists v.
    split; [exact T|]. split; [|reflexivity]. destruct C. eapply boolish_val; eauto. }
  induction n; intros h bx e f H; cbn [bool_expr_opt2] in H;
    try (match type of H with (if is_bool (nty ?n) then _ else _) = _ =>
           destruct (is_bool (nty n)) eqn:B; [right|left; exact H] end;
         eapply SELF; [apply bool_boolish; exact B|exact H]);
    try (right; eapply SELF; [|exact H]; reflexivity).
  - (* NNot *)
    apply IHn in H. destruct H as [H|[B H]]; [left; exact H|right]. split; [exact B|].
    intros [W V K L]. cbn [wtn venv kenv CgInv.place] in *. destruct L as [LB L].
    destruct (H (mkcgok _ _ _ _ _ _ _ W V K L)) as [Ce HE]. split; [exact Ce|].
    intros v T. cbn [teval] in T. destruct (teval env n) as [w0|]; [|discriminate]. injection T as <-.
    destruct (HE w0 eq_refl) as [w [TW [W01 X]]]. exists w. split; [exact TW|]. split; [apply b2z_01|].
    rewrite <- X. destruct (w0 =? 0), h; reflexivity.
  - (* NCast *)
    apply IHn in H. destruct (is_bool t) eqn:B.
    + destruct H as [H|[B' H]].
      * right. eapply SELF; [|exact H]. exact B.
      * right. split; [exact B'|]. intros [W V K L]. cbn [wtn venv kenv CgInv.place] in *.
        destruct W as [Tt W]. destruct (H (mkcgok _ _ _ _ _ _ _ W V K L)) as [Ce HE]. split; [exact Ce|].
        intros v T. cbn [teval] in T. destruct (teval env n) as [w0|]; [|discriminate]. injection T as <-.
        destruct (HE w0 eq_refl) as [w [TW [W01 X]]]. exists w. split; [exact TW|].
        assert (E : conv (ity t) w0 = w0).
        { apply conv_id. destruct (is_ty_inv t Tt) as [i [-> Ei]]. rewrite Ei.
          destruct i; destruct W01 as [-> | ->]; vm_compute; split; discriminate. }
        rewrite E. auto.
    + destruct H as [H|[B' H]]; [left; exact H|right]. split; [exact B'|].
      intros [W V K L]. cbn [wtn venv kenv CgInv.place] in *.
      destruct W as [Tt W]. destruct (H (mkcgok _ _ _ _ _ _ _ W V K L)) as [Ce HE]. split; [exact Ce|].
      intros v T. cbn [teval] in T. destruct (teval env n) as [w0|]; [|discriminate]. injection T as <-.
      destruct (HE w0 eq_refl) as [w [TW [W01 X]]]. exists w. split; [exact TW|].
      assert (E : conv (ity t) w0 = w0).
      { apply conv_id. destruct (is_ty_inv t Tt) as [i [-> Ei]]. rewrite Ei.
        destruct i; destruct W01 as [-> | ->]; vm_compute; split; discriminate. }
      rewrite E. auto.
Qed.
End Tree.
