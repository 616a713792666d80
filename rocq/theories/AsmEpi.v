(** Proofs for AsmCodeModel.v: the code after the instructions. *)
From Coq Require Import Ascii String ZArith List Bool Lia Arith.
From Verif Require Import AsmSpec AsmModel AsmProofs AsmCodeSpec AsmCodeModel AsmMach AsmPro.
Import ListNotations.
Local Open Scope string_scope.
Local Open Scope Z_scope.
Local Open Scope list_scope.

Definition trip (e : item * obj) : side * loc * obj := (kside e, loc_of (kop e), snd e).
Lemma written_meq : forall f g M M' t, meq M M' -> meq (written f g M t) (written f g M' t).
Proof.
  intros f g M M' [[d lo] x] H. unfold written. destruct lo; try exact H; [|apply wr_meq; exact H].
  destruct (d_bits d) as [[b w]|]; [rewrite (rd_meq _ _ _ _ H)|]; apply wr_meq; exact H.
Qed.
Lemma fold_meq : forall f g ts M M', meq M M' -> meq (fold_left (written f g) ts M) (fold_left (written f g) ts M').
Proof. intros f g ts. induction ts as [|t ts IH]; intros M M' H; [exact H|]. cbn [fold_left]. apply IH. apply written_meq. exact H. Qed.
Lemma written_out : forall f g M d lo x a, ~ inside a (x_at x) (d_size d) -> written f g M (d, lo, x) a = M a.
Proof. intros f g M d lo x a H. unfold written. destruct lo; try reflexivity; apply wr_out; exact H. Qed.

(** * Bit-fields *)
Section Bits.
Variables (al : nat -> nat) (f0 : nat -> Z) (h : mref) (sz b w r tmp : nat) (A : Z) (M : memory).
Hypothesis BO : base_ok h.
Hypothesis NT : tmp <> r.
Hypothesis NA : al BP <> r /\ al BX <> r /\ al BP <> tmp /\ al BX <> tmp.
Hypothesis SL : rd M (addr f0 h) 8 = A.
Hypothesis SZ : (8 * sz <= 64)%nat.
Hypothesis FIT : (b + w <= 8 * sz)%nat.
Let old := rd M A sz.
Definition st_ok (m : machine) : Prop := finds al f0 (rg m) /\ mm m = M.
Definition only (m m' : machine) : Prop := st_ok m' /\ forall q, q <> r -> q <> tmp -> rg m' q = rg m q.
Lemma keep_set : forall m f k, st_ok m -> (forall q, q <> r -> q <> tmp -> f q = rg m q) -> only m (Mc f (mm m) k).
Proof.
  intros m f k [[FA FB] MM] H. destruct NA as [N1 [N2 [N3 N4]]]. split; [|exact H]. split; [|exact MM]. cbn [rg]. split; rewrite H; auto.
Qed.
Lemma ld_unit : forall m, st_ok m -> exists T, T mod two (8 * sz) = old /\
  exec [Ld 8 tmp (via al h); Ld sz tmp (Base tmp 0)] m = Some (Mc (set (set (rg m) tmp A) tmp T) (mm m) (fl m)).
Proof.
  intros m [FD MM]. set (f1 := set (rg m) tmp A).
  exists (if gp tmp && (sz <? 4)%nat then f1 tmp / two (8 * sz) * two (8 * sz) + rd (mm m) (f1 tmp + 0) sz else rd (mm m) (f1 tmp + 0) sz). split.
  - unfold f1. rewrite set_same, Z.add_0_r, MM. fold old. eapply low_ok; [apply rd_range|]. destruct (gp tmp && (sz <? 4)%nat); [left|right]; reflexivity.
  - cbn [exec exec1]. rewrite andb_false_r, (finds_addr al f0), MM, SL by auto. reflexivity.
Qed.
Lemma or_unit : forall m c1 c2 k1 k2 (op1 op2 : Z -> Z), st_ok m ->
  (forall m0, exec1 c1 m0 = Some (Mc (set (rg m0) tmp (op1 (rg m0 tmp))) (mm m0) None)) -> (forall m0, exec1 c2 m0 = Some (Mc (set (rg m0) tmp (op2 (rg m0 tmp))) (mm m0) None)) ->
  (forall T k, T mod two (8 * sz) = old -> 0 <= k < Z.of_nat (8 * sz) -> Z.testbit (op2 (op1 T)) k = (Z.leb k1 k && Z.ltb k k2) && Z.testbit old k) ->
  exists m' z, exec [Ld 8 tmp (via al h); Ld sz tmp (Base tmp 0); c1; c2; OrR tmp r] m = Some m' /\ only m m' /\ rg m' r = Z.lor (rg m r) z /\
    forall k, 0 <= k < Z.of_nat (8 * sz) -> Z.testbit z k = (Z.leb k1 k && Z.ltb k k2) && Z.testbit old k.
Proof.
  intros m c1 c2 k1 k2 op1 op2 SO E1 E2 HB. destruct (ld_unit m SO) as [T [TM X]].
  change [Ld 8 tmp (via al h); Ld sz tmp (Base tmp 0); c1; c2; OrR tmp r] with ([Ld 8 tmp (via al h); Ld sz tmp (Base tmp 0)] ++ [c1; c2; OrR tmp r]).
  rewrite exec_app, X. cbn [exec]. rewrite E1, E2. cbn [exec1 rg mm].
  set (f := set (set (set (set (rg m) tmp A) tmp T) tmp _) tmp _). eexists. exists (op2 (op1 T)). split; [reflexivity|].
  assert (FT : f tmp = op2 (op1 T)) by (unfold f; rewrite !set_same; reflexivity).
  assert (FO : forall q, q <> tmp -> f q = rg m q) by (intros q Q; unfold f; rewrite !set_other by exact Q; reflexivity).
  split; [|split].
  - apply keep_set; [exact SO|]. intros q Q1 Q2. rewrite set_other by exact Q1. apply FO. exact Q2.
  - cbn [rg]. rewrite set_same, FT, FO by auto. reflexivity.
  - intros k Hk. apply HB; assumption.
Qed.
Lemma T_bit : forall T k, T mod two (8 * sz) = old -> 0 <= k < Z.of_nat (8 * sz) -> Z.testbit T k = Z.testbit old k.
Proof. intros T k H Hk. rewrite <- H. unfold two. rewrite Z.mod_pow2_bits_low by lia. reflexivity. Qed.
Lemma bits_ok : forall c m, asm_bitfield_out al (Slot h) sz b w r tmp = Ok c -> st_ok m ->
  exists m', exec c m = Some m' /\ mm m' = wr M A sz (field old (rg m r) b w) /\ forall q, q <> r -> q <> tmp -> rg m' q = rg m q.
Proof.
  intros c m H SO. unfold asm_bitfield_out in H. destruct (gp r && gp_size sz); [|discriminate H].
  apply (f_equal (fun x => match x with Ok y => y | _ => [] end)) in H. cbv beta iota in H. subst c. set (v := rg m r).
  set (v1 := (v * two (64 - w)) mod two 64). set (v2 := (v1 mod two 64) / two (64 - w - b)).
  set (m1 := Mc (set (set (rg m) r v1) r v2) (mm m) None).
  assert (X1 : exec [Shl (64 - w) r; Shr (64 - w - b) r] m = Some m1).
  { cbn [exec exec1 rg mm fl]. rewrite set_same. reflexivity. }
  assert (O1 : only m m1) by (apply keep_set; [exact SO|]; intros q Q1 Q2; rewrite !set_other by exact Q1; reflexivity).
  assert (B2 : forall k, 0 <= k < Z.of_nat (8 * sz) -> Z.testbit v2 k = (Z.leb (Z.of_nat b) k && Z.ltb k (Z.of_nat (b + w))) && Z.testbit v (k - Z.of_nat b)).
  { intros k Hk. unfold v2. rewrite shr_bits by lia. destruct (Z.ltb_spec (k + Z.of_nat (64 - w - b)) 64) as [L|L].
    - unfold v1. rewrite shl_bits by lia. replace (k + Z.of_nat (64 - w - b) - Z.of_nat (64 - w)) with (k - Z.of_nat b) by lia.
      destruct (Z.leb_spec (Z.of_nat b) k) as [L1|L1]; cbn [andb]; [|apply Z.testbit_neg_r; lia].
      destruct (Z.ltb_spec k (Z.of_nat (b + w))) as [L2|L2]; cbn [andb]; [reflexivity|lia].
    - destruct (Z.ltb_spec k (Z.of_nat (b + w))) as [L2|L2]; [lia|]. rewrite andb_false_r. reflexivity. }
  assert (HI : exists m' z, exec (if Nat.eqb (w + b) 64 then [] else [Ld 8 tmp (via al h); Ld sz tmp (Base tmp 0); Shr (w + b) tmp; Shl (w + b) tmp; OrR tmp r]) m1 = Some m' /\ only m1 m' /\
    rg m' r = Z.lor (rg m1 r) z /\ forall k, 0 <= k < Z.of_nat (8 * sz) -> Z.testbit z k = (Z.leb (Z.of_nat (b + w)) k && Z.ltb k 64) && Z.testbit old k).
  { destruct (Nat.eqb_spec (w + b) 64) as [E|E].
    - exists m1, 0. split; [reflexivity|]. split; [split; [exact (proj1 O1)|auto]|]. split; [rewrite Z.lor_0_r; reflexivity|]. intros k Hk. rewrite Z.bits_0.
      destruct (Z.leb_spec (Z.of_nat (b + w)) k); [lia|reflexivity].
    - apply or_unit with (op1 := fun T => (T mod two 64) / two (w + b)) (op2 := fun T => (T * two (w + b)) mod two 64); try reflexivity; [exact (proj1 O1)|].
      intros T k HT Hk. rewrite shl_bits by lia. destruct (Z.ltb_spec k 64); [|lia]. rewrite andb_true_r. destruct (Z.leb_spec (Z.of_nat (b + w)) k) as [L|L]; cbn [andb].
      + rewrite shr_bits by lia. replace (k - Z.of_nat (w + b) + Z.of_nat (w + b)) with k by lia. destruct (Z.ltb_spec k 64); [|lia]. apply T_bit; auto.
      + apply Z.testbit_neg_r. lia. }
  destruct HI as [m2 [zh [X2 [O2 [R2 BH]]]]].
  assert (LO : exists m' z, exec (if Nat.eqb b 0 then [] else [Ld 8 tmp (via al h); Ld sz tmp (Base tmp 0); Shl (64 - b) tmp; Shr (64 - b) tmp; OrR tmp r]) m2 = Some m' /\ only m2 m' /\
    rg m' r = Z.lor (rg m2 r) z /\ forall k, 0 <= k < Z.of_nat (8 * sz) -> Z.testbit z k = (Z.leb 0 k && Z.ltb k (Z.of_nat b)) && Z.testbit old k).
  { destruct (Nat.eqb_spec b 0) as [E|E].
    - exists m2, 0. split; [reflexivity|]. split; [split; [exact (proj1 O2)|auto]|]. split; [rewrite Z.lor_0_r; reflexivity|]. intros k Hk. rewrite Z.bits_0.
      destruct (Z.ltb_spec k (Z.of_nat b)); [lia|]. rewrite andb_false_r. reflexivity.
    - apply or_unit with (op1 := fun T => (T * two (64 - b)) mod two 64) (op2 := fun T => (T mod two 64) / two (64 - b)); try reflexivity; [exact (proj1 O2)|].
      intros T k HT Hk. rewrite shr_bits by lia. destruct (Z.leb_spec 0 k); [|lia]. cbn [andb]. destruct (Z.ltb_spec k (Z.of_nat b)) as [L|L]; cbn [andb].
      + destruct (Z.ltb_spec (k + Z.of_nat (64 - b)) 64); [|lia]. rewrite shl_bits by lia. replace (k + Z.of_nat (64 - b) - Z.of_nat (64 - b)) with k by lia. apply T_bit; auto.
      + destruct (Z.ltb_spec (k + Z.of_nat (64 - b)) 64); [lia|reflexivity]. }
  destruct LO as [m3 [zl [X3 [O3 [R3 BL]]]]]. destruct O3 as [[FD3 MM3] O3].
  set (m4 := Mc (set (rg m3) tmp A) (wr (mm m3) (A + 0) sz (set (rg m3) tmp A r)) (fl m3)). exists m4. split.
  { rewrite exec_app, X1, exec_app, X2, exec_app, X3. cbn [exec exec1]. rewrite andb_false_r, (finds_addr al f0), MM3, SL by auto. cbn [rg mm fl addr]. rewrite set_same. unfold m4. rewrite MM3. reflexivity. }
  split.
  - unfold m4. cbn [mm]. rewrite set_other, Z.add_0_r, MM3 by auto. apply wr_mod. apply mod_bits. intros k Hk.
    rewrite R3, R2, !Z.lor_spec, BH, BL, field_bits by lia. change (rg m1 r) with (set (set (rg m) r v1) r v2 r). rewrite set_same, B2 by lia.
    destruct (Z.leb_spec (Z.of_nat b) k); destruct (Z.ltb_spec k (Z.of_nat (b + w))); destruct (Z.leb_spec (Z.of_nat (b + w)) k); destruct (Z.ltb_spec k 64);
      destruct (Z.leb_spec 0 k); destruct (Z.ltb_spec k (Z.of_nat b)); try lia; cbn [andb]; rewrite ?orb_false_r; reflexivity.
  - intros q Q1 Q2. unfold m4. cbn [rg]. rewrite set_other by exact Q2. rewrite O3, (proj2 O2), (proj2 O1) by assumption. reflexivity.
Qed.
End Bits.

(** * Outputs *)
Section Outs.
Variables (p : plan) (l : list (item * obj)) (U Uo : nat -> Prop).
Hypothesis K : known p l U Uo.
Variables (f0 : nat -> Z) (F : nat) (sv : nat -> Z).
Hypothesis LAY : layout f0 F sv l.
Hypothesis TMP : (forall e, In e l -> kout e = true -> ~ Uo (p_tmp p)) /\ p_tmp p <> alt_ptr p BP /\ p_tmp p <> alt_ptr p BX.
Hypothesis FIT : forall e b w, In e l -> d_bits (kside e) = Some (b, w) -> (b + w <= 8 * d_size (kside e))%nat.
Hypothesis OWN : forall e h, In e l -> ihome (fst e) = Own h -> addr f0 h = x_at (snd e).
Definition slots (M : memory) : Prop := forall e h, In e l -> ihome (fst e) = Slot h -> rd M (addr f0 h) 8 = x_at (snd e).
Definition bitty (e : item * obj) : bool := match o_kind (kop e), d_bits (kside e) with KReg, Some _ => true | _, _ => false end.
Definition is_flag (e : item * obj) : bool := match o_kind (kop e) with KFlag _ => true | _ => false end.
Definition touches (e : item * obj) (q : nat) : Prop := q = p_tmp p \/ (bitty e = true /\ q = o_reg (kop e)).
Lemma alt_free : forall e, In e l -> kout e = true -> ~ touches e (alt_ptr p BP) /\ ~ touches e (alt_ptr p BX).
Proof.
  intros e I O. destruct (alt_unused _ _ _ _ K) as [N1 N2]. destruct TMP as [_ [T1 T2]].
  assert (B : bitty e = true -> U (o_reg (kop e))).
  { unfold bitty. destruct (o_kind (kop e)) eqn:KK; try discriminate. intros _. apply (n_sub _ _ _ _ K). apply (n_out _ _ _ _ K); auto. }
  split; intros [E|[E1 E2]]; try congruence; [apply N1|apply N2]; rewrite E2; auto.
Qed.
Lemma gp_size_le : forall n, gp_size n = true -> (1 <= n <= 8)%nat.
Proof. intros n H. unfold gp_size in H. cbn [existsb] in H. repeat (apply orb_prop in H as [H|H]; [apply Nat.eqb_eq in H; lia|]). discriminate H. Qed.
Lemma ptr_ok : forall e m ref c, In e l -> kout e = true -> asm_gen_ptr (alt_ptr p) (ihome (fst e)) (p_tmp p) = Ok (ref, c) -> finds (alt_ptr p) f0 (rg m) -> slots (mm m) ->
  exists m', exec c m = Some m' /\ quiet (fun q => q = p_tmp p) m m' /\ addr (rg m') ref = x_at (snd e).
Proof.
  intros e m ref c I O H FD SL. pose proof (y_base _ _ _ _ LAY) as YB. specialize (YB (fst e) (snd e)).
  assert (I' : In (fst e, snd e) l) by (destruct e; exact I). specialize (YB I'). unfold asm_gen_ptr in H.
  assert (NC : forall h, ihome (fst e) <> Copy h).
  { intros h. destruct e as [[[out a] d] x]. cbn [kout fst snd] in O. subst out. cbn [fst ihome]. unfold home_of. destruct (a_memop _); discriminate. }
  destruct (ihome (fst e)) as [h|h|h|] eqn:IH; try discriminate H.
  - injection H as <- <-. exists m. split; [reflexivity|]. split; [split; [reflexivity|]; split; [reflexivity|]; auto|].
    rewrite (finds_addr _ f0); [apply (OWN e h I IH)|exact FD|]. rewrite (home_ref (fst e) h) by auto. exact YB.
  - injection H as <- <-. set (m' := Mc (set (rg m) (p_tmp p) (x_at (snd e))) (mm m) (fl m)). exists m'. split.
    + cbn [exec exec1]. rewrite andb_false_r, (finds_addr _ f0), (SL e h I IH); [reflexivity|exact FD|]. rewrite (home_ref (fst e) h) by auto. exact YB.
    + split; [split; [reflexivity|]; split; [reflexivity|]; intros q N; apply set_other; exact N|]. cbn [addr m' rg]. rewrite set_same. lia.
  - destruct (NC h eq_refl).
Qed.
Lemma flag_mem : forall M a n (v : bool), (1 <= n)%nat -> meq (wr (wr M a n 0) a 1 (if v then 1 else 0)) (wr M a n (if v then 1 else 0)).
Proof.
  intros M a n v Hn. destruct n as [|n]; [lia|]. cbn [wr]. set (b := if v then 1 else 0). assert (B : 0 <= b < 2) by (unfold b; destruct v; lia).
  replace (b / 256) with 0 by (symmetry; apply Z.div_small; lia). change (0 / 256) with 0. change (0 mod 256) with 0. intros y. unfold upd at 1.
  destruct (Z.eqb_spec y a) as [->|N].
  - rewrite wr_out by (unfold inside; lia). unfold upd. rewrite Z.eqb_refl. reflexivity.
  - destruct (Z.lt_ge_cases y (a + 1)) as [L|L].
    + rewrite !wr_out by (unfold inside; lia). unfold upd. destruct (Z.eqb_spec y a); [contradiction|reflexivity].
    + assert (C : forall k M1 M2 c v, (forall z, c <= z -> M1 z = M2 z) -> forall z, c <= z -> wr M1 c k v z = wr M2 c k v z).
      { intros k. induction k as [|k IH]; intros M1 M2 c u H z Hz; [apply H; exact Hz|]. cbn [wr]. destruct (Z.eq_dec z c) as [->|N'].
        - rewrite !wr_out by (unfold inside; lia). unfold upd. rewrite Z.eqb_refl. reflexivity.
        - apply IH; [|lia]. intros z' Hz'. unfold upd. destruct (Z.eqb_spec z' c); [reflexivity|]. apply H. lia. }
      apply C; [|exact L]. intros z Hz. unfold upd. destruct (Z.eqb_spec z a); [lia|reflexivity].
Qed.
Lemma one_out : forall f2 g e k m, In e l -> kout e = true -> output p (fst e) = Ok k -> finds (alt_ptr p) f0 (rg m) -> slots (mm m) ->
  (o_kind (kop e) = KReg -> rg m (o_reg (kop e)) = f2 (o_reg (kop e))) -> (is_flag e = true -> fl m = Some g) ->
  exists m', exec k m = Some m' /\ meq (mm m') (written f2 g (mm m) (trip e)) /\ (forall q, ~ touches e q -> rg m' q = rg m q) /\ (bitty e = false -> fl m' = fl m).
Proof.
  intros f2 g e k m I O H FD SL RV FL. destruct (alt_free e I O) as [AF1 AF2].
  assert (DOUT : fst e = (kout e, kop e, kside e)) by (destruct e as [[[out a] d] x]; reflexivity). unfold trip, written, loc_of.
  unfold output in H. rewrite DOUT in H.
  assert (NIL : Ok [] = Ok k -> meq (mm m) (written f2 g (mm m) (trip e)) -> exists m', exec k m = Some m' /\ meq (mm m') (written f2 g (mm m) (trip e)) /\ (forall q, ~ touches e q -> rg m' q = rg m q) /\ (bitty e = false -> fl m' = fl m)).
  { intros X Y. injection X as <-. exists m. split; [reflexivity|]. split; [exact Y|]. split; [reflexivity|]. intros _. reflexivity. }
  unfold trip, written, loc_of in NIL. destruct (o_kind (kop e)) eqn:KK; try (apply NIL; [exact H|intros y; reflexivity]); clear NIL; cbv beta iota.
  - rewrite <- DOUT in H. specialize (RV eq_refl). destruct (n_out _ _ _ _ K e I O KK) as [NZ UO]. assert (NT : p_tmp p <> o_reg (kop e)) by (intros E; apply (proj1 TMP e I O); rewrite E; exact UO).
    destruct (d_bits (kside e)) as [[b w]|] eqn:BB.
    + assert (BT : bitty e = true) by (unfold bitty; rewrite KK, BB; reflexivity).
      destruct (ihome (fst e)) as [h|h|h|] eqn:IH; try discriminate H.
      assert (GS : gp_size (d_size (kside e)) = true) by (unfold asm_bitfield_out in H; destruct (gp_size (d_size (kside e))); [reflexivity|rewrite andb_false_r in H; discriminate H]).
      apply gp_size_le in GS. assert (I' : In (fst e, snd e) l) by (destruct e; exact I).
      destruct (bits_ok (alt_ptr p) f0 h (d_size (kside e)) b w (o_reg (kop e)) (p_tmp p) (x_at (snd e)) (mm m)) with (c := k) (m := m) as [m' [X [MM RR]]]; auto.
      * rewrite (home_ref (fst e) h) by auto. exact (y_base _ _ _ _ LAY _ _ I').
      * destruct TMP as [_ [T1 T2]]. unfold touches in AF1, AF2. repeat split; try congruence; intros E; [apply AF1|apply AF2]; right; auto.
      * lia.
      * split; [exact FD|reflexivity].
      * exists m'. split; [exact X|]. rewrite MM, RV. split; [intros y; reflexivity|]. split; [|congruence]. intros q N. apply RR; intros E; apply N; unfold touches; auto.
    + assert (BT : bitty e = false) by (unfold bitty; rewrite KK, BB; reflexivity).
      unfold asm_reg_output in H. bi H. destruct a as [ref c]. destruct ((gp (o_reg (kop e)) && gp_size (d_size (kside e))) || (xmm (o_reg (kop e)) && xmm_size (d_size (kside e)))); [|discriminate H].
      injection H as <-. destruct (ptr_ok e m ref c I O E FD SL) as [m' [X [[MM [FF RR]] AD]]]. eexists. split; [rewrite exec_app, X; cbn [exec exec1]; reflexivity|]. cbn [mm rg fl].
      rewrite AD, MM, (RR (o_reg (kop e))), RV by auto. split; [intros y; reflexivity|]. split; [|auto]. intros q N. apply RR. intros E'. apply N. left. exact E'.
  - rewrite <- DOUT in H. bi H. destruct a as [ref c]. destruct (gp_size (d_size (kside e))) eqn:GS; [|discriminate H]. apply gp_size_le in GS. injection H as <-.
    assert (FS : fl m = Some g) by (apply FL; unfold is_flag; rewrite KK; reflexivity).
    destruct (ptr_ok e m ref c I O E FD SL) as [m' [X [[MM [FF RR]] AD]]].
    assert (ZE : exists m2, exec (if (d_size (kside e) =? 1)%nat then [] else [Zero (d_size (kside e)) ref]) m' = Some m2 /\ rg m2 = rg m' /\ fl m2 = fl m' /\
      meq (wr (mm m2) (x_at (snd e)) 1 (if g f then 1 else 0)) (wr (mm m) (x_at (snd e)) (d_size (kside e)) (if g f then 1 else 0))).
    { destruct (Nat.eqb_spec (d_size (kside e)) 1) as [E1|E1].
      - exists m'. split; [reflexivity|]. split; [reflexivity|]. split; [reflexivity|]. rewrite E1, MM. intros y; reflexivity.
      - eexists. split; [cbn [exec exec1]; reflexivity|]. cbn [rg fl mm]. split; [reflexivity|]. split; [reflexivity|]. rewrite AD, MM. apply flag_mem. lia. }
    destruct ZE as [m2 [X2 [R2 [F2 M2]]]]. eexists. split.
    { rewrite exec_app, X, exec_app, X2. cbn [exec exec1]. rewrite F2, FF, FS, R2, AD. reflexivity. }
    cbn [rg mm fl]. split; [exact M2|]. split; [|intros _; congruence]. intros q N. apply RR. intros E'. apply N. left. exact E'.
Qed.
Definition later (e e' : item * obj) : Prop :=
  (o_kind (kop e) = KReg -> o_kind (kop e') = KReg -> o_reg (kop e) <> o_reg (kop e')) /\ (bitty e = true -> is_flag e' = false).
Lemma slots_written : forall f2 g e M, In e l -> kout e = true -> slots M -> slots (written f2 g M (trip e)).
Proof.
  intros f2 g e M I O SL e' h I' IH. rewrite <- (SL e' h I' IH). apply rd_ext. intros y Y. apply written_out. intros Z.
  assert (J : In (fst e, snd e) l) by (destruct e; exact I). assert (J' : In (fst e', snd e') l) by (destruct e'; exact I').
  pose proof (y_objs _ _ _ _ LAY _ _ _ _ h J J' IH) as D.
  assert (HO : exists h', ihome (fst e) = Own h' \/ ihome (fst e) = Slot h').
  { destruct e as [[[out a] d] x]. cbn [kout fst snd] in O. subst out. cbn [fst ihome]. unfold home_of. destruct (a_memop _); eauto. }
  assert (D' : disjoint (x_at (snd e)) (d_size (kside e)) (addr f0 h) 8) by (destruct HO as [h' [E|E]]; rewrite E in D; exact D).
  unfold disjoint, inside in *. lia.
Qed.
Lemma outs_ok : forall f2 g L k m, (forall e, In e L -> In e l /\ kout e = true) -> ForallOrdPairs later L -> each (output p) (map fst L) = Ok k ->
  finds (alt_ptr p) f0 (rg m) -> slots (mm m) -> (forall e, In e L -> o_kind (kop e) = KReg -> rg m (o_reg (kop e)) = f2 (o_reg (kop e))) ->
  ((exists e, In e L /\ is_flag e = true) -> fl m = Some g) ->
  exists m', exec k m = Some m' /\ meq (mm m') (fold_left (written f2 g) (map trip L) (mm m)) /\ finds (alt_ptr p) f0 (rg m') /\
    (forall q, q <> p_tmp p -> ~ Uo q -> rg m' q = rg m q) /\ (forall a, (forall e, In e L -> ~ inside a (x_at (snd e)) (d_size (kside e))) -> mm m' a = mm m a).
Proof.
  intros f2 g L. induction L as [|e L IH]; intros k m HL OP H FD SL RV FL; cbn [map each] in H.
  - injection H as <-. exists m. split; [reflexivity|]. split; [intros y; reflexivity|]. split; [exact FD|]. split; reflexivity.
  - bi H. bi H. injection H as <-. inversion OP as [|e0 L0 FA OP' EQ]; subst e0 L0. rewrite Forall_forall in FA. destruct (HL e (or_introl eq_refl)) as [I O].
    destruct (one_out f2 g e a m I O E FD SL) as [m1 [X1 [M1 [R1 F1]]]].
    { intros KK. apply RV; [left; reflexivity|exact KK]. }
    { intros IF. apply FL. exists e. split; [left; reflexivity|exact IF]. }
    assert (S1 : slots (mm m1)) by (intros e' h I' IHm; rewrite (rd_meq _ _ _ _ M1); apply (slots_written f2 g e (mm m) I O SL e' h I' IHm)).
    assert (FD1 : finds (alt_ptr p) f0 (rg m1)) by (destruct (alt_free e I O) as [A1 A2]; destruct FD as [B1 B2]; split; rewrite R1; assumption).
    destruct (IH a0 m1) as [m2 [X2 [M2 [FD2 [R2 O2]]]]]; auto.
    { intros e' I'. apply HL. right. exact I'. }
    { intros e' I' KK'. destruct (HL e' (or_intror I')) as [Il' O']. rewrite R1; [apply RV; [right; exact I'|exact KK']|].
      destruct (n_out _ _ _ _ K e' Il' O' KK') as [_ UO]. intros [T|[B T]].
      - apply (proj1 TMP e' Il' O'). rewrite <- T. exact UO.
      - destruct (FA e' I') as [D _]. unfold bitty in B. destruct (o_kind (kop e)) eqn:KE; try discriminate B. apply (D eq_refl KK'). symmetry. exact T. }
    { intros [e' [I' IF]]. destruct (bitty e) eqn:BT; [destruct (FA e' I') as [_ D]; rewrite (D BT) in IF; discriminate IF|]. rewrite F1 by reflexivity. apply FL. exists e'. split; [right; exact I'|exact IF]. }
    exists m2. split; [rewrite exec_app, X1; exact X2|]. split.
    { cbn [map fold_left]. intros y. rewrite M2. apply fold_meq. exact M1. }
    split; [exact FD2|]. split.
    + intros q Q1 Q2. rewrite R2, R1; auto. intros [T|[B T]]; [contradiction|]. unfold bitty in B. destruct (o_kind (kop e)) eqn:KE; try discriminate B.
      apply Q2. rewrite T. apply (n_out _ _ _ _ K e I O KE).
    + intros y Y. rewrite O2 by (intros e' I'; apply Y; right; exact I'). rewrite M1. apply written_out. apply Y. left. reflexivity.
Qed.

(** * All of it *)
Lemma pop_code : pop_frame_ptr p F sv = reloads (alt_ptr p F) sv (rev (frames p)) /\ pop_clobbers p F sv = reloads F sv (rev (masked p)).
Proof.
  split; [|reflexivity]. unfold pop_frame_ptr, reloads, frames, when. destruct (Nat.eqb (p_alt1 p) 0), (Nat.eqb (p_alt2 p) 0); reflexivity.
Qed.
Lemma frame_base : ~ In (alt_ptr p F) (rev (frames p)) /\ (In F (frames p) \/ alt_ptr p F = F).
Proof.
  assert (A1 : p_alt1 p = 0%nat \/ (AX <= p_alt1 p <= R15)%nat) by (destruct (n_alt1 _ _ _ _ K) as [[]|[]]; auto).
  assert (A2 : p_alt2 p = 0%nat \/ (AX <= p_alt2 p <= R15)%nat) by (destruct (n_alt2 _ _ _ _ K) as [[]|[]]; auto).
  pose proof (y_frame _ _ _ _ LAY) as YF. rewrite <- in_rev. unfold frames, alt_ptr, when.
  destruct (Nat.eqb_spec (p_alt1 p) 0) as [Z1|Z1], (Nat.eqb_spec (p_alt2 p) 0) as [Z2|Z2], YF as [-> | ->]; cbn [negb andb Nat.eqb BP BX In app];
    unfold AX, R15, BP, BX in *; (split; [intros Y; cbn [In] in Y; repeat (destruct Y as [Y|Y]; [lia|]); destruct Y|cbn [In]; auto]).
Qed.
Variable m0 : machine.
Hypothesis M0 : f0 = rg m0.
Lemma end_ok : forall (ch : nat -> Prop) g L k m1 m2, begun p l U m0 F sv m1 -> (forall e, In e l -> ready f0 (mm m0) (fst e) (snd e)) ->
  (forall e, In e L -> In e l /\ kout e = true) -> ForallOrdPairs later L -> each (output p) (map fst L) = Ok k ->
  (forall r, ch r -> (U r \/ r > 32)%nat) -> behaves ch (private f0 F sv l) m1 m2 -> fl m2 = Some g ->
  p_tmp p <> SP -> ((R12 <= p_tmp p <= R15)%nat -> In (p_tmp p) (p_mask p)) ->
  exists m3, exec (k ++ pop_frame_ptr p F sv ++ pop_clobbers p F sv) m2 = Some m3 /\ meq (mm m3) (fold_left (written (rg m2) g) (map trip L) (mm m2)) /\
    (forall q, In q saved -> rg m3 q = f0 q).
Proof.
  intros ch g L k m1 m2 B RD HL OP H CH BH FL TS TM. destruct B as [_ B2 B3 B4 B5]. rewrite <- M0 in *.
  assert (A1 : p_alt1 p = 0%nat \/ (AX <= p_alt1 p <= R15)%nat) by (destruct (n_alt1 _ _ _ _ K) as [[]|[]]; auto).
  assert (A2 : p_alt2 p = 0%nat \/ (AX <= p_alt2 p <= R15)%nat) by (destruct (n_alt2 _ _ _ _ K) as [[]|[]]; auto).
  assert (SL : slots (mm m2)).
  { intros e h I IH. assert (J : In (fst e, snd e) l) by (destruct e; exact I).
    transitivity (rd (mm m0) (addr f0 h) 8); [|specialize (RD e I); unfold ready in RD; rewrite IH in RD; apply RD]. apply rd_ext. intros y Y.
    rewrite (b_mem _ _ _ _ BH) by (right; exists (fst e), (snd e), h; auto). apply B3. intros r R.
    pose proof (y_slots _ _ _ _ LAY _ _ r J R) as D. rewrite IH in D. destruct D as [_ D]. unfold disjoint, inside in *. lia. }
  assert (AU : ~ ch (alt_ptr p BP) /\ ~ ch (alt_ptr p BX)).
  { destruct (alt_unused _ _ _ _ K) as [N1 N2]. assert (R1 : (alt_ptr p BP <= 32)%nat) by (rewrite alt_bp; unfold AX, R15, BP in *; destruct (Nat.eqb (p_alt1 p) 0); lia).
    assert (R2 : (alt_ptr p BX <= 32)%nat) by (rewrite alt_bx; unfold AX, R15, BX in *; destruct (Nat.eqb (p_alt2 p) 0); lia).
    split; intros C; apply CH in C as [C|C]; auto; lia. }
  assert (FD : finds (alt_ptr p) f0 (rg m2)) by (destruct B2 as [X Y], AU as [N1 N2]; split; rewrite (b_regs _ _ _ _ BH) by assumption; assumption).
  destruct (outs_ok (rg m2) g L k m2 HL OP H FD SL) as [m3 [X3 [M3 [FD3 [R3 O3]]]]].
  { reflexivity. }
  { intros _. exact FL. }
  assert (SV : forall r, In r (masked p ++ frames p) -> rd (mm m3) (f0 F + sv r) 8 = f0 r).
  { intros r R. rewrite <- (B4 r R). assert (KR : In r keepers) by (apply in_app_iff in R as [R|R]; [eapply keep_m|eapply keep_f]; exact R). apply rd_ext. intros y Y.
    rewrite O3; [apply (b_mem _ _ _ _ BH); left; exists r; auto|]. intros e I Z. destruct (HL e I) as [Il O].
    assert (J : In (fst e, snd e) l) by (destruct e; exact Il). pose proof (y_slots _ _ _ _ LAY _ _ r J KR) as D.
    assert (HO : exists h', ihome (fst e) = Own h' \/ ihome (fst e) = Slot h').
    { destruct e as [[[out a] d] x]. cbn [kout fst snd] in O. subst out. cbn [fst ihome]. unfold home_of. destruct (a_memop _); eauto. }
    assert (D' : disjoint (x_at (snd e)) (d_size (kside e)) (f0 F + sv r) 8) by (destruct HO as [h' [E|E]]; rewrite E in D; [exact D|exact (proj1 D)]).
    unfold disjoint, inside in *. lia. }
  destruct pop_code as [PC1 PC2]. destruct frame_base as [FB1 FB2].
  assert (BF : rg m3 (alt_ptr p F) = f0 F) by (destruct FD3 as [X Y]; destruct (y_frame _ _ _ _ LAY) as [-> | ->]; assumption).
  destruct (reloads_ok (alt_ptr p F) sv (rev (frames p)) m3 f0 FB1) as [m4 [X4 [M4 [V4 R4]]]].
  { intros r R. rewrite <- in_rev in R. rewrite BF. apply SV. apply in_app_iff. right. exact R. }
  assert (BF4 : rg m4 F = f0 F).
  { destruct FB2 as [I|E]; [apply V4; rewrite <- in_rev; exact I|]. rewrite R4; rewrite <- E at 1; [exact BF|]. exact FB1. }
  destruct (reloads_ok F sv (rev (masked p)) m4 f0) as [m5 [X5 [M5 [V5 R5]]]].
  { rewrite <- in_rev. intros Y. apply masked_in in Y. destruct (y_frame _ _ _ _ LAY) as [E|E]; rewrite E in Y; unfold R12, R15, BP, BX in Y; lia. }
  { intros r R. rewrite <- in_rev in R. rewrite BF4, M4. apply SV. apply in_app_iff. left. exact R. }
  exists m5. split; [rewrite exec_app, X3, exec_app, PC1, X4, PC2; exact X5|]. split; [rewrite M5, M4; exact M3|].
  intros q Q. destruct (in_dec Nat.eq_dec q (masked p)) as [QM|QM]; [apply V5; rewrite <- in_rev; exact QM|]. rewrite R5 by (rewrite <- in_rev; exact QM).
  destruct (in_dec Nat.eq_dec q (frames p)) as [QF|QF]; [apply V4; rewrite <- in_rev; exact QF|]. rewrite R4 by (rewrite <- in_rev; exact QF).
  assert (NM : (R12 <= q <= R15)%nat -> ~ In q (p_mask p)).
  { intros RG Y. apply QM. unfold masked. apply filter_In. split; [unfold range; apply in_seq; unfold R12, R15 in *; lia|]. unfold mem. apply existsb_exists. exists q. split; [exact Y|apply Nat.eqb_refl]. }
  assert (FZ : (q = BP -> p_alt1 p = 0%nat) /\ (q = BX -> p_alt2 p = 0%nat)).
  { split; intros ->; [destruct (Nat.eqb_spec (p_alt1 p) 0) as [Z|Z]|destruct (Nat.eqb_spec (p_alt2 p) 0) as [Z|Z]]; auto; exfalso; apply QF; unfold frames, when; apply in_app_iff; [left|right];
      (destruct (Nat.eqb_spec (p_alt1 p) 0), (Nat.eqb_spec (p_alt2 p) 0); try contradiction; left; reflexivity). }
  destruct FZ as [FZ1 FZ2].
  assert (QR : (R12 <= q <= R15)%nat \/ q = BP \/ q = BX \/ q = SP) by (unfold saved in Q; cbn [In] in Q; unfold R12, R15; lia).
  assert (NU : ~ U q).
  { intros u. destruct QR as [RG|[-> |[-> | ->]]].
    - apply (NM RG). apply (n_mask _ _ _ _ K); auto.
    - destruct (n_alt1 _ _ _ _ K) as [[_ Y]|[Y _]]; [contradiction|]. rewrite (FZ1 eq_refl) in Y. unfold AX in Y. lia.
    - destruct (n_alt2 _ _ _ _ K) as [[_ Y]|[Y _]]; [contradiction|]. rewrite (FZ2 eq_refl) in Y. unfold AX in Y. lia.
    - exact (n_sp _ _ _ _ K u). }
  assert (NA : q <> p_alt1 p /\ q <> p_alt2 p).
  { destruct QR as [RG|QR].
    - split; intros E; apply (NM RG); apply (n_mask _ _ _ _ K); auto.
    - destruct A1 as [A1|A1], A2 as [A2|A2]; rewrite ?A1, ?A2; unfold AX, R15, BP, BX, SP in *; lia. }
  assert (NT : q <> p_tmp p).
  { intros E. destruct TMP as [_ [T1 T2]]. destruct QR as [RG|[Y|[Y|Y]]].
    - apply (NM RG). rewrite E in RG |- *. apply TM. exact RG.
    - apply T1. rewrite alt_bp, (FZ1 Y). cbn [Nat.eqb]. congruence.
    - apply T2. rewrite alt_bx, (FZ2 Y). cbn [Nat.eqb]. congruence.
    - apply TS. congruence. }
  rewrite R3, (b_regs _ _ _ _ BH); [apply B5; tauto| |exact NT|intros Y; apply NU; apply (n_sub _ _ _ _ K); exact Y].
  intros C. apply CH in C as [C|C]; [contradiction|]. unfold R12, R15, BP, BX, SP in QR. lia.
Qed.
End Outs.
