(** Proofs for AsmCodeModel.v: the machine. *)
From Coq Require Import Ascii String ZArith List Bool Lia Arith.
From Verif Require Import AsmSpec AsmModel AsmCodeSpec AsmCodeModel.
Import ListNotations.
Local Open Scope string_scope.
Local Open Scope Z_scope.
Local Open Scope list_scope.

Lemma two_pos : forall n, 0 < two n. Proof. intros n. unfold two. apply Z.pow_pos_nonneg; lia. Qed.
Lemma two_8 : forall n, two (8 * S n) = 256 * two (8 * n).
Proof. intros n. unfold two. replace (Z.of_nat (8 * S n)) with (8 + Z.of_nat (8 * n)) by lia. rewrite Z.pow_add_r by lia. reflexivity. Qed.
Lemma rd_ext : forall n M M' a, (forall x, inside x a n -> M x = M' x) -> rd M a n = rd M' a n.
Proof.
  induction n as [|n IH]; intros M M' a H; [reflexivity|]. cbn [rd]. rewrite (H a) by (unfold inside; lia). f_equal. f_equal. apply IH.
  intros x Hx. apply H. unfold inside in *. lia.
Qed.
Lemma rd_range : forall n M a, 0 <= rd M a n < two (8 * n).
Proof.
  induction n as [|n IH]; intros M a; [cbn; lia|]. rewrite two_8. cbn [rd]. specialize (IH M (a + 1)). pose proof (Z.mod_pos_bound (M a) 256 ltac:(lia)). lia.
Qed.
Lemma wr_out : forall n M a v x, ~ inside x a n -> wr M a n v x = M x.
Proof.
  induction n as [|n IH]; intros M a v x H; [reflexivity|]. cbn [wr]. rewrite IH by (unfold inside in *; lia). unfold upd.
  destruct (Z.eqb_spec x a); [unfold inside in H; lia|reflexivity].
Qed.
Lemma rd_wr : forall n M a v, rd (wr M a n v) a n = v mod two (8 * n).
Proof.
  induction n as [|n IH]; intros M a v; [cbn [rd]; change (two (8 * 0)) with 1; rewrite Z.mod_1_r; reflexivity|]. cbn [rd wr]. rewrite IH, wr_out by (unfold inside; lia).
  unfold upd at 1. rewrite Z.eqb_refl, Z.mod_mod by lia. rewrite two_8, Z.rem_mul_r by (try lia; apply two_pos). reflexivity.
Qed.
Definition meq (M M' : memory) : Prop := forall x, M x = M' x.
Lemma wr_meq : forall n M M' a v, meq M M' -> meq (wr M a n v) (wr M' a n v).
Proof. induction n as [|n IH]; intros M M' a v H; [exact H|]. cbn [wr]. apply IH. intros x. unfold upd. rewrite H. reflexivity. Qed.
Lemma rd_meq : forall n M M' a, meq M M' -> rd M a n = rd M' a n.
Proof. intros n M M' a H. apply rd_ext. intros x _. apply H. Qed.
Lemma wr_mod : forall n M a v v', v mod two (8 * n) = v' mod two (8 * n) -> wr M a n v = wr M a n v'.
Proof.
  induction n as [|n IH]; intros M a v v' H; [reflexivity|]. cbn [wr]. rewrite two_8 in H. pose proof (two_pos (8 * n)). rewrite !Z.rem_mul_r in H by lia.
  pose proof (Z.mod_pos_bound v 256 ltac:(lia)). pose proof (Z.mod_pos_bound v' 256 ltac:(lia)).
  assert (A : v mod 256 = v' mod 256) by lia. assert (B : v / 256 mod two (8 * n) = v' / 256 mod two (8 * n)) by lia. rewrite A. apply IH. exact B.
Qed.
Lemma wr_keep : forall n M a v b k, disjoint a n b k -> rd (wr M a n v) b k = rd M b k.
Proof. intros n M a v b k H. apply rd_ext. intros x Hx. apply wr_out. unfold inside, disjoint in *. lia. Qed.
Lemma exec_app : forall a b m, exec (a ++ b) m = match exec a m with Some m' => exec b m' | None => None end.
Proof. induction a as [|i a IH]; intros b m; [reflexivity|]. cbn [app exec]. destruct (exec1 i m); [apply IH|reflexivity]. Qed.
Lemma set_same : forall f r v, set f r v r = v. Proof. intros. unfold set. rewrite Nat.eqb_refl. reflexivity. Qed.
Lemma set_other : forall f r v q, q <> r -> set f r v q = f q. Proof. intros f r v q H. unfold set. destruct (Nat.eqb_spec q r); [contradiction|reflexivity]. Qed.

(** * Stack slots *)
Definition stores (F : nat) (sv : nat -> Z) (l : list nat) : list instr := map (fun r => St 8 r (Base F (sv r))) l.
Definition reloads (F : nat) (sv : nat -> Z) (l : list nat) : list instr := map (fun r => Ld 8 r (Base F (sv r))) l.
Lemma stores_ok : forall F sv l m, NoDup l -> (forall r q, In r l -> In q l -> r <> q -> disjoint (rg m F + sv r) 8 (rg m F + sv q) 8) ->
  exists m', exec (stores F sv l) m = Some m' /\ rg m' = rg m /\ fl m' = fl m /\
  (forall x, (forall r, In r l -> ~ inside x (rg m F + sv r) 8) -> mm m' x = mm m x) /\
  (forall r, In r l -> rd (mm m') (rg m F + sv r) 8 = rg m r mod two 64).
Proof.
  intros F sv. induction l as [|r l IH]; intros m ND D.
  - exists m. split; [reflexivity|]. split; [reflexivity|]. split; [reflexivity|]. split; [auto|intros r []].
  - inversion ND as [|r0 l0 NI ND' E]; subst. set (m1 := Mc (rg m) (wr (mm m) (rg m F + sv r) 8 (rg m r)) (fl m)).
    destruct (IH m1 ND') as [m' [E [R [FL [M V]]]]]; [intros a b A B; apply D; right; assumption|]. cbn [rg m1] in *.
    exists m'. split; [exact E|]. split; [exact R|]. split; [exact FL|]. split.
    + intros x H. rewrite M by (intros q Q; apply H; right; exact Q). apply wr_out. apply H. left. reflexivity.
    + intros q [<-|Q]; [|exact (V q Q)]. rewrite (rd_ext 8 (mm m') (mm m1)).
      * apply (rd_wr 8).
      * intros x Hx. apply M. intros q Q. intros Hq. assert (N : r <> q) by (intros ->; contradiction).
        pose proof (D r q (or_introl eq_refl) (or_intror Q) N) as X. unfold disjoint, inside in *. lia.
Qed.
Lemma reloads_ok : forall F sv l m (v : nat -> Z), ~ In F l -> (forall r, In r l -> rd (mm m) (rg m F + sv r) 8 = v r) ->
  exists m', exec (reloads F sv l) m = Some m' /\ mm m' = mm m /\ (forall r, In r l -> rg m' r = v r) /\ (forall q, ~ In q l -> rg m' q = rg m q).
Proof.
  intros F sv. induction l as [|r l IH]; intros m v NF V.
  - exists m. split; [reflexivity|]. split; [reflexivity|]. split; [intros r []|reflexivity].
  - assert (RF : F <> r) by (intros ->; apply NF; left; reflexivity).
    set (m1 := Mc (set (rg m) r (rd (mm m) (rg m F + sv r) 8)) (mm m) (fl m)).
    assert (B : rg m1 F = rg m F) by (apply set_other; exact RF).
    destruct (IH m1 v) as [m' [E [M [V' O]]]]; [intros X; apply NF; right; exact X|intros q Q; rewrite B; apply V; right; exact Q|].
    exists m'. split.
    { unfold reloads. cbn [map exec exec1]. cbn [addr]. rewrite andb_false_r. exact E. }
    split; [exact M|]. split.
    + intros q [<-|Q]; [|exact (V' q Q)]. destruct (in_dec Nat.eq_dec r l) as [I|N]; [exact (V' r I)|]. rewrite O by exact N. unfold m1. cbn [rg]. rewrite set_same. apply V. left. reflexivity.
    + intros q N. rewrite O by (intros X; apply N; right; exact X). apply set_other. intros ->. apply N. left. reflexivity.
Qed.

(** * Bit-fields *)
Lemma mod_bits : forall n a b, (forall k, 0 <= k < Z.of_nat n -> Z.testbit a k = Z.testbit b k) -> a mod two n = b mod two n.
Proof.
  intros n a b H. apply Z.bits_inj'. intros k Hk. unfold two. destruct (Z.lt_ge_cases k (Z.of_nat n)).
  - rewrite !Z.mod_pow2_bits_low by lia. apply H. lia.
  - rewrite !Z.mod_pow2_bits_high by lia. reflexivity.
Qed.
Lemma shl_bits : forall v j k, 0 <= k < 64 -> Z.testbit ((v * two j) mod two 64) k = Z.testbit v (k - Z.of_nat j).
Proof. intros v j k H. unfold two. rewrite Z.mod_pow2_bits_low by lia. rewrite Z.mul_pow2_bits by lia. reflexivity. Qed.
Lemma shr_bits : forall v j k, 0 <= k -> Z.testbit ((v mod two 64) / two j) k = (if Z.ltb (k + Z.of_nat j) 64 then Z.testbit v (k + Z.of_nat j) else false).
Proof.
  intros v j k H. unfold two. rewrite Z.div_pow2_bits by lia. destruct (Z.ltb_spec (k + Z.of_nat j) 64); [apply Z.mod_pow2_bits_low|apply Z.mod_pow2_bits_high]; lia.
Qed.
Lemma field_bits : forall old v b w k, 0 <= k -> Z.testbit (field old v b w) k =
  if Z.leb (Z.of_nat b) k && Z.ltb k (Z.of_nat (b + w)) then Z.testbit v (k - Z.of_nat b) else Z.testbit old k.
Proof.
  intros old v b w k H. unfold field. rewrite Z.lor_spec, Z.ldiff_spec, !Z.shiftl_spec by lia.
  destruct (Z.leb_spec (Z.of_nat b) k) as [L|L]; cbn [andb].
  - destruct (Z.ltb_spec k (Z.of_nat (b + w))) as [L2|L2].
    + rewrite Z.ones_spec_low by lia. cbn [negb]. rewrite andb_false_r. unfold two. rewrite Z.mod_pow2_bits_low by lia. reflexivity.
    + rewrite Z.ones_spec_high by lia. cbn [negb]. rewrite andb_true_r. unfold two. rewrite Z.mod_pow2_bits_high by lia. apply orb_false_r.
  - rewrite (Z.testbit_neg_r (Z.ones _)), (Z.testbit_neg_r (v mod two w)) by lia. cbn [negb]. rewrite andb_true_r. apply orb_false_r.
Qed.
