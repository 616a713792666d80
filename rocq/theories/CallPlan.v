From Coq Require Import ZArith List Bool Lia.
From Verif Require Import Base BitLemmas X86 Sse MemSpec MemModel MemProofs FrameModel CallSpec CallModel CallProofs CallClass InitEmit.
Import ListNotations.
Local Open Scope Z_scope.
Local Opaque natural.

(** State after the arguments: registers used, stack used, alignment. *)
Record pst := mkp { p_gp : nat; p_fp : nat; p_st : Z; p_al : Z }.
Definition slot_of (t : aty) (s : pst) : Z := round_up (p_st s) (Z.max 8 (aalign t)).
Definition pstep (t : aty) (s : pst) : pst :=
  if stacked t (p_gp s) (p_fp s)
  then mkp (p_gp s) (p_fp s) (slot_of t s + round_up (asize t) 8)
           (if 8 <? aalign t then Z.max (p_al s) (aalign t) else p_al s)
  else mkp (p_gp s + ni t) (p_fp s + ns t) (p_st s) (p_al s).
Definition pdest (t : aty) (s : pst) : option Z := if stacked t (p_gp s) (p_fp s) then Some (slot_of t s) else None.
Fixpoint plan (ts : list aty) (s : pst) : list (option Z) :=
  match ts with [] => [] | t :: r => pdest t s :: plan r (pstep t s) end.
Definition pend (ts : list aty) (s : pst) : pst := fold_left (fun s t => pstep t s) ts s.

Lemma plan_app : forall a b s, plan (a ++ b) s = plan a s ++ plan b (pend a s).
Proof. induction a as [|t r IH]; intros b s; [reflexivity|]. cbn [app plan pend fold_left]. rewrite IH. reflexivity. Qed.
Lemma plan_len : forall ts s, length (plan ts s) = length ts.
Proof. induction ts; intros; cbn [plan length]; auto. Qed.

Lemma align_to_ok : forall n a, 0 <= n -> 1 <= a -> n + a <= INT_MAX -> align_to n a = Ok (round_up n a).
Proof.
  intros n a Hn Ha Hb. unfold align_to, round_up. destruct (Z.eqb_spec a 0); [lia|].
  assert (IM : INT_MIN = -2147483648 /\ INT_MAX = 2147483647) by (split; reflexivity).
  rewrite int_ok by lia. cbn [bind]. rewrite int_ok by lia. cbn [bind].
  rewrite Z.quot_div_nonneg by lia.
  pose proof (Z.mul_div_le (n + a - 1) a ltac:(lia)). pose proof (Z.div_pos (n + a - 1) a ltac:(lia) ltac:(lia)).
  apply int_ok. nia.
Qed.
Lemma round_up_spec : forall n a, 1 <= a -> n <= round_up n a < n + a /\ round_up n a mod a = 0.
Proof.
  intros n a Ha. unfold round_up. split; [|apply Z.mod_mul; lia].
  pose proof (Z.div_mod (n + a - 1) a ltac:(lia)). pose proof (Z.mod_pos_bound (n + a - 1) a ltac:(lia)). nia.
Qed.
Lemma round_up_id : forall n a, 1 <= a -> n mod a = 0 -> round_up n a = n.
Proof.
  intros n a Ha H. unfold round_up. pose proof (Z.div_mod n a ltac:(lia)) as D. rewrite H in D.
  replace ((n + a - 1) / a) with (n / a); [lia|]. apply Z.div_unique with (a - 1); lia.
Qed.
Lemma pow2_dvd : forall a b, pow2 a -> pow2 b -> a <= b -> b mod a = 0.
Proof.
  intros a b (i & Hi & ->) (j & Hj & ->) H.
  assert (i <= j). { destruct (Z.le_gt_cases i j); [assumption|]. pose proof (Z.pow_lt_mono_r 2 j i ltac:(lia) ltac:(lia) ltac:(lia)). lia. }
  replace j with (j - i + i) by lia. rewrite Z.pow_add_r by lia. apply Z.mod_mul. pose proof (Z.pow_pos_nonneg 2 i). lia.
Qed.
Lemma pow2_8 : pow2 8. Proof. exists 3; lia. Qed.
Lemma pow2_max : forall a b, pow2 a -> pow2 b -> pow2 (Z.max a b).
Proof. intros a b Ha Hb. destruct (Z.max_spec a b) as [[_ ->]|[_ ->]]; assumption. Qed.
Lemma mod_trans : forall x a b, 1 <= a -> 1 <= b -> x mod a = 0 -> a mod b = 0 -> x mod b = 0.
Proof.
  intros x a b Ha Hb H1 H2. apply Z.mod_divide in H1, H2; try lia. apply Z.mod_divide; [lia|]. etransitivity; eassumption.
Qed.

Definition p_ok (s : pst) : Prop := 0 <= p_st s /\ p_st s mod 8 = 0 /\ (p_gp s <= 6)%nat /\ (p_fp s <= 8)%nat /\ 16 <= p_al s /\ pow2 (p_al s).
Lemma slot_ok : forall t s, natural t -> p_ok s ->
  p_st s <= slot_of t s < p_st s + Z.max 8 (aalign t) /\ slot_of t s mod Z.max 8 (aalign t) = 0 /\ slot_of t s mod 8 = 0 /\
  slot_of t s <= p_st s + aalign t /\
  (if 8 <? aalign t then round_up (p_st s) (aalign t) else p_st s) = slot_of t s.
Proof.
  intros t s N (H0 & H8 & _). pose proof (align_pow2 t N) as P. pose proof (pow2_pos _ P). unfold slot_of.
  destruct (round_up_spec (p_st s) (Z.max 8 (aalign t)) ltac:(lia)) as [B1 B2].
  split; [exact B1|]. split; [exact B2|]. split.
  { eapply mod_trans; [| |exact B2|]; try lia. apply pow2_dvd; [apply pow2_8|apply pow2_max; [apply pow2_8|exact P]|lia]. }
  destruct (Z.ltb_spec 8 (aalign t)).
  - rewrite Z.max_r in * by lia. split; [lia|reflexivity].
  - rewrite Z.max_l in * by lia. rewrite round_up_id by lia. split; [lia|reflexivity].
Qed.
Lemma step_ok : forall t s, argument t -> p_ok s -> p_ok (pstep t s).
Proof.
  intros t s (N & Sz & _) K. destruct (slot_ok t s N K) as (A & B & C & D & _).
  destruct K as (H0 & H8 & Hg & Hf & Ha & Hp). unfold pstep.
  destruct (stacked t (p_gp s) (p_fp s)) eqn:E; unfold p_ok; cbn [p_st p_gp p_fp p_al].
  - destruct (round_up_spec (asize t) 8 ltac:(lia)) as [R1 R2]. repeat split; try lia.
    + rewrite Z.add_mod, C, R2 by lia. reflexivity.
    + destruct (8 <? aalign t); lia.
    + destruct (8 <? aalign t); [apply pow2_max; [assumption|apply align_pow2, N]|assumption].
  - unfold stacked in E. apply orb_false_elim in E. destruct E as [E E3]. apply orb_false_elim in E. destruct E as [E1 E2].
    apply Nat.ltb_ge in E2, E3. repeat split; try assumption; lia.
Qed.
Lemma step_bytes : forall t s, argument t -> p_ok s -> p_st s <= p_st (pstep t s) <= p_st s + asize t + 8 + aalign t.
Proof.
  intros t s (N & Sz & _) K. destruct (slot_ok t s N K) as (A & B & C & D & _).
  pose proof (pow2_pos _ (align_pow2 t N)). unfold pstep.
  destruct (round_up_spec (asize t) 8 ltac:(lia)) as [R1 R2].
  destruct (stacked _ _ _); cbn [p_st]; lia.
Qed.
Lemma stack_bytes_pos : forall ts, Forall argument ts -> 0 <= stack_bytes ts.
Proof.
  induction 1 as [|t r (N & Sz & _) F IH]; cbn [stack_bytes]; [lia|]. pose proof (pow2_pos _ (align_pow2 t N)). lia.
Qed.

Lemma cc_ok : forall ts s p, Forall argument ts -> 0 <= cc_gp s -> 0 <= cc_fp s ->
  p = mkp (ix (cc_gp s) 6) (ix (cc_fp s) 8) (cc_stack s) (cc_align s) -> p_ok p ->
  cc_stack s + stack_bytes ts <= INT_MAX ->
  exists s', cc_loop ts s = Ok (plan ts p, s') /\ 0 <= cc_gp s' /\ 0 <= cc_fp s' /\
    pend ts p = mkp (ix (cc_gp s') 6) (ix (cc_fp s') 8) (cc_stack s') (cc_align s').
Proof.
  assert (IM : INT_MAX = 2147483647) by reflexivity.
  induction ts as [|t r IH]; intros s p F Hg Hf -> K B.
  { exists s. cbn [cc_loop plan pend fold_left]. auto. }
  inversion F as [|? ? At Fr]; subst. pose proof At as (N & Sz & Ar).
  pose proof (pow2_pos _ (align_pow2 t N)) as Pal.
  pose proof (stack_bytes_pos r Fr) as SB. cbn [stack_bytes] in B.
  set (p := mkp _ _ _ _) in *.
  pose proof (step_ok t p At K) as K'. pose proof (step_bytes t p At K) as KB.
  destruct (slot_ok t p N K) as (S1 & S2 & S3 & S4 & S5).
  destruct (to_regs_ok t s At Hg Hf) as (g & f & x & G0 & F0 & T).
  cbn [cc_loop plan pend fold_left]. destruct (Z.eqb_spec (asize t) 0); [lia|].
  unfold pdest. assert (Eg : ix (cc_gp s) 6 = p_gp p) by reflexivity. assert (Ef : ix (cc_fp s) 8 = p_fp p) by reflexivity.
  assert (Est : cc_stack s = p_st p) by reflexivity. assert (Eal : cc_align s = p_al p) by reflexivity. clearbody p.
  rewrite Eg, Ef, ?Est, ?Eal in *.
  destruct (stacked t (p_gp p) (p_fp p)) eqn:ES.
  - destruct T as (T & T1 & T2). rewrite T. cbn [bind fst snd].
    assert (E1 : (if 8 <? aalign t then align_to (p_st p) (aalign t) else Ok (p_st p)) = Ok (slot_of t p)).
    { rewrite <- S5. destruct (8 <? aalign t); [|reflexivity]. apply align_to_ok; try lia. apply K. }
    rewrite E1. cbn [bind].
    assert (Ei : int_conv (asize t) = asize t).
    { unfold int_conv, sext. change (2 ^ (32 - 1)) with 2147483648. change (2 ^ 32) with 4294967296.
      destruct K as (K0 & _). rewrite Z.mod_small by lia. destruct (Z.ltb_spec (asize t) 2147483648); [reflexivity|lia]. }
    destruct (round_up_spec (asize t) 8 ltac:(lia)) as [R1 R2].
    assert (P0 : 0 <= p_st p) by apply K.
    rewrite Ei, align_to_ok by lia. cbn [bind].
    assert (ST : p_st (pstep t p) = slot_of t p + round_up (asize t) 8) by (unfold pstep; rewrite ES; reflexivity).
    rewrite int_ok by (unfold INT_MIN; lia). cbn [bind].
    edestruct (IH (mkcc g f (slot_of t p + round_up (asize t) 8) (if 8 <? aalign t then Z.max (p_al p) (aalign t) else p_al p))
       (pstep t p)) as (s' & E & Q).
    + exact Fr. + exact G0. + exact F0.
    + unfold pstep. rewrite ES. cbn [cc_gp cc_fp cc_stack cc_align]. rewrite T1, T2. reflexivity.
    + exact K'.
    + cbn [cc_stack]. lia.
    + rewrite E. cbn [bind fst snd]. exists s'. split; [reflexivity|exact Q].
  - destruct T as (T & T1 & T2). rewrite T. cbn [bind fst snd].
    edestruct (IH (mkcc g f (p_st p) (p_al p)) (pstep t p)) as (s' & E & Q).
    + exact Fr. + exact G0. + exact F0.
    + unfold pstep. rewrite ES. cbn [cc_gp cc_fp cc_stack cc_align]. rewrite T1, T2. reflexivity.
    + exact K'.
    + cbn [cc_stack]. lia.
    + rewrite E. cbn [bind fst snd]. exists s'. split; [reflexivity|exact Q].
Qed.

Definition p0 (gp : nat) : pst := mkp gp 0 0 16.
Lemma p0_ok : forall gp, (gp <= 6)%nat -> p_ok (p0 gp).
Proof. intros gp H. unfold p_ok, p0; cbn [p_st p_gp p_fp p_al]. repeat split; try lia. exists 4; lia. Qed.
Lemma convention_ok : forall ts gp, Forall argument ts -> (gp <= 6)%nat -> stack_bytes ts <= INT_MAX ->
  let e := pend ts (p0 gp) in
  calling_convention ts (Z.of_nat gp) 0 =
    Ok (plan ts (p0 gp), mkcc (Z.of_nat (p_gp e)) (Z.of_nat (p_fp e)) (p_st e) (p_al e)).
Proof.
  intros ts gp F G B e. unfold calling_convention.
  destruct (cc_ok ts (mkcc (Z.of_nat gp) 0 0 16) (p0 gp)) as (s' & E & G1 & G2 & PE); cbn [cc_gp cc_fp cc_stack cc_align].
  - exact F. - lia. - lia.
  - unfold p0, ix. f_equal. lia.
  - apply p0_ok, G.
  - lia.
  - rewrite E. cbn [bind fst snd]. unfold e. rewrite PE. cbn [p_gp p_fp p_st p_al]. unfold ix, GP_MAX, FP_MAX.
    do 3 f_equal; rewrite Z2Nat.id by lia; reflexivity.
Qed.

(** ** The code of the caller and the ABI *)
Lemma gen_ok : forall ts p srcs, Forall argument ts -> p_ok p -> length srcs = length ts ->
  exists codes, gen_reg_args (combine (combine ts (plan ts p)) srcs) (p_gp p) (p_fp p) = Ok codes /\
   (Forall (fun t => sysv_classes t = code_cls t) ts ->
    map place_of (combine (plan ts p) codes) = sysv_places ts (skipn (p_gp p) int_regs) (skipn (p_fp p) sse_regs) (p_st p)).
Proof.
  induction ts as [|t r IH]; intros p srcs F K L.
  { exists []. split; [reflexivity|]. reflexivity. }
  destruct srcs as [|[b o] srcs]; [discriminate|]. inversion F as [|? ? At Fr]; subst.
  cbn [plan combine]. unfold pdest.
  destruct (stacked t (p_gp p) (p_fp p)) eqn:ES; cbn [gen_reg_args].
  - destruct (IH (pstep t p) srcs Fr (step_ok t p At K)) as (codes & E & Q); [cbn in L; lia|].
    assert (PG : p_gp (pstep t p) = p_gp p /\ p_fp (pstep t p) = p_fp p /\ p_st (pstep t p) = slot_of t p + round_up (asize t) 8)
      by (unfold pstep; rewrite ES; auto).
    destruct PG as (P1 & P2 & P3). rewrite P1, P2 in *. rewrite E. cbn [bind]. eexists. split; [reflexivity|].
    intros FC. inversion FC as [|? ? C1 C2]; subst. cbn [combine map sysv_places place_of].
    rewrite C1, int_len, sse_len. unfold stacked, ni, ns in ES. rewrite ES. unfold slot_of in *. f_equal. rewrite Q by assumption.
    rewrite P3. reflexivity.
  - destruct (place_ok t b o (p_gp p) (p_fp p) At) as (c & E & D); try apply K; [exact ES|].
    rewrite E. cbn [bind fst snd].
    destruct (IH (pstep t p) srcs Fr (step_ok t p At K)) as (codes & E2 & Q); [cbn in L; lia|].
    assert (PG : p_gp (pstep t p) = (p_gp p + ni t)%nat /\ p_fp (pstep t p) = (p_fp p + ns t)%nat /\ p_st (pstep t p) = p_st p)
      by (unfold pstep; rewrite ES; auto).
    destruct PG as (P1 & P2 & P3). rewrite P1, P2 in *. rewrite E2. cbn [bind]. eexists. split; [reflexivity|].
    intros FC. inversion FC as [|? ? C1 C2]; subst. cbn [combine map sysv_places place_of].
    rewrite C1, int_len, sse_len. unfold stacked, ni, ns in ES. rewrite ES. rewrite D. f_equal. rewrite Q by assumption.
    rewrite P3. unfold ni, ns.
    rewrite !skipn_skipn, (Nat.add_comm (p_gp p)), (Nat.add_comm (p_fp p)). reflexivity.
Qed.
