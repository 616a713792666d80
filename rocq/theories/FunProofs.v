(** Proofs about whole functions. *)
From Coq Require Import ZArith List Bool Lia.
From Verif Require Import Base IntSpec IntModel IntMain X86 CgModel CgSpec CgLemmas CgSeq2 CgInv CgTree CgMain
  StmtSpec StmtModel StmtPlace StmtEff StmtProofs StmtMain ArgSpec ArgModel FunSpec FunModel.
Import ListNotations.
Local Open Scope Z_scope.

(** *** Machine steps *)
Lemma reg_eqb_refl r : reg_eqb r r = true.
Proof. destruct r; reflexivity. Qed.
Lemma land_align a k : 0 <= k <= 64 -> 0 <= a < 2 ^ 64 -> Z.land a ((- 2 ^ k) mod 2 ^ 64) = a - a mod 2 ^ k.
Proof.
  intros K A. rewrite <- Z.land_ones by lia.
  rewrite (Z.land_comm (- 2 ^ k)), Z.land_assoc, Z.land_ones by lia. rewrite (Z.mod_small a) by lia.
  replace (- 2 ^ k) with (Z.lnot (Z.ones k)) by (rewrite Z.ones_equiv; unfold Z.lnot; lia).
  rewrite <- Z.ldiff_land, Z.ldiff_ones_r by lia.
  rewrite Z.shiftl_mul_pow2, Z.shiftr_div_pow2 by lia.
  pose proof (Z.div_mod a (2 ^ k) ltac:(lia)). lia.
Qed.

Lemma run_cons sym i c m m1 : exec1 sym i m = Some m1 -> run sym (i :: c) None m = run sym c None m1.
Proof.
  intros H. cbn [run]. destruct i; try (cbn [exec1] in H; discriminate H); rewrite H; reflexivity.
Qed.
Lemma exec_lea sym a o b m : exec1 sym (Lea (BReg a) o (R S8 b)) m = Some (setr m b ((rg m a + o) mod 2 ^ 64)).
Proof. cbn [exec1 putr nbits]. unfold ea. rewrite Z.mod_mod by lia. reflexivity. Qed.
Lemma exec_movrr sym a b m : exec1 sym (Mov None (R S8 a) (R S8 b)) m = Some (setr m b (rg m a mod 2 ^ 64)).
Proof.
  cbn [exec1 is_mem andb osize osizes flat_map app forallb size_eqb rd wr putr nbits]. unfold getr. cbn [nbits].
  rewrite Z.mod_mod by lia. reflexivity.
Qed.
Lemma exec_movrm sym s a b o m : exec1 sym (Mov None (R s a) (M (BReg b) o)) m =
  Some (setm m (storen (nbytes s) ((rg m b + o) mod 2 ^ 64) (rg m a mod 2 ^ nbits s) (mm m))).
Proof. destruct s; reflexivity. Qed.
Lemma exec_movmr sym a b o m : exec1 sym (Mov None (M (BReg b) o) (R S8 a)) m =
  Some (setr m a (loadn 8 ((rg m b + o) mod 2 ^ 64) (mm m))).
Proof.
  cbn [exec1 is_mem andb osize osizes flat_map app forallb size_eqb rd wr putr nbits nbytes].
  pose proof (loadn_range 8 (ea sym (BReg b) o m) (mm m)) as L. change (8 * Z.of_nat 8) with 64 in L.
  rewrite Z.mod_small by exact L. reflexivity.
Qed.
Lemma exec_sub sym n m : 0 <= n < 2 ^ 31 ->
  exec1 sym (Alu ASub None (I n) (R S8 SP)) m = Some (setf (setr m SP ((rg m SP - n) mod 2 ^ 64)) None).
Proof.
  intros H. cbn [exec1 is_mem andb osize osizes flat_map app forallb size_eqb rd wr putr nbits imm_ok].
  destruct (Z.leb_spec (- 2 ^ 31) n); [|lia]. destruct (Z.ltb_spec n (2 ^ 31)); [|lia]. cbn [andb].
  unfold getr. cbn [nbits noflags]. rewrite <- Zminus_mod. reflexivity.
Qed.
Lemma exec_and sym k m : 0 <= k <= 31 -> 0 <= rg m SP < 2 ^ 64 ->
  exec1 sym (Alu AAnd None (I (- 2 ^ k)) (R S8 SP)) m = Some (setf (setr m SP (rg m SP - rg m SP mod 2 ^ k)) None).
Proof.
  intros K H. cbn [exec1 is_mem andb osize osizes flat_map app forallb size_eqb rd wr putr nbits imm_ok].
  pose proof (Z.pow_le_mono_r 2 k 31 ltac:(lia) ltac:(lia)). pose proof (Z.pow_pos_nonneg 2 k ltac:(lia) ltac:(lia)).
  destruct (Z.leb_spec (- 2 ^ 31) (- 2 ^ k)); [|lia]. destruct (Z.ltb_spec (- 2 ^ k) (2 ^ 31)); [|lia]. cbn [andb].
  unfold getr. cbn [nbits noflags]. rewrite (Z.mod_small (rg m SP)) by lia. rewrite land_align by lia.
  pose proof (Z.mod_pos_bound (rg m SP) (2 ^ k) ltac:(lia)). pose proof (Z.mod_le (rg m SP) (2 ^ k) ltac:(lia) ltac:(lia)).
  rewrite Z.mod_small by lia. reflexivity.
Qed.
Lemma exec_xor sym m : exec1 sym (Alu AXor None (R S4 AX) (R S4 AX)) m = Some (setf (setr m AX 0) None).
Proof.
  cbn [exec1 is_mem andb osize osizes flat_map app forallb size_eqb rd wr putr nbits noflags].
  rewrite Z.lxor_nilpotent. reflexivity.
Qed.

Lemma run_push sym r c m : r <> SP -> 8 <= rg m SP < 2 ^ 64 ->
  run sym (push_reg r ++ c) None m =
  run sym c None (setm (setr m SP (rg m SP - 8)) (storen 8 (rg m SP - 8) (rg m r mod 2 ^ 64) (mm m))).
Proof.
  intros H S. unfold push_reg. cbn [app]. rewrite (run_cons _ _ _ _ _ (exec_lea _ _ _ _ _)).
  rewrite (run_cons _ _ _ _ _ (exec_movrm _ _ _ _ _ _)).
  unfold setr, setm. cbn [rg mm fl nbytes nbits]. rewrite reg_eqb_refl.
  replace (reg_eqb r SP) with false by (destruct r; auto; congruence).
  rewrite Z.add_0_r, Z.mod_mod by lia. replace (rg m SP + -8) with (rg m SP - 8) by lia.
  rewrite (Z.mod_small (rg m SP - 8)) by lia. reflexivity.
Qed.

(** *** Prologue and epilogue *)
Record entered (fn : func) (m m1 : mach) : Prop := mkentered {
  e_sp : rg m1 SP = frame_base fn (rg m SP);
  e_bp : rg m1 BP = rg m SP - 8;
  e_bx : rg m1 BX = if aligned_frame fn then frame_base fn (rg m SP) else rg m BX;
  e_r : forall r, r <> SP -> r <> BP -> r <> BX -> rg m1 r = rg m r;
  e_mem : forall a, a < link_area fn (rg m SP) \/ rg m SP <= a -> mm m1 a = mm m a;
  e_sbp : loadn 8 (rg m SP - 8) (mm m1) = rg m BP;
  e_sbx : aligned_frame fn = true -> loadn 8 (rg m SP - 16) (mm m1) = rg m BX }.

Lemma prologue_ok sym fn k m : fn_align fn = 2 ^ k -> 0 <= k <= 31 -> 16 <= rg m SP < 2 ^ 64 ->
  0 <= rg m BP < 2 ^ 64 -> 0 <= rg m BX < 2 ^ 64 ->
  exists m1, run sym (prologue fn) None m = Some (None, m1) /\ entered fn m m1.
Proof.
  intros AL K S B X. unfold prologue. rewrite run_push by (lia || discriminate). cbn [app].
  rewrite (run_cons _ _ _ _ _ (exec_movrr _ _ _ _)).
  set (m1 := setr _ BP _).
  assert (R1 : forall r, rg m1 r = if reg_eqb r BP then rg m SP - 8 else if reg_eqb r SP then rg m SP - 8 else rg m r).
  { intros r. subst m1. unfold setr, setm. cbn [rg]. rewrite reg_eqb_refl. rewrite (Z.mod_small (rg m SP - 8)) by lia. reflexivity. }
  assert (M1 : mm m1 = storen 8 (rg m SP - 8) (rg m BP) (mm m)).
  { subst m1. unfold setr, setm. cbn [mm]. rewrite (Z.mod_small (rg m BP)) by lia. reflexivity. }
  clearbody m1.
  assert (L1 : loadn 8 (rg m SP - 8) (mm m1) = rg m BP).
  { rewrite M1, loadn_storen. change (8 * Z.of_nat 8) with 64. rewrite Z.mod_small by lia. reflexivity. }
  assert (O1 : forall a, a < rg m SP - 8 \/ rg m SP <= a -> mm m1 a = mm m a).
  { intros a H. rewrite M1. apply storen_other. lia. }
  destruct (16 <? fn_align fn) eqn:BIG.
  - assert (SP1 : rg m1 SP = rg m SP - 8) by (rewrite R1; reflexivity).
    rewrite run_push by (rewrite ?SP1; (lia || discriminate)). rewrite SP1.
    replace (rg m SP - 8 - 8) with (rg m SP - 16) by lia.
    set (m2 := setm _ _). assert (SP2 : rg m2 SP = rg m SP - 16) by (subst m2; cbn [setm setr rg]; rewrite reg_eqb_refl; reflexivity).
    rewrite AL. rewrite (run_cons _ _ _ _ _ (exec_and sym k m2 K ltac:(rewrite SP2; lia))). rewrite SP2.
    rewrite (run_cons _ _ _ _ _ (exec_movrr _ _ _ _)). cbn [run]. eexists. split; [reflexivity|].
    pose proof (Z.pow_pos_nonneg 2 k ltac:(lia) ltac:(lia)).
    pose proof (Z.mod_pos_bound (rg m SP - 16) (2 ^ k) ltac:(lia)).
    pose proof (Z.mod_le (rg m SP - 16) (2 ^ k) ltac:(lia) ltac:(lia)).
    assert (M2 : mm m2 = storen 8 (rg m SP - 16) (rg m BX) (mm m1)).
    { subst m2. unfold setm, setr. cbn [mm]. rewrite R1. cbn [reg_eqb]. rewrite (Z.mod_small (rg m BX)) by lia. reflexivity. }
    constructor; unfold frame_base, link_area, aligned_frame; rewrite ?BIG, ?AL; cbn [setr setf rg mm]; rewrite ?reg_eqb_refl.
    + cbn [reg_eqb]. reflexivity.
    + cbn [reg_eqb]. subst m2. cbn [setm setr rg reg_eqb]. rewrite R1. reflexivity.
    + apply Z.mod_small. lia.
    + intros r A1 A2 A3. replace (reg_eqb r BX) with false by (destruct r; auto; congruence).
      replace (reg_eqb r SP) with false by (destruct r; auto; congruence).
      subst m2. cbn [setm setr rg]. replace (reg_eqb r SP) with false by (destruct r; auto; congruence).
      rewrite R1. replace (reg_eqb r BP) with false by (destruct r; auto; congruence).
      replace (reg_eqb r SP) with false by (destruct r; auto; congruence). reflexivity.
    + intros a Ha. rewrite M2, storen_other by lia. apply O1. lia.
    + rewrite <- L1. apply loadn_ext. intros a Ha. rewrite M2. apply storen_other. lia.
    + intros _. rewrite M2, loadn_storen. change (8 * Z.of_nat 8) with 64. rewrite Z.mod_small by lia. reflexivity.
  - cbn [run]. exists m1. split; [reflexivity|].
    constructor; unfold frame_base, link_area, aligned_frame; rewrite ?BIG; auto.
    + rewrite R1. reflexivity.
    + rewrite R1. reflexivity.
    + rewrite R1. reflexivity.
    + intros r A1 A2 A3. rewrite R1. replace (reg_eqb r BP) with false by (destruct r; auto; congruence).
      replace (reg_eqb r SP) with false by (destruct r; auto; congruence). reflexivity.
    + discriminate.
Qed.

Lemma epilogue_ok sym fn s bp bx m : 16 <= s < 2 ^ 64 -> rg m BP = s - 8 ->
  loadn 8 (s - 8) (mm m) = bp -> (if aligned_frame fn then loadn 8 (s - 16) (mm m) else rg m BX) = bx ->
  exists m', run sym (epilogue fn) None m = Some (None, m') /\ mm m' = mm m /\ rg m' AX = rg m AX /\
    rg m' SP = s /\ rg m' BP = bp /\ rg m' BX = bx.
Proof.
  intros S B HB HX. unfold epilogue, leave.
  assert (T : forall m0, rg m0 BP = s - 8 -> loadn 8 (s - 8) (mm m0) = bp -> rg m0 BX = bx ->
    exists m', run sym leave None m0 = Some (None, m') /\ mm m' = mm m0 /\ rg m' AX = rg m0 AX /\
    rg m' SP = s /\ rg m' BP = bp /\ rg m' BX = bx).
  { intros m0 E1 E2 E3. unfold leave. rewrite (run_cons _ _ _ _ _ (exec_movrr _ _ _ _)), (run_cons _ _ _ _ _ (exec_movmr _ _ _ _ _)),
      (run_cons _ _ _ _ _ (exec_lea _ _ _ _ _)). cbn [run]. eexists. split; [reflexivity|].
    cbn [setr rg mm reg_eqb]. rewrite !E1. rewrite Z.add_0_r, Z.mod_mod, (Z.mod_small (s - 8)) by lia.
    split; [reflexivity|]. split; [reflexivity|]. split; [rewrite Z.mod_small by lia; lia|]. split; [exact E2|exact E3]. }
  unfold aligned_frame in HX. destruct (16 <? fn_align fn).
  - cbn [app]. rewrite (run_cons _ _ _ _ _ (exec_movmr _ _ _ _ _)).
    set (m0 := setr m BX _). destruct (T m0) as [m' T'].
    + exact B.
    + exact HB.
    + subst m0. cbn [setr rg reg_eqb]. rewrite B. replace (s - 8 + -8) with (s - 16) by lia. rewrite Z.mod_small by lia. exact HX.
    + exists m'. exact T'.
  - cbn [app]. apply T; auto.
Qed.

(** *** Parameters *)
Section Params.
Variable G : genv.
Variable sym : nat -> Z.
Variable V : list (ityp * nat).

Lemma save_stack l : forall gp gp' off, (6 <= gp')%nat -> save_params G gp l (calling_conv gp' off (length l)) = Ok [].
Proof.
  induction l as [|[t x] l IH]; intros gp gp' off H; [reflexivity|]. cbn [length calling_conv].
  destruct (Nat.ltb_spec gp' 6); [lia|]. cbn [save_params]. apply IH. lia.
Qed.

Lemma argreg_abi gp r : argreg gp = Ok r -> nth_error abi_regs gp = Some r.
Proof. destruct gp as [|[|[|[|[|[|]]]]]]; cbn; congruence. Qed.

Lemma size_of_isize t s : size_of (sz (mty t)) = Ok s -> nbytes s = Z.to_nat (isize t) /\ nbits s = 8 * isize t.
Proof. destruct t; vm_compute; intros H; injection H as <-; auto. Qed.
Lemma isize_pos t : 0 < isize t <= 8.
Proof. destruct t; vm_compute; split; congruence. Qed.

Lemma save_ok l : forall gp off c m, save_params G gp l (calling_conv gp off (length l)) = Ok c ->
  separate G sym (rg m) V -> incl l V -> NoDup (map snd l) ->
  labels c = [] /\
  exists m', run sym c None m = Some (None, m') /\ rg m' = rg m /\
    (forall a, (forall t x, In (t, x) l -> ~ obj_addr G sym (rg m) x <= a < obj_addr G sym (rg m) x + isize t) -> mm m' a = mm m a) /\
    (forall j t x, nth_error l j = Some (t, x) ->
       loadn (Z.to_nat (isize t)) (obj_addr G sym (rg m) x) (mm m') =
       match nth_error abi_regs (gp + j) with
       | Some r => rg m r mod 2 ^ (8 * isize t)
       | None => loadn (Z.to_nat (isize t)) (obj_addr G sym (rg m) x) (mm m)
       end).
Proof.
  induction l as [|[t x] l IH]; intros gp off c m H SEP INC ND.
  - injection H as <-. split; [reflexivity|]. exists m. repeat split; auto. intros [|j] t x Hj; discriminate Hj.
  - destruct (Nat.ltb_spec gp 6) as [HG|HG].
    2:{ rewrite (save_stack _ _ _ _ HG) in H. injection H as <-. split; [reflexivity|]. exists m. repeat split; auto.
        intros j u y Hj. replace (nth_error abi_regs (gp + j)) with (@None reg); [reflexivity|].
        symmetry. apply nth_error_None. change (length abi_regs) with 6%nat. lia. }
    cbn [length calling_conv] in H. destruct (Nat.ltb_spec gp 6) as [_|]; [|lia]. cbn [save_params] in H.
    destruct (loc G x) as [b o| |] eqn:LX; try discriminate H.
    destruct (argreg gp) as [r| |] eqn:AR; cbn [bind] in H; try discriminate H.
    unfold store_gp in H. destruct (size_of (sz (mty t))) as [s| |] eqn:SZ; cbn [bind] in H; try discriminate H.
    destruct (save_params G (Datatypes.S gp) l (calling_conv (Datatypes.S gp) off (length l))) as [c'| |] eqn:SP'; cbn [bind] in H; try discriminate H.
    injection H as <-. destruct (size_of_isize _ _ SZ) as [NB NBT]. apply argreg_abi in AR. clear SZ.
    assert (OA : (rg m b + o) mod 2 ^ 64 = obj_addr G sym (rg m) x) by (unfold obj_addr; rewrite LX; reflexivity).
    set (m1 := setm m (storen (Z.to_nat (isize t)) (obj_addr G sym (rg m) x) (rg m r mod 2 ^ (8 * isize t)) (mm m))).
    cbn [map] in ND. inversion ND as [|? ? ND1 ND2]; subst.
    destruct (IH (Datatypes.S gp) off c' m1 SP' SEP ltac:(intros y Hy; apply INC; right; exact Hy) ND2) as [LB [m' [R [RG [ME LD]]]]].
    split; [exact LB|]. exists m'. split.
    { cbn [app]. rewrite (run_cons _ _ _ _ _ (exec_movrm _ _ _ _ _ _)). rewrite NB, NBT, OA. exact R. }
    split; [exact RG|]. cbn [m1 setm rg mm] in ME, LD. pose proof (isize_pos t) as PT.
    split.
    { intros a Ha. rewrite ME. 2:{ intros u y Hy. apply Ha. right. exact Hy. }
      apply storen_other. specialize (Ha t x ltac:(left; reflexivity)). lia. }
    intros [|j] u y Hj; cbn [nth_error] in Hj.
    + injection Hj as <- <-. rewrite Nat.add_0_r, AR.
      transitivity (loadn (Z.to_nat (isize t)) (obj_addr G sym (rg m) x)
        (storen (Z.to_nat (isize t)) (obj_addr G sym (rg m) x) (rg m r mod 2 ^ (8 * isize t)) (mm m))).
      * apply loadn_ext. intros a Ha. apply ME. intros u y Hy Ho.
        destruct (SEP t x u y (INC _ ltac:(left; reflexivity)) (INC _ ltac:(right; exact Hy))) as [[_ E]|[_ E]]; [|lia].
        subst y. apply ND1. apply (in_map snd) in Hy. exact Hy.
      * rewrite loadn_storen. rewrite Z2Nat.id by lia. apply Z.mod_mod. apply Z.pow_nonzero; lia.
    + rewrite (LD j u y Hj). replace (gp + Datatypes.S j)%nat with (Datatypes.S gp + j)%nat by lia.
      destruct (nth_error abi_regs (Datatypes.S gp + j)); [reflexivity|].
      apply loadn_ext. intros a Ha. apply storen_other. apply nth_error_In in Hj. pose proof (isize_pos u).
      destruct (SEP t x u y (INC _ ltac:(left; reflexivity)) (INC _ ltac:(right; exact Hj))) as [[_ E]|[_ E]]; [|lia].
      subst y. exfalso. apply ND1. apply (in_map snd) in Hj. exact Hj.
Qed.
End Params.

(** *** Code that differs in a prefix without labels *)
Lemma find_prefix l (a b c : list instr) : labels a = [] -> labels b = [] -> length a = length b ->
  find_label l (a ++ c) = find_label l (b ++ c).
Proof.
  intros A B L. rewrite !find_label_app, (find_label_notin l a), (find_label_notin l b), L by (rewrite ?A, ?B; intros []).
  reflexivity.
Qed.
Lemma find_above l (a c : list instr) k : labels a = [] -> find_label l (a ++ c) = Some k -> (length a <= k)%nat.
Proof.
  intros A. rewrite find_label_app, find_label_notin by (rewrite A; intros []).
  destruct (find_label l c); intros H; [injection H as <-; lia|discriminate].
Qed.
Lemma steps_prefix sym (a b c : list instr) : labels a = [] -> labels b = [] -> length a = length b ->
  forall x y, steps sym (a ++ c) x y -> (length a <= fst x)%nat -> steps sym (b ++ c) x y.
Proof.
  intros A B L x y S. induction S as [x|[p m] [p' m'] z H S IH]; intros LE; [constructor|]. cbn [fst] in *.
  assert (NT : nth_error (b ++ c) p = nth_error (a ++ c) p) by (rewrite !nth_error_app2, L by lia; reflexivity).
  assert (E : step sym (b ++ c) (p, m) = Some (p', m') /\ (length a <= p')%nat).
  { cbn [step] in *. rewrite NT. destruct (nth_error (a ++ c) p) as [i|]; [|discriminate].
    destruct i; try (match goal with H : match ?e with Some _ => _ | None => _ end = _ |- _ => destruct e; [|discriminate H] end;
                     injection H as <- <-; split; [reflexivity|lia]).
    - rewrite <- (find_prefix l a b c A B L). destruct (find_label l (a ++ c)) eqn:F; [|discriminate H].
      injection H as <- <-. split; [reflexivity|]. apply (find_above _ _ _ _ A F).
    - destruct (fl m) as [g|]; [|discriminate H]. destruct (cond_holds c0 g).
      + rewrite <- (find_prefix l a b c A B L). destruct (find_label l (a ++ c)) eqn:F; [|discriminate H].
        injection H as <- <-. split; [reflexivity|]. apply (find_above _ _ _ _ A F).
      + injection H as <- <-. split; [reflexivity|lia].
    - injection H as <- <-. split; [reflexivity|lia]. }
  destruct E as [E1 E2]. econstructor; [exact E1|]. apply IH. exact E2.
Qed.
