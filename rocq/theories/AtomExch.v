(** What atomic exchange does to the object and to %rax. *)
From Coq Require Import ZArith List Bool Lia.
From Verif Require Import Base BitLemmas IntSpec IntLemmas IntModel IntTyped IntProofs IntElab X86 CgModel CgLemmas CgSeq CgSeq2 MemProofs AtomSpec AtomModel.
Import ListNotations.
Local Open Scope Z_scope.

Lemma bytes_sz : forall T, bytes_of T = sz (mty T).
Proof. destruct T; reflexivity. Qed.
Definition fix_base (b : base) : Prop := b = BReg BP \/ b = BReg BX \/ exists s, b = BSym s.

Lemma exch_run : forall sym T Tr b o code m v,
  exch T (Some Tr) b o = Ok code -> in_range Tr v -> fix_base b ->
  loadn (Z.to_nat (bytes_of Tr)) (ea sym b o m) (mm m) = v mod 2 ^ (8 * bytes_of Tr) ->
  exists m' s x, nbits s = 8 * bytes_of T /\ run sym code None m = Some (None, m') /\
    eqm 32 x v /\ (bytes_of Tr = 8 \/ isigned Tr = false \/ 0 <= v -> eqm 64 x v) /\
    mm m' = storen (Z.to_nat (bytes_of T)) (rg m AX mod 2 ^ 64) (x mod 2 ^ nbits s) (mm m) /\
    rg m' AX = (let old := loadn (Z.to_nat (bytes_of T)) (rg m AX mod 2 ^ 64) (mm m) in
                if bytes_of T <? 4 then (x mod 2 ^ 64) / 2 ^ nbits s * 2 ^ nbits s + old else old).
Proof.
  intros sym T Tr b o code m v E V B H. unfold exch in E.
  destruct (size_of (sz (mty T))) as [s| |] eqn:SZ; try discriminate E. cbn [bind] in E.
  destruct (load3 (mty Tr) b o) as [l| |] eqn:EL; try discriminate E. cbn [bind] in E. injection E as <-.
  set (m0 := putr S8 DI (getr S8 AX m) m).
  assert (X0 : run sym [Mov None (R S8 AX) (R S8 DI)] None m = Some (None, m0)) by reflexivity.
  assert (A0 : ea sym b o m0 = ea sym b o m).
  { unfold ea. destruct B as [->|[->|[q ->]]]; reflexivity. }
  assert (H0 : holds sym b o (tysize (mty Tr)) v m0).
  { unfold holds, tysize. rewrite A0. cbn [m0 putr setr mm]. rewrite <- bytes_sz, Z2Nat.id by (destruct Tr; discriminate). exact H. }
  destruct (load3_ok sym (mty Tr) b o v m0 l (is_ty_mty Tr)) as (m1 & R1 & P1 & Q1 & Q2).
  { rewrite ity_mty. exact V. } { exact H0. } { exact EL. }
  destruct P1 as [P1 P2].
  assert (DI1 : rg m1 DI = rg m AX mod 2 ^ 64).
  { rewrite P1 by discriminate. cbn [m0 putr setr rg reg_eqb nbits]. unfold getr. cbn [nbits]. apply Z.mod_mod. lia. }
  assert (EA : ea sym (BReg DI) 0 m1 = rg m AX mod 2 ^ 64).
  { unfold ea. rewrite DI1, Z.add_0_r. apply Z.mod_mod. lia. }
  set (old := loadn (nbytes s) (ea sym (BReg DI) 0 m1) (mm m1)).
  assert (X2 : run sym [Xchg (R s AX) (M (BReg DI) 0)] None m1 =
               Some (None, setm (putr s AX old m1) (storen (nbytes s) (ea sym (BReg DI) 0 (putr s AX old m1)) (getr s AX m1) (mm (putr s AX old m1))))).
  { cbn [run exec1]. cbn [is_mem andb]. unfold osize. cbn [osizes app flat_map forallb]. reflexivity. }
  eexists. exists s, (rg m1 AX).
  assert (NB : nbits s = 8 * bytes_of T /\ nbytes s = Z.to_nat (bytes_of T)).
  { rewrite bytes_sz. destruct T; cbn in SZ; injection SZ as <-; split; reflexivity. }
  destruct NB as [NB NY]. split; [exact NB|].
  split; [rewrite (run_app sym [Mov None (R S8 AX) (R S8 DI)] (l ++ [Xchg (R s AX) (M (BReg DI) 0)])), X0, run_app, R1; exact X2|].
  split; [exact Q1|]. split.
  { intros [C|[C|C]].
    - apply Q2. left. rewrite <- bytes_sz. exact C.
    - apply Q2. right. destruct Tr; try discriminate C; reflexivity.
    - destruct (load3 (mty Tr) b o) eqn:EL2; [|discriminate|discriminate]. injection EL as ->.
      destruct (Z.eq_dec (sz (mty Tr)) 8) as [C8|C8]; [apply Q2; left; exact C8|].
      destruct (uns (mty Tr)) eqn:U; [apply Q2; right; reflexivity|].
      (* a 32-bit write clears the upper half *)
      assert (UP : 0 <= rg m1 AX < 2 ^ 32).
      { clear - R1 EL2 C8 U. destruct Tr; try discriminate U; try (exfalso; apply C8; reflexivity); cbn in EL2; injection EL2 as <-;
        cbn [run exec1 rd osize osizes app flat_map forallb wr is_mem andb size_eqb nbits nbytes Z.ltb Z.compare Pos.compare Pos.compare_cont] in R1;
        injection R1 as <-; cbn [putr setr rg reg_eqb nbits]; apply Z.mod_pos_bound; lia. }
      unfold eqm in *. rewrite (Z.mod_small (rg m1 AX)) in Q1 by exact UP.
      rewrite (Z.mod_small (rg m1 AX)) by lia. rewrite Q1.
      assert (v < 2 ^ 32). { clear - V U C8 C. apply in_range_nb in V. destruct Tr; try discriminate U; try (exfalso; apply C8; reflexivity); cbn [isigned iwidth] in V; lia. }
      rewrite !Z.mod_small by lia. reflexivity. }
  split.
  { cbn [setm mm]. rewrite putr_mem, P2. cbn [m0 putr setr mm]. rewrite <- NY. unfold getr.
    replace (ea sym (BReg DI) 0 (putr s AX old m1)) with (ea sym (BReg DI) 0 m1) by (destruct s; reflexivity). rewrite EA. reflexivity. }
  cbv zeta. rewrite <- NY. assert (OL : old = loadn (nbytes s) (rg m AX mod 2 ^ 64) (mm m)).
  { unfold old. rewrite EA, P2. reflexivity. }
  rewrite <- OL. pose proof (loadn_range (nbytes s) (ea sym (BReg DI) 0 m1) (mm m1)) as OR. fold old in OR. rewrite <- nbits_nbytes in OR.
  assert (C4 : (bytes_of T <? 4) = match s with S1 | S2 => true | _ => false end) by (rewrite bytes_sz; destruct T; cbn in SZ; injection SZ as <-; reflexivity).
  rewrite C4. cbn [setm rg]. clear - OR. destruct s; cbn [putr setr rg reg_eqb nbits] in *; rewrite (Z.mod_small old) by exact OR; reflexivity.
Qed.

Lemma exch_value : forall sym T Tr b o code m v old,
  exch T (Some Tr) b o = Ok code -> in_range Tr v -> fix_base b ->
  loadn (Z.to_nat (bytes_of Tr)) (ea sym b o m) (mm m) = v mod 2 ^ (8 * bytes_of Tr) ->
  in_range T old -> loadn (Z.to_nat (bytes_of T)) (rg m AX mod 2 ^ 64) (mm m) = old mod 2 ^ (8 * bytes_of T) ->
  4 <= bytes_of T \/ isigned T = false /\ 0 <= v < 2 ^ (8 * bytes_of T) ->
  exists m', run sym code None m = Some (None, m') /\ rg m' AX mod 2 ^ 32 = old mod 2 ^ 32 /\
    (bytes_of T = 8 -> rg m' AX mod 2 ^ 64 = old mod 2 ^ 64).
Proof.
  intros sym T Tr b o code m v old E V B H RO HO C.
  destruct (exch_run sym T Tr b o code m v E V B H) as (m' & s & x & NB & R1 & X32 & X64 & _ & AX').
  exists m'. split; [exact R1|]. rewrite AX'. cbv zeta. rewrite HO.
  destruct (bytes_of T <? 4) eqn:C4.
  - apply Z.ltb_lt in C4. destruct C as [C|[C1 C2]]; [lia|]. split; [|lia].
    rewrite NB. rewrite (X64 (or_intror (or_intror (proj1 C2)))).
    assert (W : 2 ^ (8 * bytes_of T) < 2 ^ 64) by (apply Z.pow_lt_mono_r; lia).
    rewrite (Z.mod_small v) by lia. rewrite (Z.div_small v) by lia. rewrite Z.mul_0_l, Z.add_0_l.
    apply in_range_nb in RO. rewrite (Z.mod_small old (2 ^ (8 * bytes_of T))); [reflexivity|].
    destruct T; try discriminate C1; cbn [isigned iwidth] in RO; change (bytes_of TBool) with 1; change (bytes_of TUChar) with 1; change (bytes_of TUShort) with 2; cbn [bytes_of] in *; try lia; exfalso; revert C4; vm_compute; discriminate.
  - apply Z.ltb_ge in C4.
    assert (G : forall k, k = 32 \/ k = 64 -> k <= 8 * bytes_of T -> old mod 2 ^ (8 * bytes_of T) mod 2 ^ k = old mod 2 ^ k).
    { intros k K1 K2. symmetry. apply Znumtheory.Zmod_div_mod; [destruct K1; subst; lia|apply Z.pow_pos_nonneg; lia|].
      exists (2 ^ (8 * bytes_of T - k)). rewrite <- Z.pow_add_r by lia. f_equal. lia. }
    split; [apply G; [left; reflexivity|lia]|]. intros C8. apply G; [right; reflexivity|lia].
Qed.

Lemma store_value : forall sym T Tr b o code m v,
  exch T (Some Tr) b o = Ok code -> in_range Tr v -> fix_base b ->
  loadn (Z.to_nat (bytes_of Tr)) (ea sym b o m) (mm m) = v mod 2 ^ (8 * bytes_of Tr) ->
  (T <> TBool \/ v = 0 \/ v = 1) -> (bytes_of T = 8 -> bytes_of Tr = 8 \/ isigned Tr = false \/ 0 <= v) ->
  exists m', run sym code None m = Some (None, m') /\
    loadn (Z.to_nat (bytes_of T)) (rg m AX mod 2 ^ 64) (mm m') = conv T v mod 2 ^ (8 * bytes_of T) /\
    (forall a, a < rg m AX mod 2 ^ 64 \/ rg m AX mod 2 ^ 64 + bytes_of T <= a -> mm m' a = mm m a).
Proof.
  intros sym T Tr b o code m v E V B H HT H8.
  destruct (exch_run sym T Tr b o code m v E V B H) as (m' & s & x & NB & R1 & X32 & X64 & MM & _).
  exists m'. split; [exact R1|]. assert (BP : 1 <= bytes_of T <= 8) by (destruct T; split; discriminate).
  rewrite MM. split.
  - rewrite loadn_storen, Z2Nat.id by lia. rewrite NB. rewrite Z.mod_mod by (apply Z.pow_nonzero; lia).
    assert (XV : x mod 2 ^ (8 * bytes_of T) = v mod 2 ^ (8 * bytes_of T)).
    { destruct (Z.eq_dec (bytes_of T) 8) as [E8|E8].
      - rewrite E8. exact (X64 (H8 E8)).
      - apply (eqm_le 32); [|exact X32]. destruct T; try (split; discriminate); exfalso; apply E8; reflexivity. }
    rewrite XV. destruct HT as [HT|HT].
    + symmetry. pose proof (eqm_conv T v HT) as Q. unfold eqm in Q. replace (8 * bytes_of T) with (iwidth T); [exact Q|]. destruct T; try reflexivity; destruct HT; reflexivity.
    + destruct HT as [-> | ->]; destruct T; reflexivity.
  - intros a A. apply storen_other. rewrite Z2Nat.id by lia. exact A.
Qed.

Lemma assign_value : forall sym T Tr b o code m v,
  atomic_assign T Tr b o = Ok code -> in_range Tr v -> fix_base b ->
  loadn (Z.to_nat (bytes_of Tr)) (ea sym b o m) (mm m) = v mod 2 ^ (8 * bytes_of Tr) ->
  ea sym b o m + bytes_of Tr <= rg m AX mod 2 ^ 64 \/ rg m AX mod 2 ^ 64 + bytes_of T <= ea sym b o m ->
  (T <> TBool \/ v = 0 \/ v = 1) -> (bytes_of T = 8 -> bytes_of Tr = 8 \/ isigned Tr = false \/ 0 <= v) ->
  exists m', run sym code None m = Some (None, m') /\
    loadn (Z.to_nat (bytes_of T)) (rg m AX mod 2 ^ 64) (mm m') = conv T v mod 2 ^ (8 * bytes_of T) /\
    (forall a, a < rg m AX mod 2 ^ 64 \/ rg m AX mod 2 ^ 64 + bytes_of T <= a -> mm m' a = mm m a) /\
    (in_range T v -> rg m' AX mod 2 ^ 32 = conv T v mod 2 ^ 32 /\ (bytes_of Tr = 8 -> rg m' AX mod 2 ^ 64 = conv T v mod 2 ^ 64)).
Proof.
  intros sym T Tr b o code m v E V B H D HT H8. unfold atomic_assign in E.
  destruct (exch T (Some Tr) b o) as [c| |] eqn:EC; try discriminate E. cbn [bind] in E.
  destruct (load3 (mty Tr) b o) as [l| |] eqn:EL; try discriminate E. cbn [bind] in E. injection E as <-.
  destruct (store_value sym T Tr b o c m v EC V B H HT H8) as (m1 & R1 & S1' & O1).
  assert (BF : forall r, r <> AX -> r <> CX -> r <> DX -> r <> DI -> rg m1 r = rg m r).
  { clear - R1 EC EL. unfold exch in EC. rewrite EL in EC.
    destruct (size_of (sz (mty T))) as [s| |] eqn:SZ; try discriminate EC. cbn [bind] in EC. injection EC as <-.
    intros r N1 N2 N3 N4.
    change (Mov None (R S8 AX) (R S8 DI) :: l ++ [Xchg (R s AX) (M (BReg DI) 0)]) with ([Mov None (R S8 AX) (R S8 DI)] ++ l ++ [Xchg (R s AX) (M (BReg DI) 0)]) in R1.
    rewrite run_app in R1. cbn [run exec1 is_mem andb osize osizes app flat_map forallb size_eqb rd wr] in R1. rewrite run_app in R1.
    destruct (run sym l None _) as [[j m2]|] eqn:R2; [|discriminate R1].
    assert (J : j = None /\ rg m2 r = rg m r).
    { destruct Tr; cbn in EL; injection EL as <-; cbn [run exec1 is_mem andb osize osizes app flat_map forallb size_eqb rd wr nbits Z.ltb Z.compare Pos.compare Pos.compare_cont] in R2;
      injection R2 as <- <-; (split; [reflexivity|]); destruct r; try congruence; reflexivity. }
    destruct J as [-> J]. rewrite <- J. cbn [run exec1 is_mem andb] in R1. unfold osize in R1. cbn [osizes app flat_map forallb rd wr] in R1. injection R1 as <-.
    cbn [setm rg]. destruct s; cbn [putr setr rg]; rewrite (reg_eqb_neq r AX N1); reflexivity. }
  assert (A1 : ea sym b o m1 = ea sym b o m).
  { unfold ea. destruct B as [->|[->|[q ->]]]; [rewrite BF by discriminate; reflexivity|rewrite BF by discriminate; reflexivity|reflexivity]. }
  assert (BQ : 1 <= bytes_of Tr <= 8) by (destruct Tr; split; discriminate).
  destruct (load3_ok sym (mty Tr) b o v m1 l (is_ty_mty Tr)) as (m' & R2 & (P1 & P2) & Q1 & Q2).
  { rewrite ity_mty. exact V. }
  { unfold holds, tysize. rewrite A1. rewrite <- bytes_sz, Z2Nat.id by lia. rewrite <- H. apply loadn_ext. intros a A. rewrite Z2Nat.id in A by lia. apply O1. lia. }
  { exact EL. }
  exists m'. split; [rewrite run_app, R1; exact R2|]. rewrite P2. split; [exact S1'|]. split; [exact O1|].
  intros RT. rewrite (conv_id T v RT). split; [exact Q1|]. intros C8. apply Q2. left. rewrite <- bytes_sz. exact C8.
Qed.
