(** Effect of instruction sequences: binary operators on a popped register, division by
    constants. *)
From Coq Require Import ZArith List Bool Lia.
From Verif Require Import Base BitLemmas IntSpec IntLemmas IntModel IntTyped IntProofs IntFold
  IntElab X86 CgModel CgLemmas CgSeq CgSeq2.
Import ListNotations.
Local Open Scope Z_scope.

Definition istmp (r : reg) : Prop := r = DI \/ r = SI \/ r = R8 \/ r = R9 \/ r = R10 \/ r = R11.

(** As [pres] but one more register may change. *)
Definition presr (r : reg) (m m' : mach) : Prop :=
  (forall q, q <> AX -> q <> CX -> q <> DX -> q <> r -> rg m' q = rg m q) /\ mm m' = mm m.

Ltac prestr := split; [let q := fresh "q" in intros q ? ? ? ?; destruct q; try congruence; reflexivity|reflexivity].

Lemma sgn_dbl n x : 1 <= n -> - 2 ^ (n - 1) <= x < 2 ^ (n - 1) ->
  sgn (2 * n) ((if x <? 0 then 2 ^ n - 1 else 0) * 2 ^ n + x mod 2 ^ n) = x.
Proof.
  intros H R. pose proof (pow2_half n H). pose proof (pow2_pos (n - 1) ltac:(lia)) as P1.
  assert (P2 : 2 ^ (2 * n) = 2 ^ n * 2 ^ n) by (rewrite <- Z.pow_add_r by lia; f_equal; lia).
  assert (P3 : 2 ^ (2 * n - 1) = 2 ^ n * 2 ^ (n - 1)) by (rewrite <- Z.pow_add_r by lia; f_equal; lia).
  unfold sgn. rewrite P2, P3. set (h := 2 ^ (n - 1)) in *. rewrite H0.
  destruct (Z.ltb_spec x 0).
  - assert (E : x mod (2 * h) = x + 2 * h).
    { rewrite <- (Z.mod_add x 1) by lia. rewrite Z.mul_1_l. apply Z.mod_small. lia. }
    rewrite E. destruct (Z.ltb_spec ((2 * h - 1) * (2 * h) + (x + 2 * h)) (2 * h * h)); nia.
  - rewrite Z.mod_small by lia. destruct (Z.ltb_spec (0 * (2 * h) + x) (2 * h * h)); nia.
Qed.

Lemma reg_eqb_neq a b : a <> b -> reg_eqb a b = false.
Proof. destruct a, b; intros; try reflexivity; congruence. Qed.
Lemma putr_other s r v m q : q <> r -> rg (putr s r v m) q = rg m q.
Proof. intros H. apply reg_eqb_neq in H. destruct s; cbn [putr setr rg]; rewrite H; reflexivity. Qed.
Lemma putr_mm s r v m : mm (putr s r v m) = mm m.
Proof. destruct s; reflexivity. Qed.

Section S.
Variable sym : nat -> Z.
Local Notation slc := (slc sym).

Definition bin_code (o : binop) (u : bool) (s : size) (r : reg) : list instr :=
  let op := R s r in let ax := R s AX in
  let divide := Xchg op ax ::
      (if u then [Alu AXor None (R S4 DX) (R S4 DX); Div false op]
       else [(if size_eqb s S8 then Cqo else Cdq); Div true op]) in
  match o with
  | BAdd => [Alu AAdd None op ax]
  | BSub => [Alu ASub None ax op; Mov None op ax]
  | BMul => [Alu AImul None op ax]
  | BDiv => divide
  | BMod => divide ++ [Mov None (R S8 DX) (R S8 AX)]
  | BAnd => [Alu AAnd None op ax]
  | BOr => [Alu AOr None op ax]
  | BXor => [Alu AXor None op ax]
  end.

Lemma div_exec (sg : bool) s r m d x : big s -> istmp r ->
  (if sg then sgn (nbits s) (getr s r m) else getr s r m) = d -> d <> 0 ->
  (let x0 := getr s DX m * 2 ^ nbits s + getr s AX m in
   if sg then sgn (2 * nbits s) x0 else x0) = x ->
  (if sg then - 2 ^ (nbits s - 1) else 0) <= Z.quot x d < (if sg then 2 ^ (nbits s - 1) else 2 ^ nbits s) ->
  exec1 sym (Div sg (R s r)) m =
    Some (setf (putr s DX (Z.rem x d) (putr s AX (Z.quot x d) m)) None).
Proof.
  intros Bs T ED ND EX Q.
  assert (OS : osize None [R s r] = Some s) by (destruct Bs as [-> | ->]; reflexivity).
  cbn [exec1]. rewrite OS. cbn [rd]. cbv zeta in EX.
  assert (QQ : (( if sg then - 2 ^ (nbits s - 1) else 0) <=? Z.quot x d) &&
               (Z.quot x d <? (if sg then 2 ^ (nbits s - 1) else 2 ^ nbits s)) = true).
  { apply andb_true_iff. split; [apply Z.leb_le|apply Z.ltb_lt]; apply Q. }
  destruct Bs as [-> | ->]; cbv zeta; rewrite EX, ED; (destruct (Z.eqb_spec d 0); [contradiction|]);
    rewrite QQ; reflexivity.
Qed.

(** [r] holds the left operand, %rax the right one. *)
Lemma bin_tail o i s r x y v m : nbits s = iwidth i -> big s -> i <> TBool -> istmp r ->
  in_range i x -> in_range i y -> eqm (nbits s) (rg m r) x -> eqm (nbits s) (rg m AX) y ->
  c_bin o i x y = Some v ->
  exists m', run sym (bin_code o (negb (isigned i)) s r) None m = Some (None, m') /\ presr r m m' /\
    eqm (nbits s) (rg m' AX) v.
Proof.
  intros NB Bs N T Rx Ry Ex Ey C.
  assert (NP := nbits_pos s).
  assert (SIMPLE : forall o', simple o' -> c_bin o' i x y = Some v ->
     eqm (nbits s) (alu_fun o' (getr s r m) (getr s AX m)) v).
  { intros o' SO C'. eapply eqm_trans; [|rewrite NB; apply (c_bin_alu o' i x y v); auto].
    apply alu_fun_eqm; auto; [lia| |]; (eapply eqm_trans; [apply eqm_mod; lia|auto]). }
  assert (COMM : forall z m', eqm (nbits s) z v -> m' = setf (putr s AX z m) None ->
     presr r m m' /\ eqm (nbits s) (rg m' AX) v).
  { intros z m' E ->. destruct Bs as [-> | ->]; (split; [prestr|]); cbn [rg setf putr setr reg_eqb];
    (eapply eqm_trans; [apply eqm_mod; cbn; lia|exact E]). }
  assert (SW : forall o' i', arith_ins o' = Ok i' -> o' <> BSub -> c_bin o' i x y = Some v ->
     exists m', run sym [Alu i' None (R s r) (R s AX)] None m = Some (None, m') /\ presr r m m' /\
        eqm (nbits s) (rg m' AX) v).
  { intros o' i' A NS C'.
    assert (SO : simple o') by (split; intros ->; discriminate).
    assert (X : exec1 sym (Alu i' None (R s r) (R s AX)) m =
      Some (setf (putr s AX (alu_fun o' (getr s AX m) (getr s r m)) m) None)).
    { cbn [exec1 is_mem andb].
      assert (OS : osize None [R s r; R s AX] = Some s) by (destruct Bs as [-> | ->]; reflexivity).
      rewrite OS. cbn [rd]. destruct o'; try discriminate A; injection A as <-; cbn [wr noflags alu_fun]; try reflexivity.
      destruct Bs as [-> | ->]; reflexivity. }
    eexists. split; [cbn [run]; rewrite X; reflexivity|].
    eapply COMM; [|reflexivity].
    replace (alu_fun o' (getr s AX m) (getr s r m)) with (alu_fun o' (getr s r m) (getr s AX m)); [auto|].
    destruct o'; cbn [alu_fun]; try congruence;
    [apply Z.add_comm|apply Z.mul_comm|..]; try (symmetry; apply Z.land_comm) || idtac;
    first [apply Z.land_comm|apply Z.lor_comm|apply Z.lxor_comm]. }
  assert (DIVX : y <> 0 -> in_range i (Z.quot x y) \/ isigned i = false ->
    exists m', run sym (bin_code BDiv (negb (isigned i)) s r) None m = Some (None, m') /\ presr r m m' /\
      rg m' AX = Z.quot x y mod 2 ^ nbits s /\ rg m' DX = Z.rem x y mod 2 ^ nbits s).
  { intros NY RQ.
    set (m1 := putr s AX (getr s r m) (putr s r (getr s AX m) m)).
    assert (XC : exec1 sym (Xchg (R s r) (R s AX)) m = Some m1).
    { destruct Bs as [-> | ->]; reflexivity. }
    set (m2 := if negb (isigned i)
               then setf (putr S4 DX (Z.lxor (getr S4 DX m1) (getr S4 DX m1)) m1) None
               else putr s DX (if sgn (nbits s) (getr s AX m1) <? 0 then 2 ^ nbits s - 1 else 0) m1).
    assert (GR : getr s r m2 = y mod 2 ^ nbits s).
    { unfold getr. rewrite <- Ey. unfold m2, m1, putr, getr, setr, setf.
      destruct T as [->|[->|[->|[->|[->| ->]]]]]; destruct Bs as [-> | ->]; destruct (isigned i);
      cbn [rg reg_eqb negb nbits]; rewrite !mod_mod_n by lia; reflexivity. }
    assert (GA1 : getr s AX m1 = x mod 2 ^ nbits s).
    { unfold getr. rewrite <- Ex. unfold m1, putr, getr, setr.
      destruct Bs as [-> | ->]; cbn [rg reg_eqb nbits]; rewrite !mod_mod_n by lia; reflexivity. }
    assert (GA : getr s AX m2 = x mod 2 ^ nbits s).
    { rewrite <- GA1. unfold m2. destruct (isigned i), Bs as [-> | ->]; reflexivity. }
    assert (RUN : forall m3, exec1 sym (Div (isigned i) (R s r)) m2 = Some m3 ->
       run sym (bin_code BDiv (negb (isigned i)) s r) None m = Some (None, m3)).
    { intros m3 X. unfold bin_code. cbn [run]. rewrite XC. unfold m2 in X.
      destruct (isigned i); cbn [negb] in X |- *.
      - destruct Bs as [-> | ->]; cbn [size_eqb run]; cbn [exec1 nbits] in *; rewrite X; reflexivity.
      - cbn [run]. assert (XX : exec1 sym (Alu AXor None (R S4 DX) (R S4 DX)) m1 =
          Some (setf (putr S4 DX (Z.lxor (getr S4 DX m1) (getr S4 DX m1)) m1) None)) by reflexivity.
        rewrite XX, X. reflexivity. }
    assert (DX1 : getr s DX m2 = if isigned i then (if x <? 0 then 2 ^ nbits s - 1 else 0) else 0).
    { unfold m2. rewrite GA1. destruct (isigned i) eqn:SI; cbn [negb].
      - rewrite loadv_signed; [|lia|apply in_range_nb in Rx; rewrite SI in Rx; rewrite NB; lia].
        pose proof (pow2_pos (nbits s) ltac:(lia)).
        destruct Bs as [-> | ->]; unfold getr, putr, setr; cbn [rg reg_eqb nbits];
        destruct (x <? 0); reflexivity.
      - rewrite Z.lxor_nilpotent. destruct Bs as [-> | ->]; reflexivity. }
    eexists. split; [apply RUN; eapply (div_exec (isigned i) s r m2 y x); auto|].
    - rewrite GR. destruct (isigned i) eqn:SI.
      + apply loadv_signed; [lia|]. apply in_range_nb in Ry. rewrite SI in Ry. rewrite NB. lia.
      + apply in_range_nb in Ry. rewrite SI in Ry. apply Z.mod_small. rewrite NB. lia.
    - cbv zeta. rewrite GA, DX1. apply in_range_nb in Rx. destruct (isigned i) eqn:SI.
      + apply sgn_dbl; [lia|]. rewrite NB. lia.
      + rewrite Z.mod_small by (rewrite NB; lia). lia.
    - destruct RQ as [RQ|RQ].
      + apply in_range_nb in RQ. rewrite NB. destruct (isigned i); lia.
      + rewrite RQ, NB. apply in_range_nb in Rx, Ry. rewrite RQ in Rx, Ry.
        rewrite Z.quot_div_nonneg by lia. split; [apply Z.div_pos; lia|].
        apply Z.div_lt_upper_bound; nia.
    - split.
      + split.
        * intros q Q1 Q2 Q3 Q4. cbn [setf rg]. rewrite !putr_other by auto. unfold m2, m1.
          destruct (isigned i); cbn [negb setf rg]; rewrite !putr_other by auto; reflexivity.
        * cbn [setf mm]. rewrite !putr_mm. unfold m2, m1.
          destruct (isigned i); cbn [negb setf mm]; rewrite !putr_mm; reflexivity.
      + destruct Bs as [-> | ->]; split; reflexivity. }
  destruct o.
  - apply (SW BAdd AAdd); auto; discriminate.
  - (* sub *)
    set (m1 := setf (putr s r (getr s r m - getr s AX m) m) None).
    exists (putr s AX (getr s r m1) m1). split; [|split].
    + unfold m1. destruct Bs as [-> | ->]; reflexivity.
    + unfold m1. destruct Bs as [-> | ->]; split; try reflexivity; intros q Q1 Q2 Q3 Q4; cbn [rg setf putr setr];
      destruct q; try congruence; cbn [reg_eqb]; destruct T as [->|[->|[->|[->|[->| ->]]]]]; cbn [reg_eqb]; congruence.
    + eapply eqm_trans; [|apply (SIMPLE BSub); auto; split; discriminate]. cbn [alu_fun].
      unfold m1, getr, putr, setr, setf.
      destruct T as [->|[->|[->|[->|[->| ->]]]]]; destruct Bs as [-> | ->]; cbn [rg reg_eqb nbits];
      repeat (eapply eqm_trans; [apply eqm_mod; lia|]); apply eqm_refl.
  - apply (SW BMul AImul); auto; discriminate.
  - (* div *) cbn [c_bin] in C. destruct (Z.eqb_spec y 0); [discriminate|].
    destruct DIVX as [m' [R1 [P1 [A1 _]]]]; auto.
    { destruct (isigned i) eqn:SI; auto. left. unfold wrap_or_undef in C. rewrite SI in C.
      destruct (in_rangeb i (Z.quot x y)) eqn:IR; [|discriminate]. apply in_rangeb_spec; auto. }
    exists m'. split; [exact R1|]. split; [exact P1|]. rewrite A1.
    eapply eqm_trans; [apply eqm_mod; lia|]. rewrite NB. apply eqm_wrap; auto.
  - (* mod *) cbn [c_bin] in C. destruct (Z.eqb_spec y 0); [discriminate|].
    destruct (in_rangeb i (Z.quot x y)) eqn:IR; [|discriminate]. injection C as <-.
    apply in_rangeb_spec in IR.
    destruct DIVX as [m' [R1 [P1 [_ D1]]]]; auto.
    exists (putr S8 AX (getr S8 DX m') m'). split; [|split].
    + change (bin_code BMod (negb (isigned i)) s r) with
        (bin_code BDiv (negb (isigned i)) s r ++ [Mov None (R S8 DX) (R S8 AX)]).
      rewrite run_app, R1. reflexivity.
    + destruct P1 as [Q1 Q2]. split; [|exact Q2]. intros q A B D E. rewrite <- Q1 by auto.
      cbn [putr setr rg]. destruct q; try congruence; reflexivity.
    + cbn [putr setr rg reg_eqb nbits]. unfold getr. rewrite D1. cbn [nbits].
      eapply eqm_trans; [apply eqm_mod_le; lia|]. eapply eqm_trans; [apply eqm_mod_le; lia|]. apply eqm_mod. lia.
  - apply (SW BAnd AAnd); auto; discriminate.
  - apply (SW BOr AOr); auto; discriminate.
  - apply (SW BXor AXor); auto; discriminate.
Qed.
End S.

Lemma pow2_land y : 0 < y -> Z.land y (y - 1) = 0 -> y = 2 ^ Z.log2 y.
Proof.
  intros H L. pose proof (Z.log2_spec y H) as [A B]. set (k := Z.log2 y) in *.
  assert (K : 0 <= k) by apply Z.log2_nonneg.
  destruct (Z.eq_dec y (2 ^ k)) as [E|E]; [exact E|exfalso].
  assert (T1 : Z.testbit y k = true) by (apply Z.bit_log2; exact H).
  assert (LG : Z.log2 (y - 1) = k) by (apply Z.log2_unique; lia).
  pose proof (pow2_pos k K).
  assert (T2 : Z.testbit (y - 1) k = true) by (rewrite <- LG; apply Z.bit_log2; lia).
  assert (T : Z.testbit (Z.land y (y - 1)) k = true) by (rewrite Z.land_spec, T1, T2; reflexivity).
  rewrite L, Z.bits_0 in T. discriminate.
Qed.

Lemma land_pow2_mod x y : 0 < y -> Z.land y (y - 1) = 0 -> Z.land x (y - 1) = x mod y.
Proof.
  intros H L. apply pow2_land in L; [|auto]. rewrite L at 1 2. replace (2 ^ Z.log2 y - 1) with (Z.ones (Z.log2 y)).
  - rewrite Z.land_ones by apply Z.log2_nonneg. rewrite <- L. reflexivity.
  - rewrite Z.ones_equiv. lia.
Qed.

Lemma unsigned_rep_y i y : isigned i = false -> in_range i y -> u64 (rep64 y) = y.
Proof. intros. apply (unsigned_rep i); auto. Qed.

Section D.
Variable sym : nat -> Z.
Local Notation slc := (slc sym).
Variable rec : mode -> node -> gst -> outcome gst.

Lemma divmod_ok d i e v st st' : i <> TBool -> 32 <= iwidth i ->
  divmod_opt rec d (mty i) e v st = Ok (Some st') ->
  exists st1 code, rec MExpr e st = Ok st1 /\ st' = emit code st1 /\ labels code = [] /\
    forall m x y w, in_range i x -> in_range i y -> v = rep64 y ->
      eqm (iwidth i) (rg m AX) x -> c_bin (if d then BDiv else BMod) i x y = Some w ->
      slc code m (fun m' => eqm (iwidth i) (rg m' AX) w).
Proof.
  intros N W D.
  set (n := iwidth i) in *.
  assert (exists s, size_of (sz (mty i)) = Ok s /\ big s /\ nbits s = n /\ sz (mty i) * 8 = n /\ uns (mty i) = negb (isigned i))
    as [s [S [Bs [NB [SN U]]]]].
  { subst n. destruct i; try congruence; cbn in W; try lia; eexists; (split; [reflexivity|]); unfold big; auto. }
  unfold divmod_opt in D. rewrite S in D. cbn [bind] in D. rewrite U, SN in D.
  destruct (rec MExpr e st) as [st1| |] eqn:R1; cbn [bind] in D.
  2,3: repeat match type of D with (if ?b then _ else _) = _ => destruct b; cbn [bind] in D
       | match ?x with Some _ => _ | None => _ end = _ => destruct x; cbn [bind] in D end; discriminate.
  assert (NN : 32 <= n <= 64) by (rewrite <- NB; destruct Bs as [-> | ->]; cbn; lia).
  assert (RI : forall y k, in_range i y -> in_range i k -> rep64 y = rep64 k -> y = k).
  { intros y k A B E. eapply (rep64_inj i); eauto. }
  assert (R1i : in_range i 1) by (apply in_range_nb; fold n; destruct (isigned i);
     pose proof (Z.pow_le_mono_r 2 31 (n-1) ltac:(lia) ltac:(lia)); pose proof (Z.pow_le_mono_r 2 31 n ltac:(lia) ltac:(lia)); lia).
  assert (ZX : forall m, slc [Alu AXor None (R S4 AX) (R S4 AX)] m (fun m' => eqm n (rg m' AX) 0)).
  { intros m. eapply slc_weak; [apply (xor_self sym S4 AX); unfold big; auto|]. intros m' _ [E _]. rewrite E. apply eqm_refl. }
  destruct (Z.eqb_spec v 1) as [V1|V1].
  { injection D as <-. exists st1. eexists. split; [reflexivity|]. split; [reflexivity|]. split; [destruct d; reflexivity|].
    intros m x y w Rx Ry E EX C. assert (y = 1) as -> by (apply RI; auto; rewrite <- E, V1; reflexivity).
    destruct d; cbn [c_bin] in C; rewrite ?Z.quot_1_r, ?Z.rem_1_r in C; cbn [Z.eqb] in C.
    - apply slc_nil. eapply eqm_trans; [exact EX|]. apply eqm_wrap; auto.
    - change (1 =? 0) with false in C. cbv iota in C. destruct (in_rangeb i x); [|discriminate]. injection C as <-. apply ZX. }
  destruct (Z.eqb_spec v (-1)) as [V2|V2].
  { destruct (isigned i) eqn:SI; cbn [negb] in D.
    - injection D as <-. exists st1. eexists. split; [reflexivity|]. split; [reflexivity|]. split; [destruct d; reflexivity|].
      intros m x y w Rx Ry E EX C.
      assert (y = -1) as ->.
      { apply RI; auto; [|rewrite <- E, V2; reflexivity]. apply in_range_nb. fold n. rewrite SI.
        pose proof (Z.pow_le_mono_r 2 31 (n-1) ltac:(lia) ltac:(lia)). lia. }
      assert (Q1 : Z.quot x (-1) = - x) by (change (-1) with (- (1)); rewrite Z.quot_opp_r, Z.quot_1_r by lia; reflexivity).
      assert (Q2 : Z.rem x (-1) = 0) by (change (-1) with (- (1)); rewrite Z.rem_opp_r, Z.rem_1_r by lia; reflexivity).
      destruct d; cbn [c_bin] in C; rewrite ?Q1, ?Q2 in C; change (-1 =? 0) with false in C; cbv iota in C.
      + eapply slc_weak; [apply un_ok; auto|]. intros m' _ Q. cbv beta iota in Q. rewrite NB in Q.
        eapply eqm_trans; [exact Q|]. eapply eqm_trans; [|apply eqm_wrap; eauto]. apply eqm_opp; auto. 
      + destruct (in_rangeb i (- x)); [|discriminate]. injection C as <-. apply ZX.
    - assert (FACT : forall y, in_range i y -> v = rep64 y -> y = 2 ^ 64 - 1 /\ n = 64).
      { intros y Ry E. assert (Y : u64 (rep64 y) = y) by (apply (unsigned_rep_y i); auto).
        rewrite <- E, V2 in Y. assert (YY : y = 2 ^ 64 - 1) by (rewrite <- Y; reflexivity).
        split; [exact YY|]. apply in_range_nb in Ry. rewrite SI in Ry. fold n in Ry.
        destruct Bs as [-> | ->]; cbn [nbits] in NB; [|auto]. rewrite <- NB in Ry. lia. }
      assert (CMP : forall m x y, in_range i x -> in_range i y -> v = rep64 y -> eqm n (rg m AX) x ->
         slc [Alu ACmp None (I (-1)) (R s AX)] m (fun m' => cmpf i x y m' /\ rg m' = rg m)).
      { intros m x y Rx Ry E EX. destruct (FACT y Ry E) as [YE NE].
        apply (cmp_gen sym i s None (I (-1)) (R s AX) x y); auto; try discriminate;
          try (destruct Bs as [-> | ->]; reflexivity).
        - apply rd_reg. rewrite NB. exact EX.
        - apply rd_imm; auto; [lia|]. rewrite NB, NE, YE. reflexivity. }
      destruct d.
      + injection D as <-. exists st1. eexists. split; [reflexivity|]. split; [reflexivity|]. split; [reflexivity|].
        intros m x y w Rx Ry E EX C. destruct (FACT y Ry E) as [YE NE].
        change (Alu ACmp None (I (-1)) (R s AX) :: gen_cmp_setcc CEq false) with
          ([Alu ACmp None (I (-1)) (R s AX)] ++ gen_cmp_setcc CEq false).
        eapply slc_app; [apply (CMP m x y); auto|]. intros m1 P1 [[f [F1 F2]] _].
        eapply slc_weak; [apply setcc_ok; exact F1|]. intros m' _ Q.
        specialize (F2 CEq). rewrite SI in F2. cbn [negb] in F2. change (cmp_cc CEq false) with (cmp_cc CEq true) in Q. rewrite F2 in Q.
        rewrite NE. eapply eqm_trans; [exact Q|]. cbn [c_cmp c_bin] in *.
        destruct (Z.eqb_spec y 0); [lia|]. apply eqm_wrap in C; auto. fold n in C. rewrite NE in C.
        eapply eqm_trans; [|exact C]. apply in_range_nb in Rx. rewrite SI in Rx. fold n in Rx. rewrite NE in Rx.
        destruct (Z.eqb_spec x y) as [->|]; cbn [b2z].
        * rewrite Z.quot_same by lia. apply eqm_refl.
        * rewrite Z.quot_small by lia. apply eqm_refl.
      + injection D as <-. exists st1. eexists. split; [reflexivity|]. split; [reflexivity|]. split; [reflexivity|].
        intros m x y w Rx Ry E EX C. destruct (FACT y Ry E) as [YE NE].
        change [Alu AXor None (R S4 DX) (R S4 DX); Alu ACmp None (I (-1)) (R s AX); Cmov CcE (R s DX) (R s AX)] with
          ([Alu AXor None (R S4 DX) (R S4 DX)] ++ [Alu ACmp None (I (-1)) (R s AX)] ++ [Cmov CcE (R s DX) (R s AX)]).
        eapply slc_app; [apply (xor_self sym S4 DX); unfold big; auto|]. intros m1 P1 [Z1 A1]. specialize (A1 eq_refl).
        eapply slc_app; [apply (CMP m1 x y); auto; rewrite A1; auto|]. intros m2 P2 [[f [F1 F2]] G2].
        specialize (F2 CEq). rewrite SI in F2. cbn [negb cmp_cc cond_holds c_cmp] in F2.
        assert (s = S8) as -> by (destruct Bs as [-> | ->]; [cbn in NB; lia|auto]).
        eexists. split; [cbn [run exec1 osize osizes app flat_map forallb size_eqb andb rd]; rewrite F1; reflexivity|].
        split; [prest|]. cbn [cond_holds]. rewrite F2. cbn [putr setr rg reg_eqb]. unfold getr. rewrite G2, Z1, A1. cbn [nbits].
        rewrite NE in *. eapply eqm_trans; [apply eqm_mod; lia|].
        cbn [c_bin] in C. destruct (Z.eqb_spec y 0); [lia|]. destruct (in_rangeb i (Z.quot x y)); [|discriminate].
        injection C as <-. apply in_range_nb in Rx. rewrite SI in Rx. fold n in Rx. rewrite NE in Rx.
        destruct (Z.eqb_spec x y) as [->|].
        * rewrite Z.rem_same by lia. reflexivity.
        * rewrite Z.rem_small by lia. eapply eqm_trans; [apply eqm_mod; lia|]. exact EX. }
  destruct (if d && is_pow_of_two v && negb (isigned i) then find_pow 64 1 n v else None) as [p|] eqn:FP.
  { injection D as <-. exists st1. eexists. split; [reflexivity|]. split; [reflexivity|]. split; [reflexivity|].
    intros m x y w Rx Ry E EX C.
    destruct d; [|discriminate]. destruct (is_pow_of_two v); [|discriminate].
    destruct (isigned i) eqn:SI; [discriminate|]. cbn [andb negb] in FP.
    apply find_pow_ok in FP. destruct FP as [PB PV].
    assert (YE : y = 2 ^ p).
    { assert (Y : u64 (rep64 y) = y) by (apply (unsigned_rep_y i); auto). rewrite <- Y, <- E, <- PV.
      unfold i64. rewrite sext64_rep. apply (unsigned_rep_y TULong); [reflexivity|]. apply in_range_nb.
      cbn [isigned iwidth]. pose proof (pow2_pos p ltac:(lia)). pose proof (Z.pow_lt_mono_r 2 p 64 ltac:(lia) ltac:(lia) ltac:(lia)). lia. }
    eapply slc_weak; [apply sh_imm; [auto|rewrite NB; lia]|]. intros m' _ ->. unfold getr. rewrite NB, EX.
    apply in_range_nb in Rx. rewrite SI in Rx. fold n in Rx. rewrite (Z.mod_small x) by lia.
    eapply eqm_trans; [apply eqm_mod; lia|]. cbn [c_bin] in C. pose proof (pow2_pos p ltac:(lia)).
    destruct (Z.eqb_spec y 0); [lia|]. apply eqm_wrap in C; auto. fold n in C.
    rewrite YE, Z.quot_div_nonneg in C by lia. exact C. }
  clear FP. destruct (negb d && is_pow_of_two v && negb (isigned i) && negb (v =? 0)) eqn:CD; [|discriminate].
  apply andb_true_iff in CD. destruct CD as [CD C4]. apply andb_true_iff in CD. destruct CD as [CD C3].
  apply andb_true_iff in CD. destruct CD as [C1 C2]. apply negb_true_iff in C1, C3, C4. subst d. apply Z.eqb_neq in C4.
  assert (FACT : forall y, in_range i y -> v = rep64 y -> 0 < y /\ Z.land y (y - 1) = 0 /\ u64 (v - 1) = y - 1 /\ y < 2 ^ n).
  { intros y Ry E. assert (Y : u64 (rep64 y) = y) by (apply (unsigned_rep_y i); auto). rewrite <- E in Y.
    apply in_range_nb in Ry. rewrite C3 in Ry. fold n in Ry.
    assert (0 < y). { destruct (Z.eq_dec y 0) as [->|]; [|lia]. exfalso. apply C4. rewrite E. reflexivity. }
    pose proof (Z.pow_le_mono_r 2 n 64 ltac:(lia) ltac:(lia)).
    assert (M : u64 (v - 1) = y - 1).
    { rewrite <- (Z.mod_small (y - 1) (2 ^ 64)) by lia. rewrite <- Y. unfold u64, trunc.
      rewrite Zminus_mod_idemp_l. reflexivity. }
    split; [lia|]. split; [|split; [exact M|lia]].
    unfold is_pow_of_two in C2. apply Z.eqb_eq in C2. rewrite Y in C2.
    replace (u64 (y - 1)) with (y - 1) in C2; [exact C2|]. unfold u64, trunc. rewrite Z.mod_small; lia. }
  assert (FIN : forall x y w, in_range i x -> in_range i y -> v = rep64 y -> c_bin BMod i x y = Some w -> w = Z.land x (y - 1)).
  { intros x y w Rx Ry E C. destruct (FACT y Ry E) as [Y0 [Y1 _]]. rewrite land_pow2_mod by auto.
    cbn [c_bin] in C. destruct (Z.eqb_spec y 0); [lia|]. destruct (in_rangeb i (Z.quot x y)); [|discriminate].
    injection C as <-. apply in_range_nb in Rx. rewrite C3 in Rx. apply Z.rem_mod_nonneg; lia. }
  destruct (Z.eqb_spec (u64 (v - 1)) (two32 - 1)) as [M1|M1].
  { injection D as <-. exists st1. eexists. split; [reflexivity|]. split; [reflexivity|]. split; [reflexivity|].
    intros m x y w Rx Ry E EX C. destruct (FACT y Ry E) as [Y0 [Y1 [Y2 Y3]]]. rewrite (FIN x y w) by auto.
    rewrite M1 in Y2. rewrite <- Y2. unfold two32 in *.
    assert (N64 : n = 64). { rewrite <- NB in *. destruct Bs as [-> | ->]; cbn [nbits] in *; lia. }
    xgo. unfold getr. cbn [nbits]. rewrite N64 in *.
    change (4294967296 - 1) with (Z.ones 32). rewrite Z.land_ones by lia. unfold eqm. f_equal.
    rewrite mod_mod_n by lia. apply eqm_le with 64; auto; lia. }
  destruct (Z.leb_spec (u64 (v - 1)) INT_MAX) as [M2|M2].
  { injection D as <-. exists st1. eexists. split; [reflexivity|]. split; [reflexivity|]. split; [reflexivity|].
    intros m x y w Rx Ry E EX C. destruct (FACT y Ry E) as [Y0 [Y1 [Y2 Y3]]]. rewrite (FIN x y w) by auto.
    rewrite Y2 in *. unfold INT_MAX in M2.
    eexists. split.
    { cbn [run exec1 osize osizes app flat_map forallb size_eqb is_mem andb]. cbn [rd].
      rewrite (imm32_ok S4) by (unfold big; auto; lia). cbn [wr noflags]. reflexivity. }
    split; [prest|]. cbn [rg setf putr setr reg_eqb]. unfold getr. cbn [nbits].
    rewrite (Z.mod_small (y - 1)) by lia.
    assert (LB : forall a, 0 <= Z.land a (y - 1) < 2 ^ 32).
    { intros a. rewrite land_pow2_mod by auto. pose proof (Z.mod_pos_bound a y Y0). lia. }
    rewrite Z.mod_small by apply LB. rewrite !land_pow2_mod by auto. pose proof (pow2_land y Y0 Y1) as YP.
    set (k := Z.log2 y) in *. clearbody k.
    assert (K0 : 0 <= k). { destruct (Z.le_gt_cases 0 k); auto. rewrite Z.pow_neg_r in YP by lia. lia. }
    assert (K : k < 32). { destruct (Z.le_gt_cases 32 k) as [K|K]; auto. pose proof (Z.pow_le_mono_r 2 32 k ltac:(lia) ltac:(lia)). lia. }
    rewrite YP. unfold eqm. f_equal. rewrite mod_mod_le by lia.
    apply eqm_le with n; auto; lia. }
  injection D as <-. exists st1. eexists. split; [reflexivity|]. split; [reflexivity|].
  split. { unfold imm_and, imm_arith2. destruct (_ =? 0); [reflexivity|]. destruct (_ =? -1); [reflexivity|]. destruct (in_imm_range _); reflexivity. }
  intros m x y w Rx Ry E EX C. destruct (FACT y Ry E) as [Y0 [Y1 [Y2 Y3]]]. rewrite (FIN x y w) by auto.
  rewrite Y2 in *.
  assert (s = S8 /\ n = 64) as [-> N64].
  { destruct Bs as [-> | ->]; cbn [nbits] in *; [exfalso|auto]. rewrite <- NB in Y3. unfold INT_MAX, two32 in *.
    pose proof (pow2_land y Y0 Y1) as YP. set (k := Z.log2 y) in *. clearbody k.
    assert (K : k < 32). { destruct (Z.le_gt_cases 32 k) as [K|K]; auto. pose proof (Z.pow_le_mono_r 2 32 k ltac:(lia) ltac:(lia)). lia. }
    pose proof (Z.pow_le_mono_r 2 k 31 ltac:(lia) ltac:(lia)). lia. }
  eapply slc_weak; [apply imm_and_ok; auto|].
  - unfold imm_dom. cbn [size_eqb]. unfold i64. rewrite sext64_rep. pose proof (rep64_range (y - 1)). unfold two63 in *. lia.
  - intros m' _ Q. cbn [nbits] in Q. rewrite N64 in *. eapply eqm_trans; [exact Q|]. apply eqm_land; [lia|exact EX|].
    unfold i64. rewrite sext64_rep. apply eqm_rep64; lia.
Qed.
End D.
