(** Proofs about calls of functions. *)
From Coq Require Import ZArith List Bool Lia.
From Verif Require Import Base IntSpec IntLemmas IntModel IntMain X86 CgModel CgSpec CgLemmas
  StmtSpec StmtModel StmtPlace ArgSpec ArgModel ArgMain FunSpec FunModel FunProofs FunMain FcallSpec FcallModel.
Import ListNotations.
Local Open Scope Z_scope.

(** *** Addresses depend on the preserved registers only *)
Section Ext.
Variable G : genv.
Variable sym : nat -> Z.
Variables a b : reg -> Z.
Variable V : list (ityp * nat).
Hypothesis E : forall t x, In (t, x) V -> obj_addr G sym a x = obj_addr G sym b x.
Lemma sep_eq : separate G sym a V -> separate G sym b V.
Proof. intros S t x u y Hx Hy. rewrite <- (E t x Hx), <- (E u y Hy). apply S; assumption. Qed.
Lemma held_eq mem lo hi env : held G sym a mem lo hi V env -> held G sym b mem lo hi V env.
Proof. intros H t x Hx. specialize (H t x Hx). cbn [stored] in *. rewrite (E t x Hx) in H. exact H. Qed.
Lemma of_eq z : of_variable G sym a V z -> of_variable G sym b V z.
Proof. intros [t [x [H [B C]]]]. exists t, x. rewrite (E t x H) in C. auto. Qed.
End Ext.

Lemma obj_eq G sym a b x : addressable G sym x -> (forall r, saved r -> a r = b r) -> obj_addr G sym a x = obj_addr G sym b x.
Proof.
  unfold addressable, obj_addr. intros H E. destruct (loc G x); auto. rewrite (E r H). reflexivity.
Qed.
Lemma obj_eq2 G sym a b x : addressable G sym x -> (forall o, loc G x <> VLoc SP o) -> a BP = b BP -> a BX = b BX ->
  obj_addr G sym a x = obj_addr G sym b x.
Proof.
  unfold addressable, obj_addr. intros H N E1 E2. destruct (loc G x) as [r o| |] eqn:EL; auto.
  destruct H as [->|[->| ->]]; [rewrite E2; reflexivity|rewrite E1; reflexivity|]. exfalso. exact (N o eq_refl).
Qed.

(** *** Sizes *)
Lemma stk_filter k : forall gp o, length (filter (fun o => match o with Some _ => true | None => false end) (calling_conv gp o k)) = (k - (6 - gp))%nat.
Proof.
  induction k as [|k IH]; intros gp o; [reflexivity|]. cbn [calling_conv]. destruct (Nat.ltb_spec gp 6); cbn [filter length]; rewrite IH; lia.
Qed.
Lemma stk_size_ok k : arg_stk_size k = 8 * Z.of_nat (k - 6).
Proof. unfold arg_stk_size. rewrite stk_filter. reflexivity. Qed.

Lemma up16 z : 0 <= z -> z <= (z + 15) / 16 * 16.
Proof. intros H. pose proof (Z.div_mod (z + 15) 16 ltac:(lia)). pose proof (Z.mod_pos_bound (z + 15) 16 ltac:(lia)). lia. Qed.

(** *** Single instructions *)
Lemma steps_at sym p pc i m m' : nth_error p pc = Some i -> exec1 sym i m = Some m' -> steps sym p (pc, m) (S pc, m').
Proof.
  intros N X. econstructor; [|constructor]. cbn [step]. rewrite N.
  destruct i; try (rewrite X; reflexivity); cbn [exec1] in X; discriminate X.
Qed.
Lemma exec_add sym n m : 0 <= n < 2 ^ 31 ->
  exec1 sym (Alu AAdd None (X86.I n) (R S8 SP)) m = Some (setf (setr m SP ((rg m SP + n) mod 2 ^ 64)) None).
Proof.
  intros H. cbn [exec1 is_mem andb osize osizes flat_map app forallb size_eqb rd wr putr nbits imm_ok].
  destruct (Z.leb_spec (- 2 ^ 31) n); [|lia]. destruct (Z.ltb_spec n (2 ^ 31)); [|lia]. cbn [andb].
  unfold getr. cbn [nbits noflags]. rewrite <- Zplus_mod. reflexivity.
Qed.
Lemma exec_xor1 sym m : exists m', exec1 sym (Alu AXor None (R S1 AX) (R S1 AX)) m = Some m' /\ mm m' = mm m /\
  forall r, r <> AX -> rg m' r = rg m r.
Proof.
  eexists. split; [reflexivity|]. split; [reflexivity|]. intros r H. cbn [noflags setf putr setr rg].
  destruct (reg_eqb r AX) eqn:E; [|reflexivity]. exfalso. apply H. destruct r; try discriminate E. reflexivity.
Qed.

Lemma narrow_bits t a b : a mod 2 ^ result_bits t = b mod 2 ^ result_bits t -> a mod 2 ^ (8 * isize t) = b mod 2 ^ (8 * isize t).
Proof.
  intros H. assert (D : (2 ^ (8 * isize t) | 2 ^ result_bits t)).
  { exists (2 ^ (result_bits t - 8 * isize t)). rewrite <- Z.pow_add_r by (destruct t; vm_compute; congruence). f_equal. lia. }
  assert (P1 : 0 < 2 ^ (8 * isize t)) by (apply Z.pow_pos_nonneg; destruct t; vm_compute; congruence).
  assert (P2 : 0 < 2 ^ result_bits t) by (apply Z.pow_pos_nonneg; destruct t; vm_compute; congruence).
  rewrite (Znumtheory.Zmod_div_mod _ _ a P1 P2 D), (Znumtheory.Zmod_div_mod _ _ b P1 P2 D), H. reflexivity.
Qed.

Section Call.
(** Caller. *)
Variable G : genv.
Variable sym : nat -> Z.
Hypothesis CO : forall a b, same (gc G) a b = true -> a = b.
Hypothesis SV : saved (lptr G).
Hypothesis NLS : lptr G <> SP.
Variable f : nat.
Variable V : list (ityp * nat).
Variable variadic : bool.
Variable l : list sarg.
Variable ns : list (node * nat).
Variable ms : list marg.
Variables st st2 st' : gst.
Variable env : nat -> Z.
Variable m : mach.
Variable post : list instr.
Let n := (arg_stk_size (length l) + 15) / 16 * 16.
Let q := rg m SP - n.
Let cr := rg (setr m SP q).
Let lp := rg m (lptr G).
Let P := peak st'.
Let objs := arg_objects l ms.
Hypothesis HL : 0 <= lvar_sz G <= peak st.
Hypothesis HB : 0 <= lp < 2 ^ 64.
Hypothesis HP : P <= lp.
Hypothesis HU : forall a, In a l -> uses V (sa_e a) /\ exists v, arg_value env a = Some v.
Hypothesis PA : parse_args (gc G) l = Ok ns.
Hypothesis GF : gen_funcall G f variadic ns st = Ok (ms, st2, st').
Hypothesis SEP : separate G sym cr (V ++ objs).
Hypothesis NDO : NoDup (map snd objs).
Hypothesis OBJ : forall t x, In (t, x) objs -> addressable G sym x /\ known (gc G) x = None /\ ~ In x (map snd V) /\
  clear (obj_addr G sym cr x) (isize t) (lp - P) (lp - lvar_sz G).
Hypothesis STK : forall a o, In a ms -> m_stk a = Some o -> loc G (m_x a) = VLoc SP o.
Hypothesis HD : held G sym cr (mm m) (lp - P) (lp - lvar_sz G) V env.
Hypothesis FL : fresh_labels (out st ++ post) (cnt st) (cnt st').
Hypothesis HSP : rg m SP < 2 ^ 64.
Hypothesis HBP : 0 <= rg m BP < 2 ^ 64.
Hypothesis HBX : 0 <= rg m BX < 2 ^ 64.
(** Callee. *)
Variable ra : Z.
Hypothesis RA : 0 <= ra < 2 ^ 64.
Variable G1 : genv.
Variable nul1 f1 : nat.
Hypothesis CO1 : forall a b, same (gc G1) a b = true -> a = b.
Hypothesis HERE1 : loc G1 nul1 = VHere.
Hypothesis UNK1 : known (gc G1) nul1 = None.
Variable fn : func.
Variable k : Z.
Hypothesis AL : fn_align fn = 2 ^ k.
Hypothesis K : 0 <= k <= 31.
Hypothesis LP1 : lptr G1 = if aligned_frame fn then BX else BP.
Variable others : list (ityp * nat).
Let W := fn_params fn ++ others.
Let s := q - 8.
Let L := frame_base fn s.
Let regs := frame_regs fn (setr m SP s).
Hypothesis HS : 16 <= s.
Hypothesis NSP : forall t x o, In (t, x) W -> loc G1 x <> VLoc SP o.
Hypothesis SEP1 : separate G1 sym regs W.
Hypothesis ADR1 : forall t x, In (t, x) W -> addressable G1 sym x.
Variables id c0 : Z.
Hypothesis I0 : 0 <= id.
Hypothesis C0 : 0 <= c0.
Variable code : list instr.
Variable P1 : Z.
Hypothesis EM : emit_text G1 nul1 f1 fn id c0 = Ok (code, P1).
Hypothesis LV1 : 0 <= lvar_sz G1.
Hypothesis ROOM : (P1 + 15) / 16 * 16 <= L.
Variable env1 : nat -> Z.
Hypothesis U1 : uses_stmt W (fun x => known (gc G1) x = None) (fn_body fn).
Hypothesis ND1 : NoDup (map snd W).
Hypothesis PAR : forall i t x, nth_error (fn_params fn) i = Some (t, x) ->
  known (gc G1) x = None /\
  (exists a, nth_error l i = Some a /\ arg_type a = t /\ arg_value env a = Some (env1 x)) /\
  match arg_place false i with InReg _ => True | OnStack o => loc G1 x = VLoc BP (16 + o) end.
Hypothesis PARC : forall t x, In (t, x) (fn_params fn) -> clear (obj_addr G1 sym regs x) (isize t) (L - P1) (L - lvar_sz G1).
Hypothesis OTH : held G1 sym regs (mm m) (L - P1) (L - lvar_sz G1) others env1.
Hypothesis SHR : forall t y, In (t, y) others ->
  (exists x, In (t, x) V /\ obj_addr G sym cr x = obj_addr G1 sym regs y) \/
  (forall b, obj_addr G1 sym regs y <= b < obj_addr G1 sym regs y + isize t ->
     (b < lp - P \/ lp - lvar_sz G <= b) /\ ~ of_variable G sym cr (V ++ objs) b).
Hypothesis LNK : forall t x, In (t, x) W -> clear (obj_addr G1 sym regs x) (isize t) (link_area fn s) (s + 8).
Hypothesis VFR : forall t x, In (t, x) V -> clear (obj_addr G sym cr x) (isize t) (L - P1) (s + 8).

Lemma n_range : 0 <= n < 2 ^ 31 /\ arg_stk_size (length l) <= n /\ length ns = length l.
Proof.
  assert (LN : length ns = length l).
  { clear - PA. revert ns PA. induction l as [|a l' IH]; intros ns PA; cbn [parse_args] in PA; [injection PA as <-; reflexivity|].
    destruct (parse_arg (gc G) a) as [z| |]; cbn [bind] in PA; try discriminate PA.
    destruct (parse_args (gc G) l') as [r| |]; cbn [bind] in PA; try discriminate PA. injection PA as <-.
    cbn [length]. rewrite (IH r eq_refl). reflexivity. }
  unfold gen_funcall in GF. destruct (prepare_funcall G false ns) as [z| |]; cbn [bind] in GF; try discriminate GF.
  rewrite LN in GF. fold n in GF. destruct (Z.leb_spec (2 ^ 31) n); [discriminate GF|].
  pose proof (stk_size_ok (length l)). pose proof (up16 (arg_stk_size (length l)) ltac:(lia)). fold n in H1. split; [lia|]. auto.
Qed.

Lemma frame_low : L - P1 <= s.
Proof.
  destruct n_range as [NR _].
  assert (S2 : 16 <= rg (setr m SP s) SP < 2 ^ 64) by (cbn [setr rg reg_eqb]; subst s q; lia).
  destruct (emit_shape G1 sym nul1 CO1 HERE1 UNK1 f1 fn k AL K LP1 others (setr m SP s) S2 SEP1 ADR1 id c0 I0 C0 code P1 EM LV1 U1)
    as [ls [id' [sv [w [i [body SH]]]]]].
  pose proof (sh_lv _ _ _ _ _ _ _ _ _ _ _ _ _ _ SH). destruct (frame_le G1 fn k AL K LP1 (setr m SP s)) as [F1 [F2 _]].
  cbn [setr rg reg_eqb] in F1, F2. fold L in F1. lia.
Qed.

Theorem call_code env1' o : exec (fn_ret fn) env1 (fn_body fn) env1' o ->
  exists m1 m2 m3,
    steps sym (out st' ++ post) (length (out st), m) (length (out st2), m1) /\
    called sym code ra m1 m2 /\
    steps sym (out st' ++ post) (S (length (out st2)), m2) (length (out st'), m3) /\
    result fn o (rg m3 AX) /\ (forall r, saved r -> rg m3 r = rg m r) /\
    held G1 sym regs (mm m3) (L - P1) (L - lvar_sz G1) W env1' /\
    (forall t x, In (t, x) V ->
       (forall b, obj_addr G sym cr x <= b < obj_addr G sym cr x + isize t -> ~ of_variable G1 sym regs W b) ->
       loadn (Z.to_nat (isize t)) (obj_addr G sym cr x) (mm m3) = env x mod 2 ^ (8 * isize t)) /\
    (forall b, b < lp - P \/ lp - lvar_sz G <= b -> b < L - P1 \/ s + 8 <= b ->
       ~ of_variable G sym cr (V ++ objs) b -> ~ of_variable G1 sym regs W b -> mm m3 b = mm m b).
Proof.
  intros EX. destruct n_range as [NR [NS LN]]. pose proof frame_low as FLOW.
  assert (ADV : forall t x, In (t, x) (V ++ objs) -> addressable G sym x).
  { intros t x H. apply in_app_iff in H. destruct H as [H|H]; [apply (HD t x H)|apply (OBJ t x H)]. }
  (* the code *)
  unfold gen_funcall in GF. destruct (prepare_funcall G false ns) as [ms'| |] eqn:PF; cbn [bind] in GF; try discriminate GF.
  rewrite LN in GF. fold n in GF. destruct (Z.leb_spec (2 ^ 31) n) as [NB|_]; [lia|].
  set (asz := arg_stk_size (length l)) in *.
  set (sub := if asz =? 0 then [] else [Alu ASub None (X86.I n) (R S8 SP)]).
  set (add := if asz =? 0 then [] else [Alu AAdd None (X86.I n) (R S8 SP)]).
  set (xr := if variadic then [Alu AXor None (R S1 AX) (R S1 AX)] else []).
  set (st0 := if asz =? 0 then st else emit [Alu ASub None (X86.I n) (R S8 SP)] st) in *.
  destruct (gen_funcall_args G f false ms' st0) as [st1| |] eqn:GA; cbn [bind] in GF; try discriminate GF.
  assert (EMS : ms' = ms) by congruence. subst ms'.
  set (x2 := if variadic then emit [Alu AXor None (R S1 AX) (R S1 AX)] st1 else st1) in GF.
  assert (E2 : st2 = x2) by congruence.
  assert (E3 : st' = if asz =? 0 then clobber_all_regs (emit [Nop] x2) else emit [Alu AAdd None (X86.I n) (R S8 SP)] (clobber_all_regs (emit [Nop] x2))) by congruence.
  rewrite <- E2 in E3. subst x2. clear GF.
  assert (O0 : out st0 = out st ++ sub /\ peak st0 = peak st /\ cnt st0 = cnt st).
  { subst st0 sub. destruct (asz =? 0); cbn [emit out peak cnt]; rewrite ?app_nil_r; auto. }
  assert (O2 : out st2 = out st1 ++ xr /\ peak st2 = peak st1 /\ cnt st2 = cnt st1).
  { rewrite E2. subst xr. destruct variadic; cbn [emit out peak cnt]; rewrite ?app_nil_r; auto. }
  assert (O3 : out st' = out st2 ++ Nop :: add /\ peak st' = peak st2 /\ cnt st' = cnt st2).
  { rewrite E3. subst add. destruct (asz =? 0); cbn [emit clobber_all_regs out peak cnt]; rewrite <- ?app_assoc; auto. }
  destruct O0 as [O0 [K0 N0]]. destruct O2 as [O2 [K2 N2]]. destruct O3 as [O3 [K3 N3]].
  assert (PE : peak st1 = P) by (unfold P; congruence).
  set (tl := xr ++ Nop :: add ++ post).
  assert (OT : out st' ++ post = out st1 ++ tl).
  { rewrite O3, O2. subst tl. rewrite <- !app_assoc. reflexivity. }
  assert (LSUB : labels sub = []) by (subst sub; destruct (asz =? 0); reflexivity).
  assert (LADD : labels add = []) by (subst add; destruct (asz =? 0); reflexivity).
  assert (LXR : labels xr = []) by (subst xr; destruct variadic; reflexivity).
  (* the allocation *)
  assert (S10 : 0 <= q) by (subst s; lia).
  assert (M0 : exists m0, run sym sub None m = Some (None, m0) /\ (forall r, rg m0 r = cr r) /\ mm m0 = mm m).
  { subst sub. destruct (Z.eqb_spec asz 0) as [Z0|Z0].
    - exists m. split; [reflexivity|]. split; [|reflexivity]. intros r. subst cr q. unfold n. rewrite Z0. change ((0 + 15) / 16 * 16) with 0.
      cbn [setr rg]. destruct (reg_eqb r SP) eqn:ER; [|reflexivity]. destruct r; try discriminate ER. lia.
    - rewrite (run_cons _ _ _ _ _ (exec_sub sym n m NR)). cbn [run]. eexists. split; [reflexivity|]. split; [|reflexivity].
      intros r. subst cr. cbn [setf setr rg]. fold q. rewrite Z.mod_small by (subst q; lia). reflexivity. }
  destruct M0 as [m0 [R0 [RG0 MM0]]].
  assert (LP0 : rg m0 (lptr G) = lp).
  { rewrite RG0. subst cr lp. cbn [setr rg]. destruct (reg_eqb (lptr G) SP) eqn:ER; [|reflexivity]. exfalso. apply NLS. destruct (lptr G); try discriminate ER. reflexivity. }
  assert (OE0 : forall t x, In (t, x) (V ++ objs) -> obj_addr G sym cr x = obj_addr G sym (rg m0) x).
  { intros t x H. apply obj_eq; [exact (ADV t x H)|]. intros r _. symmetry. apply RG0. }
  assert (OE0V : forall t x, In (t, x) V -> obj_addr G sym cr x = obj_addr G sym (rg m0) x).
  { intros t x H. apply (OE0 t x). apply in_app_iff. left. exact H. }
  destruct (args_code_ext G sym CO SV f V false l ns ms st0 st1 env m0 tl) as [[ac AC] [m1 [ST1 [ARG [HD1 [SV1 ME1]]]]]].
  - rewrite K0. exact HL.
  - rewrite LP0. exact HB.
  - rewrite LP0, PE. exact HP.
  - exact HU.
  - exact PA.
  - exact PF.
  - exact (sep_eq _ _ _ _ _ OE0 SEP).
  - exact NDO.
  - intros t x H. rewrite LP0, PE, <- (OE0 t x) by (apply in_app_iff; right; exact H). exact (OBJ t x H).
  - exact STK.
  - rewrite LP0, PE, MM0. exact (held_eq _ _ _ _ _ OE0V _ _ _ _ HD).
  - exact GA.
  - rewrite O0, N0. replace (cnt st1) with (cnt st') by congruence. destruct FL as [F1 F2]. unfold fresh_labels.
    assert (LE : labels ((out st ++ sub) ++ tl) = labels (out st ++ post)).
    { subst tl. change (Nop :: add ++ post) with ([Nop] ++ add ++ post). rewrite !labels_app, LSUB, LADD, LXR. cbn [app]. rewrite app_nil_r. reflexivity. }
    rewrite LE. auto.
  - rewrite LP0, PE in HD1, ME1. rewrite MM0 in ME1.
    assert (SP1 : rg m1 SP = q).
    { rewrite SV1 by (unfold saved; auto). rewrite RG0. subst cr. cbn [setr rg]. reflexivity. }
    assert (BP1 : rg m1 BP = rg m BP) by (rewrite SV1 by (unfold saved; auto); rewrite RG0; reflexivity).
    assert (BX1 : rg m1 BX = rg m BX) by (rewrite SV1 by (unfold saved; auto); rewrite RG0; reflexivity).
    assert (M1' : exists m1', steps sym (out st' ++ post) (length (out st1), m1) (length (out st2), m1') /\ mm m1' = mm m1 /\
      forall r, r <> AX -> rg m1' r = rg m1 r).
    { rewrite O2. subst xr. destruct variadic.
      - destruct (exec_xor1 sym m1) as [m1' [X1 [X2 X3]]]. exists m1'. split; [|auto]. rewrite app_length. cbn [length]. rewrite Nat.add_1_r.
        eapply steps_at; [|exact X1]. rewrite OT, nth_error_app2, Nat.sub_diag by lia. reflexivity.
      - exists m1. rewrite app_nil_r. split; [constructor|]. auto. }
    destruct M1' as [m1' [ST1' [MM1 RG1]]].
    rewrite <- OT in ST1.
    assert (ST0 : steps sym (out st' ++ post) (length (out st), m) (length (out st0), m0)).
    { rewrite O0. rewrite O0 in AC. subst sub. destruct (asz =? 0).
      - cbn [run] in R0. rewrite app_nil_r. replace m0 with m by congruence. constructor.
      - rewrite app_length. cbn [length]. rewrite Nat.add_1_r. rewrite (run_cons _ _ _ _ _ (exec_sub sym n m NR)) in R0. cbn [run] in R0.
        eapply steps_at; [|etransitivity; [exact (exec_sub sym n m NR)|congruence]].
        rewrite OT, AC, <- !app_assoc. rewrite nth_error_app2, Nat.sub_diag by lia. reflexivity. }
    (* the callee *)
    set (me := call_entry ra m1').
    assert (SPE : rg me SP = s).
    { subst me. unfold call_entry. cbn [setm setr rg]. rewrite reg_eqb_refl, RG1 by discriminate. rewrite SP1. reflexivity. }
    assert (RGE : forall r, r <> SP -> r <> AX -> rg me r = rg m1 r).
    { intros r A B. subst me. unfold call_entry. cbn [setm setr rg]. destruct (reg_eqb r SP) eqn:ER; [exfalso; destruct r; try discriminate ER; congruence|]. apply RG1. exact B. }
    assert (MME : forall b, b < s \/ s + 8 <= b -> mm me b = mm m1 b).
    { intros b Hb. subst me. unfold call_entry. cbn [setm mm]. rewrite RG1, SP1, MM1 by discriminate. apply storen_other. fold s. lia. }
    assert (RAE : loadn 8 s (mm me) = ra).
    { subst me. unfold call_entry. cbn [setm mm]. rewrite RG1, SP1 by discriminate. fold s. rewrite loadn_storen.
      change (8 * Z.of_nat 8) with 64. apply Z.mod_small. exact RA. }
    assert (FRE : forall r, r = BP \/ r = BX -> regs r = frame_regs fn me r).
    { intros r [->| ->]; subst regs; cbn [frame_regs setr rg]; rewrite SPE, ?reg_eqb_refl; cbn [reg_eqb]; [reflexivity|].
      destruct (aligned_frame fn); [reflexivity|]. rewrite RGE by discriminate. symmetry. exact BX1. }
    assert (OEW : forall t x, In (t, x) W -> obj_addr G1 sym regs x = obj_addr G1 sym (frame_regs fn me) x).
    { intros t x H. apply obj_eq2; [exact (ADR1 t x H)|intros z; exact (NSP t x z H)|apply FRE; auto|apply FRE; auto]. }
    assert (WP : forall t x, In (t, x) (fn_params fn) -> In (t, x) W) by (intros; apply in_app_iff; auto).
    assert (WO : forall t x, In (t, x) others -> In (t, x) W) by (intros; apply in_app_iff; auto).
    destruct (fun_code G1 sym nul1 CO1 HERE1 UNK1 f1 fn k AL K LP1 others me) with (id := id) (c0 := c0) (code := code) (P := P1) (env := env1) (env' := env1') (o := o)
      as [m2 [ST2 [RES2 [SP2 [BP2 [BX2 [RA2 [HD2 ME2]]]]]]]]; rewrite ?SPE; auto.
    + subst q. lia.
    + rewrite RGE, BP1 by discriminate. exact HBP.
    + rewrite RGE, BX1 by discriminate. exact HBX.
    + exact (sep_eq _ _ _ _ _ OEW SEP1).
    + intros i t x Hi. destruct (PAR i t x Hi) as [KN [[a [Ha [Ta Va]]] LO]]. specialize (ARG i a (env1 x) Ha Va). subst t.
      split; [exact KN|]. split.
      { unfold arg_value in Va. destruct (ceval env (sa_e a)) as [v|]; [|discriminate Va]. injection Va as <-. apply conv_range. }
      assert (IL : (i < length l)%nat) by (apply nth_error_Some; congruence).
      unfold passed. unfold arg_place in *. cbn [Nat.add] in *. destruct (nth_error abi_regs i) as [r|] eqn:AR.
      * assert (RN : r <> SP /\ r <> AX).
        { apply nth_error_In in AR. cbn in AR. repeat match type of AR with _ \/ _ => destruct AR as [<-|AR]; [split; discriminate|] end. destruct AR. }
        split; [|exact Logic.I]. rewrite RGE by tauto. exact (narrow_bits _ _ _ ARG).
      * assert (GE : (6 <= i)%nat) by (apply nth_error_None in AR; exact AR).
        assert (OB : 8 * (Z.of_nat i - 6) + 8 <= n).
        { pose proof (stk_size_ok (length l)) as SK. fold asz in SK. lia. }
        assert (AD : (rg m0 SP + 8 * (Z.of_nat i - 6)) mod 2 ^ 64 = q + 8 * (Z.of_nat i - 6)).
        { rewrite RG0. subst cr. cbn [setr rg reg_eqb]. apply Z.mod_small. subst q. lia. }
        rewrite AD in ARG. split; [|split; [exact LO|subst s q; lia]].
        rewrite <- ARG, SPE. replace (s + 8 + 8 * (Z.of_nat i - 6)) with (q + 8 * (Z.of_nat i - 6)) by (subst s; lia).
        apply loadn_ext. intros b Hb. apply MME. subst s. lia.
    + intros t x H. rewrite <- (OEW t x (WP t x H)). exact (PARC t x H).
    + apply (held_eq G1 sym regs (frame_regs fn me) others (fun t x H => OEW t x (WO t x H))).
      intros t y Hy. destruct (OTH t y Hy) as [IR [KN [A1 [A2 A3]]]]. split; [exact IR|]. split; [exact KN|]. cbn [stored].
      split; [exact A1|]. split; [exact A2|]. rewrite <- A3. pose proof (isize_pos t) as PT. destruct (LNK t y (WO t y Hy)) as [_ LK].
      assert (LKA : link_area fn s <= s) by (unfold link_area; destruct (aligned_frame fn); lia).
      transitivity (loadn (Z.to_nat (isize t)) (obj_addr G1 sym regs y) (mm m1)).
      * apply loadn_ext. intros b Hb. apply MME. lia.
      * destruct (SHR t y Hy) as [[x [Hx EA]]|SH].
        -- destruct (HD1 t x Hx) as [_ [_ [_ [_ B3]]]]. destruct (HD t x Hx) as [_ [_ [_ [_ C3]]]].
           rewrite <- (OE0V t x Hx) in B3. rewrite <- EA. rewrite B3, C3. reflexivity.
        -- apply loadn_ext. intros b Hb. destruct (SH b ltac:(lia)) as [S1 S2]. apply ME1; [exact S1|].
           intros X. apply S2. exact (of_eq _ _ _ _ _ (fun t x H => eq_sym (OE0 t x H)) _ X).
    + intros t x H. rewrite <- (OEW t x H). exact (LNK t x H).
    + assert (OEW' : forall t x, In (t, x) W -> obj_addr G1 sym (frame_regs fn me) x = obj_addr G1 sym regs x) by (intros t x H; symmetry; exact (OEW t x H)).
      rewrite SPE in SP2, RA2, HD2, ME2. fold L in HD2, ME2.
      apply (held_eq _ _ _ _ _ OEW') in HD2.
      assert (ME3 : forall b, b < L - P1 \/ s <= b -> ~ of_variable G1 sym regs W b -> mm m2 b = mm me b).
      { intros b Hb HN. apply ME2; [exact Hb|]. intros X. apply HN. exact (of_eq _ _ _ _ _ OEW' _ X). }
      set (m3 := setr m2 SP (rg m2 SP + 8)).
      assert (SP3 : rg m3 SP = q) by (subst m3; cbn [setr rg reg_eqb]; rewrite SP2; subst s; lia).
      assert (M4 : exists m4, steps sym (out st' ++ post) (S (length (out st2)), m3) (length (out st'), m4) /\ mm m4 = mm m2 /\
        rg m4 SP = rg m SP /\ forall r, r <> SP -> rg m4 r = rg m2 r).
      { subst add. rewrite O3. destruct (Z.eqb_spec asz 0) as [Z0|Z0].
        - exists m3. rewrite app_length. cbn [length]. rewrite Nat.add_1_r. split; [constructor|]. split; [reflexivity|]. split.
          + rewrite SP3. subst q. unfold n. rewrite Z0. change ((0 + 15) / 16 * 16) with 0. lia.
          + intros r Hr. subst m3. cbn [setr rg]. destruct (reg_eqb r SP) eqn:ER; [|reflexivity]. exfalso. apply Hr. destruct r; try discriminate ER. reflexivity.
        - eexists. split; [|split; [|split]].
          + rewrite app_length. cbn [length]. replace (length (out st2) + 2)%nat with (S (S (length (out st2)))) by lia.
            eapply steps_at; [|exact (exec_add sym n m3 NR)].
            rewrite <- app_assoc. rewrite nth_error_app2 by lia. replace (S (length (out st2)) - length (out st2))%nat with 1%nat by lia. reflexivity.
          + reflexivity.
          + cbn [setf setr rg]. rewrite reg_eqb_refl. fold m3. rewrite SP3. subst q. rewrite Z.mod_small by lia. lia.
          + intros r Hr. subst m3. cbn [setf setr rg]. destruct (reg_eqb r SP) eqn:ER; [|reflexivity]. exfalso. apply Hr. destruct r; try discriminate ER. reflexivity. }
      destruct M4 as [m4 [ST4 [MM4 [SP4 RG4]]]].
      exists m1', m3, m4. split; [eapply steps_trans; [exact ST0|]; eapply steps_trans; [exact ST1|exact ST1']|].
      split.
      { exists m2. split; [exact ST2|]. split; [|reflexivity]. rewrite SP2. congruence. }
      split; [exact ST4|]. rewrite MM4. split; [rewrite RG4 by discriminate; exact RES2|].
      assert (VB : forall t x b, In (t, x) V -> obj_addr G sym cr x <= b < obj_addr G sym cr x + isize t -> b < L - P1 \/ s + 8 <= b).
      { intros t x b Hx Hb. destruct (VFR t x Hx) as [_ X]. lia. }
      split; [|split; [exact HD2|split]].
      * intros r [->|[->| ->]].
        -- rewrite RG4 by discriminate. rewrite BX2, RGE, BX1 by discriminate. reflexivity.
        -- rewrite RG4 by discriminate. rewrite BP2, RGE, BP1 by discriminate. reflexivity.
        -- exact SP4.
      * intros t x Hx HN. destruct (HD1 t x Hx) as [_ [_ [_ [_ B3]]]]. rewrite <- (OE0V t x Hx) in B3. rewrite <- B3.
        pose proof (isize_pos t) as PT. apply loadn_ext. intros b Hb. rewrite Z2Nat.id in Hb by lia.
        pose proof (VB t x b Hx Hb). rewrite ME3 by (try (apply HN; exact Hb); lia). apply MME. lia.
      * intros b B1 B2 B3 B4. rewrite ME3 by (try exact B4; lia). rewrite MME by lia. apply ME1; [exact B1|].
        intros X. apply B3. exact (of_eq _ _ _ _ _ (fun t x H => eq_sym (OE0 t x H)) _ X).
Qed.
End Call.
