(** Main result about whole functions. *)
From Coq Require Import ZArith List Bool Lia.
From Verif Require Import Base IntSpec IntModel IntMain X86 CgModel CgSpec CgLemmas CgSeq2 CgInv CgTree CgMain
  StmtSpec StmtModel StmtPlace StmtEff StmtProofs StmtMain ArgSpec ArgModel FunSpec FunModel FunProofs.
Import ListNotations.
Local Open Scope Z_scope.

Lemma nodup_split {A} (a b : list A) : NoDup (a ++ b) -> NoDup a /\ forall x, In x a -> ~ In x b.
Proof.
  induction a as [|y a IH]; cbn [app]; intros H; [split; [constructor|intros x []]|].
  inversion H as [|? ? N D]; subst. destruct (IH D) as [H1 H2]. rewrite in_app_iff in N. split.
  - constructor; auto.
  - intros x [<-|Hx]; auto.
Qed.

Section Fun.
Variable G : genv.
Variable sym : nat -> Z.
Variable nul : nat.
Hypothesis CO : forall a b, same (gc G) a b = true -> a = b.
Hypothesis HERE : loc G nul = VHere.
Hypothesis UNK : known (gc G) nul = None.
Variable f : nat.
Variable fn : func.
Variable k : Z.
Hypothesis AL : fn_align fn = 2 ^ k.
Hypothesis K : 0 <= k <= 31.
Hypothesis LP : lptr G = if aligned_frame fn then BX else BP.
Variable others : list (ityp * nat).
Let V := fn_params fn ++ others.
Variable m : mach.
Let s := rg m SP.
Let L := frame_base fn s.
Hypothesis HS : 16 <= s < 2 ^ 64.
Hypothesis HBP : 0 <= rg m BP < 2 ^ 64.
Hypothesis HBX : 0 <= rg m BX < 2 ^ 64.
Let fr := frame_regs fn m.
Hypothesis NSP : forall t x o, In (t, x) V -> loc G x <> VLoc SP o.
Hypothesis SEP : separate G sym fr V.
Hypothesis ADR : forall t x, In (t, x) V -> addressable G sym x.

Lemma frame_le : L <= link_area fn s /\ link_area fn s <= s - 8 /\ (aligned_frame fn = true -> link_area fn s = s - 16).
Proof.
  subst L. unfold frame_base, link_area. destruct (aligned_frame fn).
  - rewrite AL. pose proof (Z.pow_pos_nonneg 2 k ltac:(lia) ltac:(lia)).
    pose proof (Z.mod_pos_bound (s - 16) (2 ^ k) ltac:(lia)). lia.
  - split; [lia|]. split; [lia|discriminate].
Qed.
Lemma frame_range : 0 <= L < 2 ^ 64.
Proof.
  subst L. unfold frame_base. destruct (aligned_frame fn); [|lia].
  rewrite AL. pose proof (Z.pow_pos_nonneg 2 k ltac:(lia) ltac:(lia)).
  pose proof (Z.mod_pos_bound (s - 16) (2 ^ k) ltac:(lia)).
  pose proof (Z.mod_le (s - 16) (2 ^ k) ltac:(lia) ltac:(lia)). lia.
Qed.

(** Addresses of variables depend on %rbp and %rbx only. *)
Lemma obj_same regs : regs BP = fr BP -> regs BX = fr BX ->
  forall t x, In (t, x) V -> obj_addr G sym regs x = obj_addr G sym fr x.
Proof.
  intros A B t x H. pose proof (ADR t x H) as D. unfold obj_addr. unfold addressable in D.
  destruct (loc G x) as [r o| |] eqn:E; auto. destruct D as [->|[->| ->]].
  - rewrite B. reflexivity.
  - rewrite A. reflexivity.
  - exfalso. apply (NSP t x o H). exact E.
Qed.
Lemma sep_ext regs : (forall t x, In (t, x) V -> obj_addr G sym regs x = obj_addr G sym fr x) -> separate G sym regs V.
Proof. intros E t x u y Hx Hy. rewrite (E t x Hx), (E u y Hy). apply SEP; assumption. Qed.
Lemma held_ext regs mem lo hi env : (forall t x, In (t, x) V -> obj_addr G sym regs x = obj_addr G sym fr x) ->
  held G sym regs mem lo hi V env <-> held G sym fr mem lo hi V env.
Proof.
  intros E. unfold held. split; intros H t x Hx; specialize (H t x Hx); cbn [stored] in *; rewrite (E t x Hx) in *; exact H.
Qed.
Lemma of_ext regs a : (forall t x, In (t, x) V -> obj_addr G sym regs x = obj_addr G sym fr x) ->
  of_variable G sym regs V a -> of_variable G sym fr V a.
Proof. intros E [t [x [H [B C]]]]. exists t, x. rewrite (E t x H) in C. auto. Qed.

Lemma pro_labels : labels (prologue fn) = [].
Proof. unfold prologue, push_reg. destruct (16 <? fn_align fn); reflexivity. Qed.
Lemma epi_labels : labels (epilogue fn) = [].
Proof. unfold epilogue, leave. destruct (16 <? fn_align fn); reflexivity. Qed.

Variable id c0 : Z.
Hypothesis I0 : 0 <= id.
Hypothesis C0 : 0 <= c0.
Variable code : list instr.
Variable P : Z.
Hypothesis EM : emit_text G nul f fn id c0 = Ok (code, P).
Hypothesis LV : 0 <= lvar_sz G.
Hypothesis ROOM : (P + 15) / 16 * 16 <= L.

(** Shape of the code. *)
Record shape (ls : lstmt) (id' : Z) (sv : list instr) (st1 : gst) (i : instr) (body : list instr) : Prop := mkshape {
  sh_parse : parse_stmt (gc G) (fn_ret fn) None id (fn_body fn) = Ok (ls, id');
  sh_save : save_params G 0 (fn_params fn) (calling_conv 0 0 (length (fn_params fn))) = Ok sv;
  sh_gen : gen_stmt G nul f c0 ls (mkgst (prologue fn ++ Nop :: sv) [] (lvar_sz G) (c0 + 1)) = Ok st1;
  sh_peak : peak st1 = P;
  sh_n : (P + 15) / 16 * 16 < 2 ^ 31;
  sh_out : out st1 = (prologue fn ++ Nop :: sv) ++ body;
  sh_code : code = (prologue fn ++ i :: sv) ++ body ++ (if fn_main fn then [Alu AXor None (R S4 AX) (R S4 AX)] else []) ++ [Lab (LRtn, c0)] ++ epilogue fn;
  sh_i : (P = 0 /\ i = Nop) \/ (P <> 0 /\ i = Alu ASub None (X86.I ((P + 15) / 16 * 16)) (R S8 SP));
  sh_lab : lspec body (rng (c0 + 1) (cnt st1) id id');
  sh_cnt : c0 + 1 <= cnt st1; sh_id : id <= id'; sh_lv : lvar_sz G <= P }.

Lemma emit_shape : uses_stmt V (fun x => known (gc G) x = None) (fn_body fn) ->
  exists ls id' sv st1 i body, shape ls id' sv st1 i body.
Proof.
  intros U. unfold emit_text in EM. revert EM.
  destruct (parse_stmt (gc G) (fn_ret fn) None id (fn_body fn)) as [[ls id']| |] eqn:PS; cbn [bind]; try discriminate.
  destruct (save_params G 0 (fn_params fn) (calling_conv 0 0 (length (fn_params fn)))) as [sv| |] eqn:SV; cbn [bind]; try discriminate.
  cbn [fst]. destruct (gen_stmt G nul f c0 ls (mkgst (prologue fn ++ Nop :: sv) [] (lvar_sz G) (c0 + 1))) as [st1| |] eqn:GS; cbn [bind]; try discriminate.
  destruct (Z.leb_spec (2 ^ 31) ((peak st1 + 15) / 16 * 16)) as [|N]; [discriminate|]. intros E.
  assert (SVD : saved (lptr G)) by (rewrite LP; destruct (aligned_frame fn); unfold saved; auto).
  assert (NUL : forall t, ~ In (t, nul) V).
  { intros t Ht. pose proof (ADR t nul Ht) as D. unfold addressable in D. rewrite HERE in D. exact D. }
  set (st := mkgst (prologue fn ++ Nop :: sv) [] (lvar_sz G) (c0 + 1)) in *.
  assert (DIS : forall t x u y, In (t, x) V -> In (u, y) V -> (t = u /\ x = y) \/
    (x <> y /\ (CgInv.vaddr G sym fr x + sz (mty t) <= CgInv.vaddr G sym fr y \/
                CgInv.vaddr G sym fr y + sz (mty u) <= CgInv.vaddr G sym fr x))).
  { intros t x u y Hx Hy. rewrite <- !isize_sz. exact (SEP t x u y Hx Hy). }
  assert (F : frame_ok G fr 0).
  { split; [exact SVD|]. unfold lpv. rewrite LP. pose proof frame_range as FRG. subst fr. unfold frame_regs. fold s. fold L.
    destruct (aligned_frame fn); lia. }
  destruct (stmt_ext G sym fr 0 V (fun _ => 0) nul F CO HERE UNK NUL DIS f c0 (fn_ret fn) (fn_body fn) U None id ls id' st st1 PS GS
    ltac:(subst st; cbn [cnt]; lia) I0) as [body [A1 A2 A3 A4 A5]].
  subst st. cbn [out cnt peak] in *.
  assert (EP : peak st1 = P) by congruence.
  exists ls, id', sv, st1, (if P =? 0 then Nop else Alu ASub None (X86.I ((P + 15) / 16 * 16)) (R S8 SP)), body.
  rewrite EP in *. constructor; auto.
  - assert (EC : code = out (if P =? 0 then st1 else insrtln st1 (length (prologue fn)) (Alu ASub None (X86.I ((P + 15) / 16 * 16)) (R S8 SP))) ++
      (if fn_main fn then [Alu AXor None (R S4 AX) (R S4 AX)] else []) ++ [Lab (LRtn, c0)] ++ epilogue fn) by congruence.
    rewrite EC. rewrite (app_assoc _ body). f_equal. destruct (P =? 0); [exact A1|].
    unfold insrtln. cbn [out]. rewrite A1, <- app_assoc. cbn [app]. rewrite upd_mid. rewrite <- app_assoc. reflexivity.
  - destruct (Z.eqb_spec P 0); auto.
Qed.

(** The state after the prologue. *)
Lemma enter_ok ls id' sv st1 i body : shape ls id' sv st1 i body ->
  exists m1, run sym (prologue fn ++ [i]) None m = Some (None, m1) /\ rg m1 SP = L - (P + 15) / 16 * 16 /\
    rg m1 BP = fr BP /\ rg m1 BX = fr BX /\ rg m1 (lptr G) = L /\
    (forall r, r <> SP -> r <> BP -> r <> BX -> rg m1 r = rg m r) /\
    (forall a, a < link_area fn s \/ s <= a -> mm m1 a = mm m a) /\
    loadn 8 (s - 8) (mm m1) = rg m BP /\
    (aligned_frame fn = true -> loadn 8 (s - 16) (mm m1) = rg m BX).
Proof.
  intros SH. destruct (prologue_ok sym fn k m AL K HS HBP HBX) as [ma [R [E1 E2 E3 E4 E5 E6 E7]]].
  fold s in E1, E2, E3, E5, E6, E7. fold L in E1, E3. pose proof frame_range as FR.
  assert (LPV : rg ma (lptr G) = L).
  { rewrite LP. subst L. unfold frame_base in *. destruct (aligned_frame fn); [exact E3|exact E2]. }
  assert (NL : lptr G <> SP) by (rewrite LP; destruct (aligned_frame fn); discriminate).
  destruct (sh_i _ _ _ _ _ _ SH) as [[EP ->]|[EP ->]].
  - exists ma. rewrite run_app, R. cbn [run exec1]. rewrite EP. change ((0 + 15) / 16 * 16) with 0. rewrite Z.sub_0_r.
    repeat (split; [first [reflexivity|eassumption]|]). exact E7.
  - set (n := (P + 15) / 16 * 16) in *.
    assert (NN : 0 <= n < 2 ^ 31).
    { split; [|apply (sh_n _ _ _ _ _ _ SH)]. subst n. pose proof (sh_lv _ _ _ _ _ _ SH).
      pose proof (Z.div_pos (P + 15) 16 ltac:(lia) ltac:(lia)). lia. }
    exists (setf (setr ma SP ((rg ma SP - n) mod 2 ^ 64)) None). rewrite run_app, R.
    rewrite (run_cons _ _ _ _ _ (exec_sub sym n ma NN)). cbn [run setf setr rg mm].
    assert (NE : forall r, r <> SP -> reg_eqb r SP = false) by (intros r Hr; destruct r; auto; congruence).
    rewrite reg_eqb_refl, E1. rewrite (Z.mod_small (L - n)) by lia. rewrite (NE (lptr G) NL). cbn [reg_eqb].
    repeat (split; [first [reflexivity|eassumption]|]). split; [|auto].
    intros r A B C. rewrite (NE r A). auto.
Qed.


Lemma save_labels l stk : forall gp c, save_params G gp l stk = Ok c -> labels c = [].
Proof.
  revert stk. induction l as [|[t x] l IH]; intros [|[z|] stk] gp c H; cbn [save_params] in H; try (injection H as <-; reflexivity); eauto.
  destruct (loc G x) as [b o| |]; try discriminate H. destruct (argreg gp) as [r| |]; cbn [bind] in H; try discriminate H.
  unfold store_gp in H. destruct (size_of _) as [z| |]; cbn [bind] in H; try discriminate H.
  destruct (save_params G (Datatypes.S gp) l stk) as [c'| |] eqn:E; cbn [bind] in H; try discriminate H.
  injection H as <-. exact (IH _ _ _ E).
Qed.

Lemma pre_labels ls id' sv st1 i body j : shape ls id' sv st1 i body -> labels [j] = [] -> labels (prologue fn ++ j :: sv) = [].
Proof.
  intros SH J. change (j :: sv) with ([j] ++ sv). rewrite !labels_app, pro_labels, J.
  rewrite (save_labels _ _ _ _ (sh_save _ _ _ _ _ _ SH)). reflexivity.
Qed.
Lemma i_labels ls id' sv st1 i body : shape ls id' sv st1 i body -> labels [i] = [].
Proof. intros SH. destruct (sh_i _ _ _ _ _ _ SH) as [[_ ->]|[_ ->]]; reflexivity. Qed.

Let tail := (if fn_main fn then [Alu AXor None (R S4 AX) (R S4 AX)] else []) ++ [Lab (LRtn, c0)] ++ epilogue fn.
Lemma tail_labels : labels tail = [(LRtn, c0)].
Proof. subst tail. rewrite !labels_app, epi_labels. destruct (fn_main fn); reflexivity. Qed.

Lemma body_rtn ls id' sv st1 i body : shape ls id' sv st1 i body -> ~ In (LRtn, c0) (labels body).
Proof.
  intros SH H. destruct (sh_lab _ _ _ _ _ _ SH) as [_ B]. apply B in H. unfold rng in H. cbn [snd] in H. lia.
Qed.
Lemma code_nodup ls id' sv st1 i body j : shape ls id' sv st1 i body -> labels [j] = [] ->
  NoDup (labels ((prologue fn ++ j :: sv) ++ body ++ tail)).
Proof.
  intros SH J. rewrite labels_app, (pre_labels _ _ _ _ _ _ _ SH J), labels_app, tail_labels. cbn [app].
  apply nodup_app; [apply (sh_lab _ _ _ _ _ _ SH)| |].
  - constructor; [intros []|constructor].
  - intros l H [<-|[]]. exact (body_rtn _ _ _ _ _ _ SH H).
Qed.

Theorem fun_stack : uses_stmt V (fun x => known (gc G) x = None) (fn_body fn) ->
  exists m1, steps sym code (0%nat, m) (Datatypes.S (length (prologue fn)), m1) /\
    rg m1 SP <= L - P /\ ((s + 8) mod 16 = 0 -> rg m1 SP mod 16 = 0).
Proof.
  intros U. destruct (emit_shape U) as [ls [id' [sv [st1 [i [body SH]]]]]].
  destruct (enter_ok _ _ _ _ _ _ SH) as [m1 [R [SP1 _]]]. exists m1.
  pose proof (code_nodup _ _ _ _ _ _ i SH (i_labels _ _ _ _ _ _ SH)) as ND.
  split; [|split].
  - rewrite (sh_code _ _ _ _ _ _ SH). fold tail.
    replace (prologue fn ++ i :: sv) with ((prologue fn ++ [i]) ++ sv) in * by (rewrite <- app_assoc; reflexivity).
    rewrite <- app_assoc in *.
    pose proof (run_steps sym (prologue fn ++ [i]) [] (sv ++ body ++ tail) None m m1 ND R) as X. cbn [app] in X.
    cbn [length] in X. rewrite (app_length (prologue fn)) in X. cbn [length] in X. rewrite Nat.add_1_r in X. exact X.
  - rewrite SP1. pose proof (Z.div_mod (P + 15) 16 ltac:(lia)). pose proof (Z.mod_pos_bound (P + 15) 16 ltac:(lia)). lia.
  - intros A. rewrite SP1. rewrite Zminus_mod, Z_mod_mult, Z.sub_0_r, Z.mod_mod by lia.
    subst L. unfold frame_base, aligned_frame. destruct (Z.ltb_spec 16 (fn_align fn)) as [H|H].
    + rewrite AL in *. assert (4 < k). { apply (Z.pow_lt_mono_r_iff 2); [lia|lia|]. exact H. }
      replace ((s - 16) - (s - 16) mod 2 ^ k) with ((s - 16) / 2 ^ k * 2 ^ (k - 4) * 16).
      * apply Z_mod_mult.
      * change 16 with (2 ^ 4) at 2. rewrite <- Z.mul_assoc, <- Z.pow_add_r by lia. replace (k - 4 + 4) with k by lia.
        pose proof (Z.div_mod (s - 16) (2 ^ k) ltac:(apply Z.pow_nonzero; lia)). lia.
    + replace (s - 8) with (s + 8 + (-1) * 16) by lia. rewrite Z_mod_plus_full. exact A.
Qed.

Variable env : nat -> Z.
Hypothesis U : uses_stmt V (fun x => known (gc G) x = None) (fn_body fn).
Hypothesis NDV : NoDup (map snd V).
Hypothesis PAR : forall i t x, nth_error (fn_params fn) i = Some (t, x) ->
  known (gc G) x = None /\ in_range t (env x) /\ passed m i t (env x) /\
  match arg_place false i with InReg _ => True | OnStack o => loc G x = VLoc BP (16 + o) /\ rg m SP + 8 + o < 2 ^ 64 end.
Hypothesis PARC : forall t x, In (t, x) (fn_params fn) -> clear (obj_addr G sym fr x) (isize t) (L - P) (L - lvar_sz G).
Hypothesis OTH : held G sym fr (mm m) (L - P) (L - lvar_sz G) others env.
Hypothesis LNK : forall t x, In (t, x) V -> clear (obj_addr G sym fr x) (isize t) (link_area fn s) (s + 8).

Theorem fun_code env' o : exec (fn_ret fn) env (fn_body fn) env' o ->
  exists m', steps sym code (0%nat, m) (length code, m') /\
    result fn o (rg m' AX) /\ rg m' SP = s /\ rg m' BP = rg m BP /\ rg m' BX = rg m BX /\
    loadn 8 s (mm m') = loadn 8 s (mm m) /\
    held G sym fr (mm m') (L - P) (L - lvar_sz G) V env' /\
    (forall b, b < L - P \/ s <= b -> ~ of_variable G sym fr V b -> mm m' b = mm m b).
Proof.
  intros EX. destruct (emit_shape U) as [ls [id' [sv [st1 [i [body SH]]]]]].
  destruct (enter_ok _ _ _ _ _ _ SH) as [m1 [R [SP1 [BP1 [BX1 [LP1 [O1 [M1 [LB1 LX1]]]]]]]]].
  assert (NDP : NoDup (map snd (fn_params fn)) /\ forall t u x, In (t, x) (fn_params fn) -> ~ In (u, x) others).
  { subst V. rewrite map_app in NDV. apply nodup_split in NDV. destruct NDV as [A B]. split; [exact A|].
    intros t u x H1 H2. apply (B x); [apply (in_map snd) in H1; exact H1|apply (in_map snd) in H2; exact H2]. }
  destruct NDP as [NDP DPO].
  pose proof frame_range as FRR. pose proof frame_le as [FL1 [FL2 FL3]].
  assert (OS : forall regs, regs BP = rg m1 BP -> regs BX = rg m1 BX -> forall t x, In (t, x) V -> obj_addr G sym regs x = obj_addr G sym fr x).
  { intros regs A B. apply obj_same; congruence. }
  pose proof (OS (rg m1) eq_refl eq_refl) as OS1.
  destruct (save_ok G sym V (fn_params fn) 0 0 sv m1 (sh_save _ _ _ _ _ _ SH) (sep_ext _ OS1)
    ltac:(intros y Hy; apply in_app_iff; left; exact Hy) NDP) as [SL [m2 [R2 [RG2 [ME2 LD2]]]]].
  assert (PE : forall t x, In (t, x) (fn_params fn) -> In (t, x) V) by (intros t x H; apply in_app_iff; left; exact H).
  assert (OE : forall t x, In (t, x) others -> In (t, x) V) by (intros t x H; apply in_app_iff; right; exact H).
  (* memory after the parameter stores *)
  assert (KEEP : forall b, (forall t x, In (t, x) (fn_params fn) -> ~ obj_addr G sym fr x <= b < obj_addr G sym fr x + isize t) -> mm m2 b = mm m1 b).
  { intros b Hb. apply ME2. intros t x H. rewrite (OS1 t x (PE t x H)). apply Hb. exact H. }
  assert (HD : held G sym fr (mm m2) (L - P) (L - lvar_sz G) V env).
  { intros t x Hx. assert (Hx' := Hx). subst V. apply in_app_iff in Hx'. destruct Hx' as [Hp|Ho].
    - destruct (In_nth_error _ _ Hp) as [j Hj]. destruct (PAR j t x Hj) as [KN [IR [PA LO]]].
      split; [exact IR|]. split; [cbn [known_ok]; rewrite KN; intros raw E; discriminate E|]. cbn [stored].
      split; [exact (ADR t x Hx)|]. split; [exact (PARC t x Hp)|].
      specialize (LD2 j t x Hj). rewrite (OS1 t x Hx) in LD2. cbn [Nat.add] in LD2. rewrite LD2. clear LD2.
      unfold passed, arg_place in PA, LO. cbn [Nat.add] in PA, LO. pose proof (isize_pos t) as PT.
      destruct (nth_error abi_regs j) as [r|] eqn:AR.
      + assert (RN : r <> SP /\ r <> BP /\ r <> BX).
        { apply nth_error_In in AR. cbn in AR. repeat match type of AR with _ \/ _ => destruct AR as [<-|AR]; [repeat split; discriminate|] end. destruct AR. }
        rewrite O1 by tauto. exact PA.
      + destruct LO as [LO LT]. assert (GE : (6 <= j)%nat) by (apply nth_error_None in AR; exact AR).
        rewrite <- PA. fold s in LT |- *.
        assert (OA : obj_addr G sym fr x = s + 8 + 8 * (Z.of_nat j - 6)).
        { unfold obj_addr. rewrite LO. unfold fr, frame_regs. fold s. rewrite Z.mod_small by lia. lia. }
        rewrite OA. apply loadn_ext. intros b Hb. apply M1. lia.
    - destruct (OTH t x Ho) as [IR [KN ST]]. split; [exact IR|]. split; [exact KN|]. cbn [stored] in *.
      destruct ST as [S1 [S2 S3]]. split; [exact S1|]. split; [exact S2|]. rewrite <- S3.
      apply loadn_ext. intros b Hb. pose proof (isize_pos t). destruct (LNK t x Hx) as [_ LK].
      rewrite KEEP.
      + apply M1. lia.
      + intros u y Hy Hc. destruct (SEP t x u y Hx ltac:(apply in_app_iff; left; exact Hy)) as [[_ E]|[_ E]]; [|lia].
        subst y. exact (DPO u t x Hy Ho). }
  assert (LKV : forall b, link_area fn s <= b < s + 8 -> ~ of_variable G sym fr V b).
  { intros b Hb [t [x [Hx [_ Hc]]]]. destruct (LNK t x Hx) as [_ LK]. pose proof (isize_pos t). lia. }
  assert (LK2 : forall b, link_area fn s <= b < s + 8 -> mm m2 b = mm m1 b).
  { intros b Hb. apply KEEP. intros t x Hx Hc. destruct (LNK t x (PE t x Hx)) as [_ LK]. lia. }
  assert (RG : rg m2 = rg m1) by exact RG2.
  assert (LPV : rg m2 (lptr G) = L) by (rewrite RG; exact LP1).
  assert (OS2 : forall t x, In (t, x) V -> obj_addr G sym (rg m2) x = obj_addr G sym fr x) by (rewrite RG; exact OS1).
  set (st := mkgst (prologue fn ++ Nop :: sv) [] (lvar_sz G) (c0 + 1)) in *.
  pose proof (sh_out _ _ _ _ _ _ SH) as SO. pose proof (sh_peak _ _ _ _ _ _ SH) as SPK. pose proof (sh_lv _ _ _ _ _ _ SH) as SLV.
  pose proof (sh_cnt _ _ _ _ _ _ SH) as SCN. pose proof (sh_id _ _ _ _ _ _ SH) as SID.
  assert (P16 : P <= (P + 15) / 16 * 16).
  { pose proof (Z.div_mod (P + 15) 16 ltac:(lia)). pose proof (Z.mod_pos_bound (P + 15) 16 ltac:(lia)). lia. }
  assert (SVD : saved (lptr G)) by (rewrite LP; destruct (aligned_frame fn); unfold saved; auto).
  assert (PL : forall j, labels [j] = [] -> labels (prologue fn ++ j :: sv) = []).
  { intros j. apply (pre_labels _ _ _ _ _ _ _ SH). }
  pose proof (i_labels _ _ _ _ _ _ SH) as IL.
  set (xc := if fn_main fn then [Alu AXor None (X86.R S4 AX) (X86.R S4 AX)] else []) in *.
  assert (XL : labels xc = []) by (subst xc; destruct (fn_main fn); reflexivity).
  assert (FL : find_label (LRtn, c0) (out st1 ++ tail) = Some (length (out st1) + length xc)%nat).
  { rewrite find_label_app, find_label_notin.
    - subst tail. fold xc. rewrite find_label_app, find_label_notin by (rewrite XL; intros []).
      cbn [app find_label]. rewrite label_eqb_refl. rewrite Nat.add_0_r. reflexivity.
    - rewrite SO, labels_app, (PL Nop eq_refl). exact (body_rtn _ _ _ _ _ _ SH). }
  assert (LA : labels_around (out st ++ tail) (cnt st) (cnt st1) id id').
  { subst st. cbn [out cnt]. unfold labels_around. rewrite labels_app, (PL Nop eq_refl), tail_labels. cbn [app]. split.
    - constructor; [intros []|constructor].
    - intros l [<-|[]]. cbn [snd]. lia. }
  destruct (stmt_code G sym V nul CO SVD HERE UNK f c0 (fn_ret fn) (fn_body fn) ls id id' st st1 env m2 tail _
    ltac:(subst st; cbn [peak]; lia) ltac:(rewrite LPV; lia) ltac:(rewrite LPV, SPK; lia) ltac:(subst st; cbn [cnt]; lia) I0 U
    (sep_ext _ OS2) ltac:(rewrite LPV, SPK; apply (held_ext _ _ _ _ _ OS2); exact HD)
    (sh_parse _ _ _ _ _ _ SH) (sh_gen _ _ _ _ _ _ SH) LA FL env' o EX) as [k' [m3 [CT [ST [HD3 [RT [SV3 ME3]]]]]]].
  rewrite LPV, SPK in HD3, ME3. apply (held_ext _ _ _ _ _ OS2) in HD3.
  assert (ME4 : forall b, b < L - P \/ L - lvar_sz G <= b -> ~ of_variable G sym fr V b -> mm m3 b = mm m2 b).
  { intros b A B. apply ME3; [exact A|]. intros C. apply B. exact (of_ext _ _ OS2 C). }
  assert (BP3 : rg m3 BP = s - 8) by (rewrite SV3 by (unfold saved; auto); rewrite RG, BP1; reflexivity).
  assert (BX3 : rg m3 BX = fr BX) by (rewrite SV3 by (unfold saved; auto); rewrite RG, BX1; reflexivity).
  assert (LK3 : forall b, link_area fn s <= b < s + 8 -> mm m3 b = mm m1 b).
  { intros b Hb. rewrite ME4 by (try apply LKV; lia). apply LK2. exact Hb. }
  assert (FIN : exists m4, run sym (match o with Normal => xc | _ => [] end) None m3 = Some (None, m4) /\ mm m4 = mm m3 /\
    result fn o (rg m4 AX) /\ rg m4 BP = rg m3 BP /\ rg m4 BX = rg m3 BX).
  { destruct o as [| | |v].
    - subst xc. destruct (fn_main fn) eqn:MA.
      + eexists. rewrite (run_cons _ _ _ _ _ (exec_xor _ _)). cbn [run]. split; [reflexivity|]. cbn [result setf setr rg mm reg_eqb]. auto.
      + exists m3. cbn [run result]. repeat split; auto. congruence.
    - discriminate CT.
    - discriminate CT.
    - exists m3. cbn [run]. split; [reflexivity|]. split; [reflexivity|]. split; [exact RT|]. auto. }
  destruct FIN as [m4 [R4 [MM4 [RES4 [BP4 BX4]]]]].
  destruct (epilogue_ok sym fn s (rg m BP) (rg m BX) m4 HS ltac:(congruence)) as [m5 [R5 [MM5 [AX5 [SP5 [BP5 BX5]]]]]].
  { rewrite <- LB1. rewrite MM4. apply loadn_ext. intros b Hb. apply LK3. lia. }
  { destruct (aligned_frame fn) eqn:AF.
    - rewrite <- (LX1 eq_refl). rewrite MM4. apply loadn_ext. intros b Hb. apply LK3. rewrite (FL3 eq_refl). lia.
    - rewrite BX4, BX3. unfold fr, frame_regs. rewrite AF. reflexivity. }
  exists m5. rewrite MM5, AX5, MM4.
  assert (CD : code = (prologue fn ++ i :: sv) ++ body ++ tail) by (rewrite (sh_code _ _ _ _ _ _ SH); reflexivity).
  pose proof (code_nodup _ _ _ _ _ _ i SH IL) as ND. rewrite <- CD in ND.
  assert (LEN : length (out st1) = length ((prologue fn ++ i :: sv) ++ body)).
  { rewrite SO, !app_length. reflexivity. }
  split; [|split; [exact RES4|split; [exact SP5|split; [exact BP5|split; [exact BX5|split; [|split; [exact HD3|]]]]]]].
  - eapply steps_trans; [|eapply steps_trans].
    + assert (R12 : run sym (prologue fn ++ i :: sv) None m = Some (None, m2)).
      { change (i :: sv) with ([i] ++ sv). rewrite app_assoc, run_app, R. exact R2. }
      pose proof (run_steps sym (prologue fn ++ i :: sv) [] (body ++ tail) None m m2) as X. cbn [app length] in X.
      rewrite CD. apply X; [|exact R12]. rewrite <- CD. exact ND.
    + rewrite CD. rewrite SO in ST. rewrite <- app_assoc in ST.
      apply (steps_prefix sym (prologue fn ++ Nop :: sv) (prologue fn ++ i :: sv) (body ++ tail)
        (PL Nop eq_refl) (PL i IL) ltac:(rewrite !app_length; reflexivity)) in ST.
      * subst st. cbn [out] in ST. replace (length (prologue fn ++ i :: sv)) with (length (prologue fn ++ Nop :: sv)) by (rewrite !app_length; reflexivity).
        exact ST.
      * cbn [fst]. subst st. cbn [out]. lia.
    + assert (CE : code = ((prologue fn ++ i :: sv) ++ body) ++ xc ++ [Lab (LRtn, c0)] ++ epilogue fn) by (rewrite CD; apply app_assoc).
      assert (RF : run sym ([Lab (LRtn, c0)] ++ epilogue fn) None m4 = Some (None, m5)) by exact R5.
      destruct o as [| | |v]; try discriminate CT; cbn [continues] in CT; injection CT as <-.
      * pose proof (run_steps sym (xc ++ [Lab (LRtn, c0)] ++ epilogue fn) ((prologue fn ++ i :: sv) ++ body) [] None m3 m5) as X.
        rewrite app_nil_r, <- CE in X. rewrite LEN. apply X; [exact ND|]. rewrite run_app, R4. exact RF.
      * cbn [run] in R4. assert (E4 : m4 = m3) by congruence.
        pose proof (run_steps sym ([Lab (LRtn, c0)] ++ epilogue fn) (((prologue fn ++ i :: sv) ++ body) ++ xc) [] None m4 m5) as X.
        assert (CE2 : code = (((prologue fn ++ i :: sv) ++ body) ++ xc) ++ [Lab (LRtn, c0)] ++ epilogue fn) by (rewrite CE; apply app_assoc).
        rewrite app_nil_r, <- CE2 in X. rewrite LEN, <- app_length, <- E4. apply X; [exact ND|exact RF].
  - apply loadn_ext. intros b Hb. rewrite LK3 by lia. apply M1. lia.
  - intros b Hb NV. rewrite ME4 by (try exact NV; lia). rewrite KEEP; [apply M1; lia|].
    intros t x Hx Hc. apply NV. exists t, x. split; [exact (PE t x Hx)|]. split; [|exact Hc].
    destruct (In_nth_error _ _ Hx) as [j Hj]. apply (PAR j t x Hj).
Qed.
End Fun.
