(** Temporaries across calls. *)
From Coq Require Import ZArith List Bool Lia.
From Verif Require Import Base IntSpec IntModel IntElab X86 CgModel CgSpec CgInv CgGen StmtModel ArgSpec ArgModel FcallModel.
Import ListNotations.
Local Open Scope Z_scope.

Definition like (s s' : slot) : Prop := s_kind s' = s_kind s /\ s_loc s' = s_loc s.
Definition likes : list slot -> list slot -> Prop := Forall2 like.
Lemma likes_refl : forall l, likes l l.
Proof. induction l; constructor; [split; reflexivity|assumption]. Qed.
Lemma likes_trans : forall a b c, likes a b -> likes b c -> likes a c.
Proof.
  intros a b c H. revert c. induction H as [|x y a b [X1 X2] H IH]; intros c K; inversion K as [|? ? ? ? [Y1 Y2] K']; subst; constructor; [split; congruence|apply IH; assumption].
Qed.
Lemma likes_bumpm : forall g s l, likes l (bumpm g s l).
Proof. intros g s [|x l]; constructor; [split; reflexivity|apply likes_refl]. Qed.
Lemma likes_bump : forall k g s l, likes l (bump k g s l).
Proof. intros k g s [|x l]; constructor; [split; reflexivity|apply likes_refl]. Qed.

Section Tmp.
Variable G : genv.
Variable f : nat.
Hypothesis CO : cfg_ok (gc G).
Hypothesis FS : saved (lptr G).
Hypothesis LV : 0 <= lvar_sz G.

Lemma gen_likes : forall n st st', gen G f MExpr n st = Ok st' -> likes (slots st) (slots st').
Proof.
  intros n0 s0 s1 H. set (bs := fun _ : reg => 0).
  assert (F0 : frame_ok G bs (- 1)) by (unfold frame_ok, lpv, bs; repeat split; try lia; exact FS).
  destruct (gen_ok G (fun _ => 0) (fun _ => 0) bs (-1) (fun _ => 0) F0 CO f MExpr n0 s0 s1 H) as [c [g [s [X _]]]].
  rewrite (ex_sl _ _ _ _ _ _ X). apply likes_bumpm.
Qed.
Lemma pop_likes : forall src r64 d must st r st', pop_from G src r64 d must st = Ok (r, st') ->
  exists x l, slots st = x :: l /\ likes l (slots st').
Proof.
  intros src r64 d must st r st' H. unfold pop_from, pop_tmpstack in H. destruct (slots st) as [|x l]; [discriminate|]. exists x, l. split; [reflexivity|].
  destruct (s_kind x); [destruct (GP_SLOTS <=? s_gp x)%nat|]; try destruct (reuse G); cbn [bind s_kind s_loc s_gp] in H; try destruct must; injection H as _ <-; apply likes_bump.
Qed.

Lemma pushed : forall n st0 st1 src r64 d must r st', gen G f MExpr n (push st0) = Ok st1 -> pop_from G src r64 d must st1 = Ok (r, st') -> likes (slots st0) (slots st').
Proof.
  intros n st0 st1 src r64 d must r st' H P. apply gen_likes in H. apply pop_likes in P. destruct P as [x [l [E K]]].
  rewrite E in H. cbn [push slots] in H. inversion H; subst. eapply likes_trans; eassumption.
Qed.
Ltac ob1 H := match type of H with bind ?e _ = Ok _ => let Q := fresh "Q" in destruct e as [?| |] eqn:Q; cbn [bind] in H; try discriminate H end.
Lemma memop_likes : forall mk t x rhs st st', memop_arith G f mk t x rhs st = Ok st' -> likes (slots st) (slots st').
Proof.
  intros mk t x rhs st st' H. unfold memop_arith in H. ob1 H. ob1 H. match type of H with match ?k with _ => _ end = _ => destruct k end.
  - destruct (var_memop G x 0) as [[b o]|]; injection H as <-; apply likes_refl.
  - destruct (var_memop G x 0) as [[b o]|]; ob1 H.
    + injection H as <-. cbn [emit slots]. eapply gen_likes; eassumption.
    + ob1 H. injection H as <-. match goal with p : (reg * gst)%type |- _ => destruct p end. unfold pop_gp in Q2. pose proof (pushed _ _ _ _ _ _ _ _ _ Q1 Q2) as X. exact X.
Qed.
Lemma assign_likes : forall t x rhs st st', gen_void_assign G f t x rhs st = Ok st' -> likes (slots st) (slots st').
Proof.
  intros t x rhs st st' H. unfold gen_void_assign in H. ob1 H. match type of H with match ?k with _ => _ end = _ => destruct k end; [eapply memop_likes; eassumption|].
  destruct (copy_source G t rhs) as [[sb so]|].
  { destruct (var_memop G x 0) as [[b o]|]; ob1 H; injection H as <-; apply likes_refl. }
  assert (PL : (do st1 <- gen G f MExpr rhs (push (emit (gen_addr G x) st)); store G t st1) = Ok st' -> likes (slots st) (slots st')).
  { clear H. intros H. ob1 H. unfold store in H. ob1 H. ob1 H. injection H as <-. match goal with p : (reg * gst)%type |- _ => destruct p end.
    match goal with P : pop_gp _ _ _ _ _ = _, K : gen _ _ _ _ _ = _ |- _ => unfold pop_gp in P; pose proof (pushed _ _ _ _ _ _ _ _ _ K P) as X; exact X end. }
  unfold gen_assign in H. destruct (opt (gc G)); [|exact (PL H)]. destruct (var_memop G x 0) as [[b o]|]; [|exact (PL H)].
  ob1 H. ob1 H. injection H as <-. cbn [emit slots]. eapply gen_likes; eassumption.
Qed.
Lemma spill_likes : forall l st st', spill_args G f l st = Ok st' -> likes (slots st) (slots st').
Proof.
  induction l as [|a l IH]; intros st st' H; cbn [spill_args] in H; [injection H as <-; apply likes_refl|].
  destruct (m_ptr a); [|exact (IH _ _ H)]. ob1 H. ob1 H. eapply likes_trans; [eapply assign_likes; eassumption|exact (IH _ _ H)].
Qed.
Lemma slot_likes : forall a r st st', load_slot G a r st = Ok st' -> likes (slots st) (slots st').
Proof. intros a r st st' H. unfold load_slot in H. destruct (loc G (m_x a)); try discriminate H. ob1 H. injection H as <-. apply likes_refl. Qed.
Lemma load_likes : forall first a r st st', load_arg G f first a r st = Ok st' -> likes (slots st) (slots st').
Proof.
  intros first a r st st' H. unfold load_arg in H. destruct (opt (gc G)); [|eapply slot_likes; eassumption]. cbv zeta in H. ob1 H.
  match type of H with match ?k with _ => _ end = _ => destruct k end; [injection H as <-; apply likes_refl|]. ob1 H.
  match type of H with match ?k with _ => _ end = _ => destruct k end; [injection H as <-; apply likes_refl|].
  destruct (is_memop G (m_n a)) as [[b o]|]; [ob1 H; injection H as <-; apply likes_refl|].
  destruct first; [|eapply slot_likes; eassumption]. ob1 H. injection H as <-. cbn [emit slots]. eapply gen_likes; eassumption.
Qed.
Lemma loads_likes : forall l gp first st st', load_args G f gp first l st = Ok st' -> likes (slots st) (slots st').
Proof.
  induction l as [|a l IH]; intros gp first st st' H; cbn [load_args] in H; [injection H as <-; apply likes_refl|].
  destruct (m_stk a); [exact (IH _ _ _ _ H)|]. ob1 H. ob1 H. eapply likes_trans; [eapply load_likes; eassumption|exact (IH _ _ _ _ H)].
Qed.

Lemma clobbered : forall l l', likes l l' -> Forall2 (fun s s' => s_kind s' = SL_ST /\ s_loc s' = s_loc s) l (map (fun s => mkslot SL_ST (s_gp s) (s_st s) (s_loc s)) l').
Proof. induction 1 as [|x y l l' [X1 X2] H IH]; constructor; [split; [reflexivity|exact X2]|exact IH]. Qed.

Theorem call_slots : forall variadic l st ms st2 st', gen_funcall G f variadic l st = Ok (ms, st2, st') ->
  Forall2 (fun s s' => s_kind s' = SL_ST /\ s_loc s' = s_loc s) (slots st) (slots st').
Proof.
  intros variadic l st ms st2 st' H. unfold gen_funcall in H. ob1 H. cbv zeta in H. destruct (2 ^ 31 <=? _); [discriminate|]. ob1 H.
  rename a0 into st1. injection H as <- <- <-.
  assert (K : likes (slots st) (slots st1)).
  { unfold gen_funcall_args in Q0. ob1 Q0. apply spill_likes in Q1. apply loads_likes in Q0. eapply likes_trans; [|exact Q0].
    destruct (arg_stk_size (length l) =? 0); exact Q1. }
  destruct (arg_stk_size (length l) =? 0), variadic; cbn [clobber_all_regs emit slots]; apply clobbered; exact K.
Qed.

Lemma forall2_len : forall (A B : Type) (Q : A -> B -> Prop) l l', Forall2 Q l l' -> length l' = length l.
Proof. induction 1 as [|x y l l' H0 H IH]; [reflexivity|]. cbn [length]. rewrite IH. reflexivity. Qed.
Theorem call_length : forall variadic l st ms st2 st', gen_funcall G f variadic l st = Ok (ms, st2, st') -> length (slots st') = length (slots st).
Proof. intros variadic l st ms st2 st' H. exact (forall2_len _ _ _ _ _ (call_slots _ _ _ _ _ _ H)). Qed.
Lemma forall2_skip : forall (A B : Type) (Q : A -> B -> Prop) k l l', Forall2 Q l l' -> Forall2 Q (skipn k l) (skipn k l').
Proof. induction k as [|k IH]; intros l l' H; [exact H|]. destruct H; [constructor|]. cbn [skipn]. apply IH. assumption. Qed.
Theorem call_pop : forall variadic l st ms st2 st', gen_funcall G f variadic l st = Ok (ms, st2, st') ->
  forall k st3, Forall2 (fun s s' => s_kind s' = s_kind s /\ s_loc s' = s_loc s) (skipn k (slots st')) (slots st3) ->
  forall src r64 d must r st4, pop_from G src r64 d must st3 = Ok (r, st4) ->
  exists x ofs, nth_error (slots st) k = Some x /\ r = d /\
    out st4 = upd (out st3) (s_loc x) (Mov None (R (gsize r64) src) (M (BReg (lptr G)) ofs)) ++ [Mov None (M (BReg (lptr G)) ofs) (R (gsize r64) d)].
Proof.
  intros variadic l st ms st2 st' H k st3 L src r64 d must r st4 P. pose proof (call_slots _ _ _ _ _ _ H) as CS. apply (forall2_skip _ _ _ k) in CS.
  unfold pop_from, pop_tmpstack in P. destruct (slots st3) as [|y l3]; [discriminate P|].
  inversion L as [|x' ? l' ? [L1 L2] L3 E1 E2]; subst. rewrite <- E1 in CS. inversion CS as [|x ? l0 ? [C1 C2] C3 E3 E4]; subst.
  exists x. rewrite L1, C1 in P.
  assert (NX : nth_error (slots st) k = Some x).
  { clear - E3. symmetry in E3. revert E3. generalize (slots st). induction k as [|k IH]; intros [|z l] E; try discriminate E; [cbn in *; congruence|cbn [skipn nth_error] in *; exact (IH _ E)]. }
  destruct (reuse G); cbn [bind s_kind s_loc] in P; injection P as <- <-; rewrite L2, C2; eexists; (split; [exact NX|]); (split; reflexivity).
Qed.
End Tmp.
