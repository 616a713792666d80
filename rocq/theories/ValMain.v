(** Main results about assignments, ++ and -- whose value is used. *)
From Coq Require Import ZArith List Bool Lia.
From Verif Require Import Base BitLemmas IntSpec IntLemmas IntModel IntTyped IntProofs IntFold
  IntElab IntMain X86 CgModel CgSpec CgLemmas CgSeq CgSeq2 CgSeq3 CgInv CgTree CgGen CgMain CgHot CgPiece
  StmtSpec StmtModel StmtPlace StmtEff StmtVoid StmtProofs StmtMain ValSpec ValModel ValProofs.
Import ListNotations.
Local Open Scope Z_scope.

(** C's value of x++ and x--. *)
Lemma post_value env inc t x : in_range t (env x) -> no_overflow inc t (env x) ->
  evalue env (XPost inc t x) = Some (env x, assign env x (stepped inc t (env x))).
Proof.
  intros RX NO. cbn [evalue].
  assert (X : exists w, ceval env (EBin (if inc then BAdd else BSub) (EVar t x) (ENum TInt 1)) = Some w /\ conv t w = stepped inc t (env x)).
  2: { destruct X as [w [Ew Cw]]. cbn [effect]. rewrite Ew. unfold set_to. rewrite Cw. reflexivity. }
  set (n := if inc then 1 else -1). set (u := usual (promoted (EVar t x) t) TInt).
  assert (ES : ceval env (EBin (if inc then BAdd else BSub) (EVar t x) (ENum TInt 1)) = wrap_or_undef u (conv u (env x) + conv u n)).
  { destruct inc; [reflexivity|]. rewrite <- dec_inc. reflexivity. }
  rewrite ES. clear ES. unfold no_overflow in NO.
  assert (STEP : t <> TBool -> stepped inc t (env x) = conv t (env x + n)).
  { unfold n. destruct t, inc; intros; try congruence; reflexivity. }
  replace (if inc then env x + 1 else env x - 1) with (env x + n) in NO by (unfold n; destruct inc; lia).
  assert (UB : u <> TBool) by (unfold u; destruct t; discriminate).
  assert (NN : -1 <= n <= 1) by (unfold n; destruct inc; lia).
  destruct (ityp_eqb t TBool) eqn:TB.
  - assert (t = TBool) by (destruct t; congruence || discriminate). subst t. unfold in_range in RX. cbn in RX.
    assert (env x = 0 \/ env x = 1) as [E|E] by lia; rewrite E; unfold u, n; destruct inc; eexists; split; reflexivity.
  - assert (NT : t <> TBool) by (intros ->; discriminate). rewrite (STEP NT).
    assert (UW : 0 <= iwidth t <= iwidth u) by (unfold u; destruct t; try congruence; vm_compute; split; discriminate).
    assert (EQ : eqm (iwidth t) (conv u (env x) + conv u n) (env x + n)).
    { apply eqm_add; (eapply eqm_le; [exact UW|apply eqm_conv; exact UB]). }
    unfold wrap_or_undef. destruct (isigned u) eqn:SU.
    + assert (CN1 : conv u n = n) by (unfold u, n; destruct t, inc; try discriminate SU; reflexivity).
      assert (CS : u = t \/ (imin u + 1 <= imin t /\ imax t <= imax u - 1)).
      { unfold u. destruct t; try congruence; first [left; reflexivity|right; vm_compute; split; discriminate]. }
      assert (W32 : 32 <= iwidth u) by (unfold u; destruct t; vm_compute; discriminate).
      assert (CX : conv u (env x) = env x).
      { apply conv_id. destruct CS as [->|CS]; [exact RX|]. unfold in_range in *. lia. }
      assert (IR : in_rangeb u (conv u (env x) + conv u n) = true).
      { apply in_rangeb_spec. rewrite CX, CN1. destruct CS as [E|CS].
        - rewrite E in *. apply NO; auto.
        - unfold in_range in *. lia. }
      rewrite IR, CX, CN1. eexists. split; reflexivity.
    + eexists. split; [reflexivity|]. apply conv_cong; [exact NT|].
      change (eqm (iwidth t) (conv u (conv u (env x) + conv u n)) (env x + n)).
      eapply eqm_trans; [eapply eqm_le; [exact UW|apply eqm_conv; exact UB]|exact EQ].
Qed.

Section Main.
Variable G : genv.
Variable sym : nat -> Z.
Variable V : list (ityp * nat).
Variable nul : nat.
Hypothesis CO : forall a b, same (gc G) a b = true -> a = b.
Hypothesis SV : saved (lptr G).
Hypothesis HERE : loc G nul = VHere.
Hypothesis UNK : known (gc G) nul = None.
Variable f : nat.

Theorem val_code a n st st' env m post :
  0 <= lvar_sz G <= peak st -> 0 <= rg m (lptr G) < 2 ^ 64 -> peak st' <= rg m (lptr G) ->
  uses_eff V (fun x => known (gc G) x = None) a ->
  separate G sym (rg m) V ->
  held G sym (rg m) (mm m) (rg m (lptr G) - peak st') (rg m (lptr G) - lvar_sz G) V env ->
  parse_eff (gc G) a = Ok n -> gen_val G nul f n st = Ok st' ->
  fresh_labels (out st ++ post) (cnt st) (cnt st') ->
  forall v env', evalue env a = Some (v, env') ->
  exists m', steps sym (out st' ++ post) (length (out st), m) (length (out st'), m') /\
    rg m' AX mod 2 ^ result_bits (etype a) = v mod 2 ^ result_bits (etype a) /\
    held G sym (rg m) (mm m') (rg m (lptr G) - peak st') (rg m (lptr G) - lvar_sz G) V env' /\
    (forall r, saved r -> rg m' r = rg m r) /\
    (forall a, a < rg m (lptr G) - peak st' \/ rg m (lptr G) - lvar_sz G <= a ->
       ~ of_variable G sym (rg m) V a -> mm m' a = mm m a).
Proof.
  intros HL HB HP U SEP HD PS GS LA v env' EV.
  set (P := peak st') in *. set (bs := rg m) in *.
  pose proof (held_nul G sym V nul HERE _ _ _ _ _ HD) as NUL.
  assert (DIS : forall t x u y, In (t, x) V -> In (u, y) V -> (t = u /\ x = y) \/
    (x <> y /\ (CgInv.vaddr G sym bs x + sz (mty t) <= CgInv.vaddr G sym bs y \/
                CgInv.vaddr G sym bs y + sz (mty u) <= CgInv.vaddr G sym bs x))).
  { intros t x u y Hx Hy. rewrite <- !isize_sz. exact (SEP t x u y Hx Hy). }
  assert (F : frame_ok G bs P) by (split; [exact SV|unfold lpv; subst bs P; lia]).
  destruct (val_ok G sym bs P V (mm m) nul F CO HERE UNK NUL DIS f a U n st st' PS GS) as [code [[X1 X2 X3 X4] S]].
  assert (IV : inv G sym bs P V (mm m) env m).
  { constructor; auto. apply held_vars. exact HD. }
  destruct (S (Z.le_refl _) ltac:(lia) env env' v m EV IV) as [m' [R [[I1 I2 I3] Q]]].
  exists m'. split; [|split; [|split; [|split]]].
  - rewrite X1, <- app_assoc. apply (run_steps sym code (out st) post None m m'); [|exact R].
    eapply lok_fresh; [exact X4|exact LA].
  - pose proof (vw_result (etype a)) as LE. apply (eqm_le _ _ _ _ LE Q).
  - apply held_vars. exact I2.
  - exact I1.
  - intros b Hb Hn. apply I3; [exact Hb|]. intros [t [x [A1 [A2 A3]]]]. apply Hn. exists t, x. rewrite isize_sz. auto.
Qed.

End Main.

(** x++ and x--. *)
Theorem post_code (G : genv) (sym : nat -> Z) (nul f : nat) :
  (forall a b, same (gc G) a b = true -> a = b) -> saved (lptr G) ->
  loc G nul = VHere -> known (gc G) nul = None ->
  forall inc t x n st st' v m post,
  0 <= lvar_sz G <= peak st -> 0 <= rg m (lptr G) < 2 ^ 64 -> peak st' <= rg m (lptr G) ->
  known (gc G) x = None -> in_range t v -> no_overflow inc t v ->
  stored G sym (rg m) (mm m) (rg m (lptr G) - peak st') (rg m (lptr G) - lvar_sz G) (fun _ => v) (EVar t x) ->
  parse_eff (gc G) (XPost inc t x) = Ok n -> gen_val G nul f n st = Ok st' ->
  fresh_labels (out st ++ post) (cnt st) (cnt st') ->
  exists m', steps sym (out st' ++ post) (length (out st), m) (length (out st'), m') /\
    rg m' AX mod 2 ^ result_bits t = v mod 2 ^ result_bits t /\
    loadn (Z.to_nat (isize t)) (obj_addr G sym (rg m) x) (mm m') = stepped inc t v mod 2 ^ (8 * isize t) /\
    (forall r, saved r -> rg m' r = rg m r) /\
    (forall a, a < rg m (lptr G) - peak st' \/ rg m (lptr G) - lvar_sz G <= a ->
       a < obj_addr G sym (rg m) x \/ obj_addr G sym (rg m) x + isize t <= a -> mm m' a = mm m a).
Proof.
  intros CO SV HERE UNK inc t x n st st' v m post HL HB HP KN RX NO ST PS GS LA.
  pose proof (post_value (fun _ => v) inc t x RX NO) as EV.
  assert (U : uses_eff [(t, x)] (fun y => known (gc G) y = None) (XPost inc t x)) by (cbn [uses_eff In]; auto).
  assert (SEP : separate G sym (rg m) [(t, x)]).
  { intros u y w z [E|[]] [E'|[]]. left. split; congruence. }
  assert (HD : held G sym (rg m) (mm m) (rg m (lptr G) - peak st') (rg m (lptr G) - lvar_sz G) [(t, x)] (fun _ => v)).
  { intros u y [E|[]]. injection E as <- <-. split; [exact RX|]. split; [|exact ST]. cbn [known_ok]. rewrite KN. discriminate. }
  destruct (val_code G sym [(t, x)] nul CO SV HERE UNK f (XPost inc t x) n st st' (fun _ => v) m post HL HB HP U SEP HD PS GS LA _ _ EV)
    as [m' [S1 [S2 [S3 [S4 S5]]]]].
  exists m'. split; [exact S1|]. split; [exact S2|]. split; [|split; [exact S4|]].
  - destruct (S3 t x (or_introl eq_refl)) as [_ [_ [_ [_ L]]]]. rewrite L, assign_same. reflexivity.
  - intros a Ha Hx. apply S5; [exact Ha|]. intros [u [y [[E|[]] [_ B]]]]. injection E as <- <-. lia.
Qed.
