(** Main results about assignments to bit-fields. *)
From Coq Require Import ZArith List Bool Lia.
From Verif Require Import Base BitLemmas IntSpec IntLemmas IntModel IntTyped IntProofs IntFold
  IntElab IntMain X86 CgModel CgSpec CgLemmas CgSeq CgSeq2 CgSeq3 CgInv CgTree CgGen CgMain CgHot CgPiece
  StmtSpec StmtModel StmtPlace StmtEff StmtVoid StmtProofs StmtMain ValSpec ValModel ValProofs
  BfSpec BfModel BfProofs BfOpSpec BfOpModel BfOpVal BfOpProofs.
Import ListNotations.
Local Open Scope Z_scope.

Lemma uses_nofield V e : uses V e -> field_width e = None.
Proof. induction e; cbn [uses field_width]; auto; tauto. Qed.

Lemma wide_promoted V e : uses V e -> wide (promoted e (ctype e)).
Proof. intros U. unfold promoted. rewrite (uses_nofield V e U). unfold wide. destruct (ctype e); vm_compute; discriminate. Qed.

(** s.x-- adds -1. *)
Lemma dec_field env t w off x :
  ceval env (EBin BAdd (EField t w off x) (ENum TInt (-1))) = ceval env (EBin BSub (EField t w off x) (ENum TInt 1)).
Proof. cbn [ceval c_bin ctype promoted field_width]. apply wrap_dec. unfold promote_field. destruct t; try discriminate; repeat (match goal with |- context[if ?b then _ else _] => destruct b end); discriminate. Qed.

Section Main.
Variable G : genv.
Variable sym : nat -> Z.
Variable V : list (ityp * nat).
Variable nul : nat.
Hypothesis CO : forall a b, same (gc G) a b = true -> a = b.
Hypothesis SV : saved (lptr G).
Hypothesis HERE : loc G nul = VHere.
Hypothesis UNK : known (gc G) nul = None.
Variable f : nat.

Section Value.
Variable bs : reg -> Z.
Variable P : Z.
Variable t : ityp.
Variable w off : Z.
Variable x : nat.
Variable env : nat -> Z.
Variable mem : Z -> Z.
Hypothesis NUL : forall t, ~ In (t, nul) V.
Hypothesis VO : vars_ok G sym bs P V env mem.
Hypothesis WO : width_ok t w.
Hypothesis RX : fmin t w <= env x <= fmax t w.

Lemma nul_agree e : uses V e -> ceval (assign env nul (env x)) e = ceval env e.
Proof.
  intros U. eapply ceval_agree; eauto. intros u y Hy. unfold assign. destruct (Nat.eqb_spec y nul); [|reflexivity].
  subst y. exfalso. eapply NUL; eauto.
Qed.

Lemma operand_range e a y : uses V e -> elab (gc G) e = Ok a -> ceval env e = Some y -> in_range (promoted e (ctype e)) y.
Proof.
  intros U E Y. pose proof (uses_elab G sym bs P V env mem VO CO e a U E) as ER.
  rewrite <- (er_promoted _ _ _ _ ER). apply (promote_value env a (er_wt _ _ _ _ ER) (er_v _ _ _ _ ER)).
  apply (er_ev _ _ _ _ ER). exact Y.
Qed.

Lemma shift_narrow left y z : let p := promote_field t w in let q := promote t in
  c_shift left p (conv p (env x)) y = Some z ->
  exists z', c_shift left q (conv q (env x)) y = Some z' /\ eqm w (conv t z') (conv t z).
Proof.
  intros p q H. destruct (narrow_field t w (env x) WO RX) as [Q|[W32 [BT [PP [RP [RT _]]]]]].
  { exists z. split; [|apply eqm_refl]. unfold p, q in *. rewrite <- Q. exact H. }
  assert (PT : q = t) by (unfold q; destruct BT as [->|[->|[->|[->| ->]]]]; reflexivity).
  assert (NB : t <> TBool) by (destruct BT as [->|[->|[->|[->| ->]]]]; discriminate).
  assert (IW : 32 <= iwidth t) by (destruct BT as [->|[->|[->|[->| ->]]]]; vm_compute; discriminate).
  assert (PW : iwidth p = 32 /\ p <> TBool) by (unfold p; destruct PP as [-> | ->]; split; reflexivity || discriminate).
  destruct PW as [PW NBP]. rewrite PT. unfold c_shift in *. fold p in RP. rewrite (conv_id p _ RP) in H. rewrite (conv_id t _ RT).
  destruct ((0 <=? y) && (y <? iwidth p)) eqn:B; [|discriminate]. apply andb_true_iff in B as [B1 B2].
  apply Z.ltb_lt in B2. rewrite B1. replace (y <? iwidth t) with true by (symmetry; apply Z.ltb_lt; lia). cbn [andb].
  eexists. split; [reflexivity|]. injection H as <-. destruct left; [|apply eqm_refl].
  destruct WO as [W1 W2]. rewrite (conv_id t (conv t _) (conv_range _ _)).
  eapply eqm_trans; [eapply eqm_le; [|apply eqm_conv; exact NB]; lia|]. apply eqm_sym.
  eapply eqm_trans; [eapply eqm_le; [|apply eqm_conv; exact NB]; lia|].
  eapply eqm_le; [|apply eqm_conv; exact NBP]. lia.
Qed.

Lemma value_wide o e a z : uses V e -> elab (gc G) e = Ok a ->
  (o = ABin BDiv \/ o = ABin BMod -> same_division t w (promoted e (ctype e)) \/ (0 <= env x /\ forall y, ceval env e = Some y -> 0 <= y)) ->
  ceval env (aexp o (EField t w off x) e) = Some z -> wide_value nul t w x o e env (conv t z).
Proof.
  intros U E DC H. unfold wide_value. pose proof (nul_agree e U) as AG.
  destruct o as [o| |]; cbn [aexp ceval ctype] in *; destruct (ceval env e) as [y|] eqn:Y; try discriminate; rewrite AG, assign_same;
  cbn [promoted field_width] in *.
  - apply (op_narrow t w (env x) y (promoted e (ctype e)) o z WO RX (wide_promoted V e U) (operand_range e a y U E Y)); [|exact H].
    intros O. destruct DC as [D|[D1 D2]]; [destruct O as [-> | ->]; auto|auto|auto].
  - apply (shift_narrow true y z H).
  - apply (shift_narrow false y z H).
Qed.
End Value.

Theorem bf_code t w off x a n void st st' env m post v :
  let lo := rg m (lptr G) - peak st' in
  let hi := rg m (lptr G) - lvar_sz G in
  let ua := (obj_addr G sym (rg m) x + moff G x) mod 2 ^ 64 in
  let unit_of m := loadn (Z.to_nat (isize t)) ua (mm m) in
  0 <= lvar_sz G <= peak st -> 0 <= rg m (lptr G) < 2 ^ 64 -> peak st' <= rg m (lptr G) ->
  width_ok t w -> inside t w off -> (reads a -> ~ bad_field t w off) ->
  addressable G sym x -> 0 <= moff G x < 2 ^ 31 -> clear ua (isize t) lo hi ->
  (forall u y, In (u, y) V -> obj_addr G sym (rg m) y + isize u <= ua \/ ua + isize t <= obj_addr G sym (rg m) y) ->
  held G sym (rg m) (mm m) lo hi V env -> env x = field_value t w off (unit_of m) ->
  uses_in V a -> parse_beff (gc G) t w off x a = Ok n -> gen_bf G nul f void n st = Ok st' ->
  fresh_labels (out st ++ post) (cnt st) (cnt st') ->
  bvalue env t w off x a = Some v -> division_ok env t w x a ->
  exists m', steps sym (out st' ++ post) (length (out st), m) (length (out st'), m') /\
    field_set w off (unit_of m) v (unit_of m') /\
    (void = false -> ~ bad_bresult t w off a ->
     rg m' AX mod 2 ^ result_bits t = bresult env t w x a v mod 2 ^ result_bits t) /\
    (forall r, saved r -> rg m' r = rg m r) /\
    (forall b, b < lo \/ hi <= b -> b < ua \/ ua + isize t <= b -> mm m' b = mm m b).
Proof.
  intros lo hi ua0 unit_of HL HB HP WO INS NB AD MO CL DJ HD EX U PS GS LA BV DC.
  set (P := peak st') in *. set (bs := rg m) in *.
  pose proof (held_nul G sym V nul HERE _ _ _ _ _ HD) as NUL.
  assert (F : frame_ok G bs P) by (split; [exact SV|unfold lpv; subst bs P; lia]).
  assert (VO : vars_ok G sym bs P V env (mm m)) by (apply held_vars; exact HD).
  destruct (mty_facts t) as [T [EI [ES [E8 ET]]]].
  assert (OUT : outside G bs P (ua G sym bs x) (sz (mty t))) by (rewrite ES; exact CL).
  assert (DJ' : forall u y, In (u, y) V -> vaddr G sym bs y + sz (mty u) <= ua G sym bs x \/ ua G sym bs x + sz (mty t) <= vaddr G sym bs y).
  { intros u y Hy. rewrite <- !isize_sz. exact (DJ u y Hy). }
  assert (FX : env x = fvo G sym bs t w off x m) by (unfold fvo; rewrite ET; exact EX).
  assert (RX : fmin t w <= env x <= fmax t w) by (rewrite FX; apply fvo_range; exact WO).
  assert (FIN : forall (pre : (nat -> Z) * Z -> mach -> Prop) Q, CgPiece.piece G sym bs P st st' pre Q -> pre (env, v) m ->
    (forall m', Q (env, v) m m' -> upd G sym bs P t w off x m m' v /\
      (void = false -> ~ bad_bresult t w off a -> eqm (result_bits t) (rg m' AX) (bresult env t w x a v))) ->
    exists m', steps sym (out st' ++ post) (length (out st), m) (length (out st'), m') /\
    field_set w off (unit_of m) v (unit_of m') /\
    (void = false -> ~ bad_bresult t w off a ->
     rg m' AX mod 2 ^ result_bits t = bresult env t w x a v mod 2 ^ result_bits t) /\
    (forall r, saved r -> rg m' r = rg m r) /\
    (forall b, b < lo \/ hi <= b -> b < ua0 \/ ua0 + isize t <= b -> mm m' b = mm m b)).
  { intros pre Q [code [g [s [X SM]]]] Pm HQ.
    destruct (SM (Z.le_refl _) ltac:(lia) (env, v) m ltac:(intros r _; reflexivity) Pm) as [g' [s' [m' [_ [R [K Qm]]]]]].
    destruct (HQ m' Qm) as [[U1 U2] RV]. exists m'. split; [|split; [|split; [|split]]].
    - rewrite (ex_out _ _ _ _ _ _ X), <- app_assoc. apply (run_steps sym code (out st) post None m m'); [|exact R].
      eapply lok_fresh; [exact (ex_lok _ _ _ _ _ _ X)|exact LA].
    - rewrite ET in U2. exact U2.
    - exact RV.
    - intros r Hr. apply (kt_c _ _ _ _ _ _ _ _ _ K). exact Hr.
    - intros b B1 B2. apply U1; [exact B1|]. rewrite ES. exact B2. }
  assert (DONE : forall m', done G sym bs P t w off x void v m m' -> (match a with BPost _ => void = true | _ => True end) ->
     upd G sym bs P t w off x m m' v /\
      (void = false -> ~ bad_bresult t w off a -> eqm (result_bits t) (rg m' AX) (bresult env t w x a v))).
  { intros m' [D1 D2] BP. split; [exact D1|]. intros VF NBR. destruct a; cbn [bresult bad_bresult] in *; auto. congruence. }
  destruct a as [e|o e|inc|inc]; cbn [uses_in] in U; unfold bvalue in BV.
  - destruct (ceval env e) as [z|] eqn:CE; [|discriminate].
    eapply FIN; [eapply set_piece; eauto| |intros m' D; apply DONE; [exact D|exact Logic.I]].
    cbn [fst snd]. split; [exact VO|]. cbn [ceval]. rewrite CE. exact BV.
  - cbn [parse_beff] in PS. bnd PS. injection PS as <-. cbn [gen_bf] in GS. bnd GS.
    destruct (ceval env (aexp o (EField t w off x) e)) as [z|] eqn:CE; [|discriminate].
    eapply FIN; [eapply (arith_piece G sym bs P V nul f t w off x F CO HERE UNK NUL WO INS AD MO OUT DJ' o e); eauto; apply NB; exact Logic.I| |].
    + split; [exact VO|]. split; [exact FX|]. cbn [fst snd]. injection BV as <-.
      eapply value_wide; eauto. intros O. cbn [division_ok] in DC. destruct O as [-> | ->]; exact DC.
    + intros m' D. apply DONE; [exact D|exact Logic.I].
  - cbn [parse_beff] in PS. injection PS as <-. cbn [gen_bf] in GS. bnd GS.
    destruct (ceval env (EBin (if inc then BAdd else BSub) (EField t w off x) (ENum TInt 1))) as [z|] eqn:CE; [|discriminate].
    assert (U1 : uses V (ENum TInt 1)) by (split; vm_compute; discriminate).
    eapply FIN; [eapply (arith_piece G sym bs P V nul f t w off x F CO HERE UNK NUL WO INS AD MO OUT DJ' (ABin (if inc then BAdd else BSub)) (ENum TInt 1)); eauto; reflexivity| |].
    + split; [exact VO|]. split; [exact FX|]. cbn [fst snd]. injection BV as <-.
      eapply (value_wide bs P t w off x env (mm m) NUL VO WO RX _ _ _ z U1 eq_refl); [|exact CE].
      intros O. exfalso. destruct inc, O; discriminate.
    + intros m' D. apply DONE; [exact D|exact Logic.I].
  - cbn [parse_beff] in PS. injection PS as <-. cbn [gen_bf] in GS. bnd GS.
    destruct (ceval env (EBin (if inc then BAdd else BSub) (EField t w off x) (ENum TInt 1))) as [z|] eqn:CE; [|discriminate].
    set (k := if inc then 1 else -1) in *.
    assert (U1 : uses V (ENum TInt k)) by (unfold k; destruct inc; split; vm_compute; discriminate).
    assert (E1 : elab (gc G) (ENum TInt k) = Ok (NNum ty_int k)) by (unfold k; destruct inc; reflexivity).
    assert (CE' : ceval env (aexp (ABin BAdd) (EField t w off x) (ENum TInt k)) = Some z).
    { rewrite <- CE. unfold k. destruct inc; [reflexivity|apply dec_field]. }
    assert (PRE : arith_pre G sym bs P V nul t w off x (ABin BAdd) (ENum TInt k) (env, v) m).
    { split; [exact VO|]. split; [exact FX|]. cbn [fst snd]. injection BV as <-.
      eapply (value_wide bs P t w off x env (mm m) NUL VO WO RX _ _ _ z U1 E1); [|exact CE'].
      intros O. exfalso. destruct O; discriminate. }
    destruct void.
    + bnd GS. eapply FIN; [eapply (arith_piece G sym bs P V nul f t w off x F CO HERE UNK NUL WO INS AD MO OUT DJ' (ABin BAdd) (ENum TInt k)); eauto; apply NB; exact Logic.I|exact PRE|].
      intros m' D. apply DONE; [exact D|reflexivity].
    + bnd GS. apply ok_inj in GS. subst st'.
      eapply FIN; [eapply (post_piece_bf G sym bs P V nul f t w off x F CO HERE UNK NUL WO INS AD MO OUT DJ' k); eauto; apply NB; exact Logic.I|exact PRE|].
      intros m' [D1 D2]. cbn [fst snd] in *. split; [exact D1|]. intros _ _. apply (eqm_le _ _ _ _ (vw_result t) D2).
Qed.
End Main.
