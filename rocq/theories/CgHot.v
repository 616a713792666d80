(** The code generator on trees whose left-most leaf stands for a value already in %rax
    (ND_NULL_EXPR on the left of a compound assignment). *)
From Coq Require Import ZArith List Bool Lia.
From Verif Require Import Base BitLemmas IntSpec IntLemmas IntModel IntTyped IntProofs IntFold
  IntElab IntMain X86 CgModel CgLemmas CgSeq CgSeq2 CgSeq3 CgInv CgTree CgGen.
Import ListNotations.
Local Open Scope Z_scope.

(** The same settings with variable [x] somewhere else. *)
Definition setloc (G : genv) (x : nat) (l : vloc) : genv :=
  mkgenv (gc G) (pic G) (reuse G) (lvar_sz G) (lptr G)
    (fun y => if Nat.eqb y x then l else loc G y) (moff G).
Definition setlocs (G : genv) (L : nat -> vloc) : genv :=
  mkgenv (gc G) (pic G) (reuse G) (lvar_sz G) (lptr G) L (moff G).

Section Static.
Variable nul : nat.
Variable t0 : ty.
Variable VS : list (ityp * nat).

(** The objects of the tree are those of [VS]. *)
Fixpoint nonul (n : node) : Prop :=
  match n with
  | NNum _ _ => True
  | NVar t x => exists i, t = mty i /\ In (i, x) VS
  | NBit _ _ _ _ => False
  | NPos _ a | NNeg _ a | NBitNot _ a | NCast _ a | NNot a => nonul a
  | NBin _ _ a b | NShl _ a b | NShr _ a b | NSar _ a b | NCmp _ a b | NComma _ a b
  | NLogAnd a b | NLogOr a b => nonul a /\ nonul b
  | NCond _ c a b => nonul c /\ nonul a /\ nonul b
  end.

(** The placeholder occurs once, as the operand evaluated first. *)
Fixpoint Hot (n : node) : Prop :=
  match n with
  | NVar t x => x = nul /\ t = t0
  | NCast _ a => Hot a
  | NBin _ _ a b | NShl _ a b | NShr _ a b | NSar _ a b | NCmp _ a b => Hot a /\ nonul b
  | _ => False
  end.

Variable G : genv.
Hypothesis HERE : loc G nul = VHere.
Hypothesis UNK : known (gc G) nul = None.

Lemma hot_eval n v : Hot n -> eval2 (gc G) n <> Ok v.
Proof.
  revert v. induction n; intros v' H E; cbn [Hot] in H; try contradiction; cbn [eval2] in E.
  - destruct H as [-> _]. rewrite UNK in E. discriminate.
  - destruct o; bnd E; eapply IHn1; tauto || eauto.
  - bnd E. eapply IHn1; tauto || eauto.
  - bnd E. eapply IHn1; tauto || eauto.
  - bnd E. eapply IHn1; tauto || eauto.
  - bnd E. eapply IHn1; tauto || eauto.
  - bnd E. eapply IHn; eauto.
Qed.

Lemma hot_const n k : Hot n -> const_of G n <> Ok (Some k).
Proof.
  intros H E. unfold const_of in E. destruct (eval2 (gc G) n) eqn:V; try discriminate. eapply hot_eval; eauto.
Qed.

Lemma hot_memop n : Hot n -> is_memop G n = None.
Proof.
  unfold is_memop. induction n; intros H; cbn [Hot] in H; try contradiction; try reflexivity.
  - destruct H as [-> _]. cbn [skip_gp_cast]. unfold var_memop. rewrite HERE. reflexivity.
  - cbn [skip_gp_cast]. destruct (_ && _); auto.
Qed.

Lemma hot_cast n t n' : new_cast (gc G) n t = Ok n' -> Hot n -> Hot n'.
Proof.
  unfold new_cast. intros H L. destruct (opt (gc G)); [|injection H as <-; exact L].
  destruct (eval2 (gc G) (NCast t n)) eqn:E; [exfalso; eapply (hot_eval (NCast t n)); [exact L|exact E]|discriminate|].
  destruct (negb (is_bitfield n) && same (gc G) (nty n) t); [injection H as <-; exact L|].
  destruct (is_redundant_cast n t) eqn:E'; injection H as <-; [|exact L].
  destruct n; try discriminate. exact L.
Qed.

Lemma hot_promotion n n' : int_promotion (gc G) n = Ok n' -> Hot n -> Hot n'.
Proof.
  unfold int_promotion. intros H L. destruct (is_bitfield2 n).
  - destruct (_ && _); [eapply hot_cast; eauto|]. destruct (_ <=? _); eapply hot_cast; eauto.
  - destruct (_ <? _); [eapply hot_cast; eauto|]. destruct (sz (nty n) =? 4); [|congruence].
    bnd H. destruct (a <? 1); [eapply hot_cast; eauto|congruence].
Qed.

Lemma nonul_cast n t n' : new_cast (gc G) n t = Ok n' -> nonul n -> nonul n'.
Proof.
  unfold new_cast. intros H L. destruct (opt (gc G)); [|injection H as <-; exact L].
  destruct (eval2 (gc G) (NCast t n)) eqn:E; [injection H as <-; exact Logic.I|discriminate|].
  destruct (negb (is_bitfield n) && same (gc G) (nty n) t); [injection H as <-; exact L|].
  destruct (is_redundant_cast n t) eqn:E'; injection H as <-; [|exact L].
  destruct n; try discriminate. exact L.
Qed.

Lemma nonul_promotion n n' : int_promotion (gc G) n = Ok n' -> nonul n -> nonul n'.
Proof.
  unfold int_promotion. intros H L. destruct (is_bitfield2 n).
  - destruct (_ && _); [eapply nonul_cast; eauto|]. destruct (_ <=? _); eapply nonul_cast; eauto.
  - destruct (_ <? _); [eapply nonul_cast; eauto|]. destruct (sz (nty n) =? 4); [|congruence].
    bnd H. destruct (a <? 1); [eapply nonul_cast; eauto|congruence].
Qed.

Lemma nonul_cond n n' : cond_cast (gc G) n = Ok n' -> nonul n -> nonul n'.
Proof. intros H L. destruct n; try (eapply nonul_cast; [exact H|exact L]); injection H as <-; exact L. Qed.

Lemma hot_usual a b p q : usual_arith_conv (gc G) a b = Ok (p, q) -> Hot a -> nonul b -> Hot p /\ nonul q.
Proof.
  unfold usual_arith_conv. intros H La Lb. bnd H. injection H as <- <-.
  split; [eapply hot_cast; eauto; eapply hot_promotion; eauto|eapply nonul_cast; eauto; eapply nonul_promotion; eauto].
Qed.

Lemma nonul_usual a b p q : usual_arith_conv (gc G) a b = Ok (p, q) -> nonul a -> nonul b -> nonul p /\ nonul q.
Proof.
  unfold usual_arith_conv. intros H La Lb. bnd H. injection H as <- <-.
  split; eapply nonul_cast; eauto; eapply nonul_promotion; eauto.
Qed.

Lemma hot_boolopt n : forall h bx e f, bool_expr_opt2 n h bx = Some (e, f) -> Hot n ->
  bx = Some (e, f) \/ Hot e.
Proof.
  induction n; intros h bx e f H Hn; cbn [Hot] in Hn; try contradiction; cbn [bool_expr_opt2] in H;
  try (match type of H with (if is_bool (nty ?n) then _ else _) = _ =>
           destruct (is_bool (nty n)); [right; injection H as <- <-; exact Hn|left; exact H] end);
  try (right; injection H as <- <-; exact Hn).
  apply IHn in H; [|exact Hn]. destruct (is_bool t); [|exact H]. destruct H as [H|H]; [|right; exact H].
  right. injection H as <- <-. exact Hn.
Qed.
End Static.

Section Hot.
Variable G : genv.
Variable sym : nat -> Z.
Variable env : nat -> Z.
Variable bs : reg -> Z.
Variable P : Z.
Variable mem0 : Z -> Z.
Hypothesis FR : frame_ok G bs P.
Hypothesis CO : cfg_ok (gc G).
Variable nul : nat.
Variable t0 : ty.
(** Locations and contents of memory for which the trees are considered: the placeholder is
    an object, and the other objects are where they are. *)
Variable LF : nat -> vloc.
Variable memF : Z -> Z.
Hypothesis HERE : loc G nul = VHere.
Hypothesis UNK : known (gc G) nul = None.

Local Notation G' := (setlocs G LF).
Variable VS : list (ityp * nat).
Hypothesis COLD : forall i x, In (i, x) VS -> leafv G' sym env bs P memF (mty i) x -> leafv G sym env bs P mem0 (mty i) x.
Local Notation Hot := (Hot nul t0 VS).
Local Notation nonul := (nonul VS).
Local Notation good := (good G bs P mem0).
Local Notation spec := (spec G sym bs P mem0).
Local Notation hspec := (hspec G sym bs P mem0).
Local Notation slc := (slc sym).
Local Notation pre := (pre G sym env bs P mem0).
Local Notation pre' := (CgGen.pre G' sym env bs P memF).
Local Notation pre2 := (pre2 G' sym env bs P memF).
Local Notation mspec := (mspec G sym env bs P mem0).

(** The value of the placeholder is in %rax. *)
Definition HE (m : mach) : Prop := eqm (wbits (NVar t0 nul)) (rg m AX) (env nul).

Definition hmspec (n : node) (st st' : gst) : Prop :=
  hspec HE st st' (pre' n) (fun v => plainq (fun m => eqm (wbits n) (rg m AX) v)).

Lemma nonul_place b : nonul b -> place G' sym env bs P memF b -> place G sym env bs P mem0 b.
Proof.
  induction b; cbn [CgHot.nonul CgInv.place]; intros N L; try tauto; auto. destruct N as [i [-> N]]. auto.
Qed.

Lemma nonul_cgok b : nonul b -> cgok G' sym env bs P memF b -> cgok G sym env bs P mem0 b.
Proof. intros N [W V K L]. constructor; auto. apply nonul_place; auto. Qed.

Lemma hafter n a st st1 code : hmspec a st st1 -> labels code = [] ->
  (forall v, pre' n v -> exists va, pre' a va /\ forall m, good m -> eqm (wbits a) (rg m AX) va ->
     slc code m (fun m' => eqm (wbits n) (rg m' AX) v)) ->
  hmspec n st (emit code st1).
Proof.
  intros SP L H. eapply hspec_emit; [exact SP|exact L|]. intros v Hv. destruct (H v Hv) as [va [Pa HQ]].
  exists va. split; [exact Pa|]. intros j m Gm [-> Q]. split; [reflexivity|]. apply slc_run. auto.
Qed.

Lemma hweak n a st st' : hmspec a st st' ->
  (forall v, pre' n v -> exists va, pre' a va /\ forall r, eqm (wbits a) r va -> eqm (wbits n) r v) ->
  hmspec n st st'.
Proof.
  intros SP H. eapply hspec_weak; [exact SP|]. intros v Hv. destruct (H v Hv) as [va [Pa HQ]].
  exists va. split; [exact Pa|]. split; [auto|]. intros j m Gm [-> Q]. split; [reflexivity|]. auto.
Qed.

Variable rec : mode -> node -> gst -> outcome gst.
Hypothesis IH : forall md n st st', rec md n st = Ok st' -> mspec md n st st'.
Hypothesis HIH : forall n st st', Hot n -> rec MExpr n st = Ok st' -> hmspec n st st'.

Local Notation qcmp := (qcmp env).
Local Notation qflags := (qflags env).
Local Notation qalu := (qalu env).

(** ** Comparisons *)
Lemma hcmp2_ok l r st st1 : Hot l -> gen_cmp_opt_gp2 G rec l r st = Ok (Some st1) ->
  hspec HE st st1 (fun _ => pre2 l r) (fun _ => plainq (qcmp l r)).
Proof.
  intros HL H. unfold gen_cmp_opt_gp2 in H. bnd H. rewrite (hot_memop nul t0 VS G HERE l HL) in H.
  destruct a as [k|]; [|discriminate].
  assert (CV : pre2 l r -> forall y, teval env r = Some y -> k = rep64 y).
  { intros [_ [_ [_ [[W V K _] _]]]] y Y. eapply (const_val G); eauto. }
  bnd H. injection H as <-. apply HIH in E0; [|exact HL]. eapply hspec_emit; [exact E0|apply labels_imm_cmp2|].
  intros v P2. pose proof (pre2_range G' sym env bs P memF l r P2) as RG. pose proof P2 as [A [B [C [D [x [y [X Y]]]]]]].
  exists x. split; [split; auto|]. intros j m Gm [-> Q]. split; [reflexivity|]. apply slc_run.
  destruct (arith_size _ A) as [s [SZ [OS [Bs [NB [NB8 [GS GS8]]]]]]]. rewrite OS in E1. injection E1 as <-.
  destruct (RG x y X Y) as [Rx Ry]. rewrite (CV P2 y Y).
  destruct (limit_imm_ok y s (sz (nty l)) SZ ltac:(destruct A; lia)) as [L1 L2].
  eapply slc_weak; [apply (imm_cmp_ok sym (ity (nty l)) s x y); auto|].
  - rewrite NB. apply opnd; auto.
  - intros m' _ Q' x' y' X' Y'. rewrite X in X'. rewrite Y in Y'. injection X' as <-. injection Y' as <-. exact Q'.
Qed.

Lemma hcmp2s_ok l r st st1 : Hot r -> nonul l -> gen_cmp_opt_gp2 G rec l r st = Ok (Some st1) ->
  hspec HE st st1 (fun _ => pre2 l r) (fun _ => plainq (qcmp l r)).
Proof.
  intros HR NL H. unfold gen_cmp_opt_gp2 in H. bnd H. destruct a as [k|].
  { exfalso. eapply (hot_const nul t0 VS G UNK); eauto. }
  destruct (is_memop G l) as [[b o]|] eqn:M; [|discriminate].
  bnd H. injection H as <-. apply HIH in E0; [|exact HR]. eapply hspec_emit; [exact E0|reflexivity|].
  intros v P2. pose proof (pre2_range G' sym env bs P memF l r P2) as RG. pose proof P2 as [A [B [C [D [x [y [X Y]]]]]]].
  exists y. split; [split; auto|]. intros j m Gm [-> Q]. split; [reflexivity|]. apply slc_run.
  destruct (arith_size _ A) as [s [SZ [OS [Bs [NB [NB8 [GS GS8]]]]]]]. rewrite OS in E1. injection E1 as <-.
  destruct (RG x y X Y) as [Rx Ry].
  destruct (memop_ok G sym env bs P mem0 FR l b o x m M (nonul_cgok l NL C) X Gm) as [St Hh].
  eapply slc_weak; [apply (cmp_mem sym (ity (nty l)) s b o x y); auto|].
  + replace (nbytes s) with (tysize (nty l)); [exact Hh|]. unfold tysize. rewrite nbits_nbytes in NB8. lia.
  + rewrite NB. rewrite <- B. apply opnd; [rewrite B; exact A|exact Q].
  + intros m' _ Q' x' y' X' Y'. rewrite X in X'. rewrite Y in Y'. injection X' as <-. injection Y' as <-. exact Q'.
Qed.

Lemma hcmp_opt_ok o o' a b st st1 : Hot a -> nonul b -> gen_cmp_opt_gp G rec o a b st = Ok (Some (o', st1)) ->
  hspec HE st st1 (fun _ => pre2 a b) (fun _ => plainq (qflags o o' a b)).
Proof.
  intros HA NB' H. unfold gen_cmp_opt_gp in H. bnd H. destruct a0 as [s0|].
  - injection H as <- <-. apply hcmp2_ok in E; [|exact HA]. eapply hspec_weak; [exact E|]. intros v P2. exists v.
    split; [exact P2|]. split; [auto|]. intros j m Gm [-> Q]. split; [reflexivity|].
    eapply (qcmp_flags G'); eauto.
  - bnd H. destruct a0 as [s0|]; [|discriminate]. injection H as <- <-. apply hcmp2s_ok in E0; auto.
    eapply hspec_weak; [exact E0|]. intros v P2. exists v. split; [apply pre2_swap; exact P2|]. split; [auto|].
    intros j m Gm [-> Q]. split; [reflexivity|]. pose proof P2 as [A [B [C [D [x [y [X Y]]]]]]].
    destruct (Q y x Y X) as [f [F1 F2]]. exists f. split; [exact F1|].
    intros flip x' y' X' Y'. rewrite X in X'. rewrite Y in Y'. injection X' as <-. injection Y' as <-.
    rewrite <- (uns_ity _ A), <- B, F2, flip_swap, c_cmp_swap. apply c_cmp_flip.
Qed.

Lemma pre_cold b v : nonul b -> pre' b v -> pre b v.
Proof. intros N [C T]. split; [apply nonul_cgok; auto|exact T]. Qed.

Lemma hcmp_plain_ok a b st st1 : Hot a -> nonul b -> gen_cmp_plain G rec a b st = Ok st1 ->
  hspec HE st st1 (fun _ => pre2 a b) (fun _ => plainq (qcmp a b)).
Proof.
  intros HA NB' H. unfold gen_cmp_plain in H. bnd H. injection H as <-. apply HIH in E; [|exact HA]. apply IH in E0.
  destruct a2 as [r st3]. cbn [fst snd] in *. apply spec_h in E0.
  unfold pop_gp in E1. eapply (hspec_push_pop G sym bs P mem0 FR); [exact E|exact E0|exact E1|reflexivity|right; auto|].
  intros v P2. pose proof (pre2_range G' sym env bs P memF a b P2) as RG. pose proof P2 as [A [B [C [D [x [y [X Y]]]]]]].
  exists x, y. split; [split; auto|]. split; [split; [apply nonul_cgok; auto|auto]|]. split; [auto|].
  intros m1 m3 m4 Q1 Q3 _ _ _ IT GR OT MM. specialize (IT eq_refl).
  destruct (arith_size _ A) as [s [SZ [OS [Bs [NB [NB8 [GS GS8]]]]]]]. rewrite GS in *.
  rewrite OS in E2. injection E2 as <-. destruct (RG x y X Y) as [Rx Ry].
  assert (C1 : eqm (nbits s) (rg m4 r) x).
  { unfold eqm. unfold getr in GR. rewrite GR. rewrite NB. apply opnd; auto. }
  assert (C2 : eqm (nbits s) (rg m4 AX) y).
  { rewrite OT by (destruct IT as [->|[->|[->|[->|[->| ->]]]]]; discriminate).
    rewrite NB, <- B. apply opnd; [rewrite B; exact A|exact Q3]. }
  destruct (cmp_reg sym (ity (nty a)) s r x y m4 NB Bs Rx Ry C1 C2) as [m' [R' [[P1 P1'] Q']]].
  exists m'. split; [exact R'|]. split; [split; auto|].
  intros x' y' X' Y'. rewrite X in X'. rewrite Y in Y'. injection X' as <-. injection Y' as <-. exact Q'.
Qed.

Lemma hsetcc o o' a b st st1 : hspec HE st st1 (fun _ => pre2 a b) (fun _ => plainq (qflags o o' a b)) ->
  hmspec (NCmp o a b) st (emit (gen_cmp_setcc o' (uns (nty a))) st1).
Proof.
  intros SP. eapply hspec_emit; [exact SP|reflexivity|]. intros v Hv. exists 0.
  destruct (ncmp_pre G' sym env bs P memF o a b v Hv) as [P2 [x [y [X [Y ->]]]]]. split; [exact P2|].
  intros j m Gm [-> [f [F1 F2]]]. split; [reflexivity|]. apply slc_run.
  eapply slc_weak; [apply setcc_ok; exact F1|]. intros m' _ Q. rewrite wbits_boolish by reflexivity.
  specialize (F2 false x y X Y). cbn [flip_cmp] in F2. rewrite xorb_false_r in F2. rewrite <- F2. exact Q.
Qed.

(** ** Casts *)
Lemma hcmp_zero_ok a o st st' n : Hot a -> gen_cmp_zero G rec a o st = Ok st' -> o = CEq \/ o = CNe ->
  (forall v, pre' n v -> exists va, pre' a va /\ v = b2z (c_cmp o va 0)) -> hmspec n st st'.
Proof.
  unfold gen_cmp_zero. intros HA H Ho HP. bnd H. destruct a0 as [p q]. cbn [fst snd] in H.
  destruct (hot_usual nul t0 VS G UNK a _ p q E HA Logic.I) as [HP' NQ].
  apply HIH in H; [|split; [exact HP'|exact NQ]]. eapply hweak; [exact H|].
  intros v Hv. destruct (HP v Hv) as [va [[Ca Ta] ->]].
  destruct (cmp_zero_ok G' sym env bs P memF CO o a (p, q) E Ho Ca) as [CC TT]. cbn [fst snd] in *.
  exists (b2z (c_cmp o va 0)). split; [split; [exact CC|apply TT; exact Ta]|].
  intros r Q. rewrite wbits_boolish in Q by reflexivity. apply eqm_le64. exact Q.
Qed.

Lemma hcast_ok t a st st' : Hot a -> gen_cast G rec t a st = Ok st' -> hmspec (NCast t a) st st'.
Proof.
  unfold gen_cast. intros HA H. destruct (is_bool t) eqn:B.
  - eapply hcmp_zero_ok; [exact HA|exact H|auto|]. intros v Hv. destruct (cast_pre G' sym env bs P memF t a v Hv) as [va [Pa [-> [Tt _]]]].
    exists va. split; [exact Pa|]. unfold is_ty in Tt. destruct (ity t) eqn:Ei; subst t; try discriminate.
    cbn [c_cmp]. apply conv_bool.
  - bnd H. injection H as <-. apply HIH in E; [|exact HA]. eapply hafter; [exact E|apply cast_labels|].
    intros v Hv. destruct (cast_pre G' sym env bs P memF t a v Hv) as [va [Pa [-> [Tt [TTa R]]]]]. exists va. split; [exact Pa|].
    intros m Gm Q. eapply slc_weak; [apply (cast_ok sym (nty a) t va); auto|].
    + eapply eqm_le; [|exact Q]. destruct (wbits_cases a) as [-> | ->]; lia.
    + intros F. unfold wbits in Q. destruct F as [F|F].
      * rewrite F in Q. exact Q.
      * rewrite (bool_boolish a F), orb_true_r in Q. exact Q.
    + intros m' _ [Q1 Q2]. rewrite wbits_cast by auto. destruct (Z.eqb_spec (sz t) 8); auto.
Qed.

(** ** Arithmetic *)
Lemma harith2_ok o n l r p st st1 : Hot l -> nonul r -> n = 4 \/ n = 8 ->
  gen_arith_opt_gp2 G rec o n l r p st = Ok (Some st1) ->
  hspec HE st st1 (fun _ => pre2 l r /\ n <= sz (nty l)) (fun _ => plainq (qalu o n l r)).
Proof.
  intros HLT NR HN H. unfold gen_arith_opt_gp2 in H. bnd H.
  assert (exists s, a = s /\ big s /\ nbits s = 8 * n) as [s [-> [Bs NB]]].
  { destruct (size_big n a E ltac:(lia)) as [A B]. eauto. }
  assert (SO : simple o) by (split; intros ->; discriminate).
  assert (AF : forall c, labels c = [] ->
     (forall x y m, pre2 l r -> n <= sz (nty l) -> teval env l = Some x -> teval env r = Some y -> good m ->
        eqm (8 * n) (rg m AX) x -> slc c m (fun m' => eqm (8 * n) (rg m' AX) (alu_fun o x y))) ->
     forall st0, rec MExpr l st = Ok st0 ->
     hspec HE st (emit c st0) (fun _ => pre2 l r /\ n <= sz (nty l)) (fun _ => plainq (qalu o n l r))).
  { intros c L HC st0 R0. apply HIH in R0; [|exact HLT]. eapply hspec_emit; [exact R0|exact L|].
    intros v [P2 NS]. pose proof P2 as [A [B [C [D [x [y [X Y]]]]]]]. exists x. split; [split; auto|].
    intros j m Gm [-> Q]. split; [reflexivity|]. apply slc_run.
    eapply slc_weak; [apply (HC x y m); auto|].
    - eapply eqm_le; [|apply opnd; eauto]. destruct (arith_size _ A) as [s' [_ [_ [_ [N1 [N2 _]]]]]]. lia.
    - intros m' _ Q' x' y' X' Y'. rewrite X in X'. rewrite Y in Y'. injection X' as <-. injection Y' as <-. exact Q'. }
  assert (MEMC : forall b ofs, (forall x y m, pre2 l r -> n <= sz (nty l) -> teval env l = Some x ->
        teval env r = Some y -> good m -> exists z, holds sym b ofs (nbytes s) z m /\ eqm (8 * n) z y) ->
     forall st0, rec MExpr l st = Ok st0 ->
     hspec HE st (emit [Alu a0 None (M b ofs) (R s AX)] st0) (fun _ => pre2 l r /\ n <= sz (nty l)) (fun _ => plainq (qalu o n l r))).
  { intros b ofs HM st0 R0. apply AF; [reflexivity| |exact R0]. intros x y m P2 NS X Y Gm EX.
    destruct (HM x y m P2 NS X Y Gm) as [z [HZ EZ]].
    assert (OM : osize None [M b ofs; R s AX] = Some s) by (destruct Bs as [-> | ->]; reflexivity).
    eapply slc_weak; [exact (alu_ax sym o a0 s (M b ofs) _ m E0 Bs OM eq_refl (rd_mem sym s b ofs z m HZ))|].
    - intros m' _ Q. rewrite NB in Q. eapply eqm_trans; [exact Q|]. apply alu_fun_eqm; auto; [lia|].
      eapply eqm_trans; [apply eqm_mod; lia|exact EZ]. }
  assert (TSZ : forall t, is_ty t -> n <= sz t -> (nbytes s <= tysize t)%nat).
  { intros t Tt L. unfold tysize. rewrite nbits_nbytes in NB. lia. }
  destruct p as [|[|[|p]]].
  - bnd H. destruct a as [k|]; [|discriminate]. bnd H. injection H as <-.
    eapply AF; [eapply labels_imm_arith; eauto| |reflexivity].
    intros x y m P2 NS X Y Gm EX. pose proof P2 as [A [B [C [[W V K L] _]]]].
    rewrite (const_val G env r k W V K E1 y Y) in E3.
    destruct (limit_imm_ok y s n E ltac:(lia)) as [L1 L2].
    eapply slc_weak; [eapply imm_arith_ok; eauto; lia|]. intros m' _ Q. rewrite NB in *.
    eapply eqm_trans; [exact Q|]. apply alu_fun_eqm; auto. lia.
  - destruct (is_memop G r) as [[b ofs]|] eqn:M; [|discriminate]. bnd H. injection H as <-. apply MEMC; auto.
    intros x y m P2 NS X Y Gm. pose proof P2 as [A [B [C [D _]]]]. exists y. split; [|apply eqm_refl].
    apply nonul_cgok in D; [|exact NR].
    destruct (memop_ok G sym env bs P mem0 FR r b ofs y m M D Y Gm) as [St Hh].
    eapply holds_low; [|exact Hh]. apply TSZ; [apply wtn_is_ty, D|congruence].
  - destruct r as [| | | | | | | | | | | | | | | |t ra]; try discriminate.
    destruct (is_memop G ra) as [[b ofs]|] eqn:M; [|discriminate].
    destruct (Z.leb_spec n (sz (nty ra))) as [LE|]; [|discriminate]. bnd H. injection H as <-. apply MEMC; auto.
    intros x y m P2 NS X Y Gm. pose proof P2 as [A [B [C [D _]]]]. apply nonul_cgok in D; [|exact NR].
    destruct (cast_pre G sym env bs P mem0 t ra y (conj D Y)) as [ya [[Ca Ta] [-> [Tt [TTa R]]]]].
    destruct (memop_ok G sym env bs P mem0 FR ra b ofs ya m M Ca Ta Gm) as [St Hh].
    exists ya. split; [eapply holds_low; [|exact Hh]; apply TSZ; auto|].
    cbn [nty] in B. rewrite <- B in A, NS. apply eqm_sym. apply (eqm_le (iwidth (ity t))).
    + rewrite width_sz; auto using arith_nobool. lia.
    + apply eqm_conv, bool_ity; auto using arith_nobool.
  - destruct r as [| | | | | | | | | | | | | | | |t ra]; try discriminate.
    destruct (is_memop G ra) as [[b ofs]|] eqn:M; [|discriminate].
    destruct (Z.ltb_spec (sz (nty ra)) n) as [LT|]; [|discriminate]. bnd H. injection H as <-.
    assert (LB : labels a1 = []).
    { destruct (negb (uns (nty ra)) && (n =? 8)); bnd E2; injection E2 as <-; rewrite labels_app;
      [rewrite (labels_load_extend64 _ _ _ _ _ E3)|rewrite (labels_load_extend _ _ _ _ _ _ E3)]; reflexivity. }
    eapply AF; [exact LB| |reflexivity].
    intros x y m P2 NS X Y Gm EX. pose proof P2 as [A [B [C [D _]]]]. apply nonul_cgok in D; [|exact NR].
    destruct (cast_pre G sym env bs P mem0 t ra y (conj D Y)) as [ya [[Ca Ta] [-> [Tt [TTa RA]]]]].
    destruct (memop_ok G sym env bs P mem0 FR ra b ofs ya m M Ca Ta Gm) as [St Hh].
    cbn [nty] in B. rewrite <- B in A, NS.
    assert (EY : eqm (8 * n) ya (conv (ity t) ya)).
    { apply eqm_sym. apply (eqm_le (iwidth (ity t))).
      - rewrite width_sz; auto using arith_nobool. lia.
      - apply eqm_conv, bool_ity; auto using arith_nobool. }
    assert (FIN : forall m1, pres m m1 -> eqm (8 * n) (rg m1 DX) ya -> rg m1 AX = rg m AX ->
       slc [Alu a0 None (R s DX) (R s AX)] m1 (fun m' => eqm (8 * n) (rg m' AX) (alu_fun o x (conv (ity t) ya)))).
    { intros m1 _ ED EA. rewrite <- NB in ED.
      assert (OM : osize None [R s DX; R s AX] = Some s) by (destruct Bs as [-> | ->]; reflexivity).
      eapply slc_weak; [exact (alu_ax sym o a0 s (R s DX) _ m1 E0 Bs OM eq_refl (rd_reg sym s DX ya m1 ED))|].
      - intros m' _ Q. rewrite NB in Q. eapply eqm_trans; [exact Q|]. rewrite EA. apply alu_fun_eqm; auto; [lia|].
        eapply eqm_trans; [apply eqm_mod; lia|exact EY]. }
    assert (S8' : (sz (nty ra) =? 8) = false) by (apply Z.eqb_neq; lia).
    destruct (negb (uns (nty ra)) && (n =? 8)) eqn:C1; bnd E2; injection E2 as E2; rewrite <- E2.
    + apply andb_true_iff in C1. destruct C1 as [U N8]. apply negb_true_iff in U. apply Z.eqb_eq in N8.
      eapply slc_app; [eapply (load_extend64_ok sym (nty ra) b ofs ya DX); eauto|].
      intros m1 P1 [Q1 Q2]. apply FIN; auto. rewrite N8. exact Q1.
    + assert (E' : load_extend_int (nty ra) b ofs (if sz (nty ra) =? 8 then S8 else S4) DX = Ok a2) by (rewrite S8'; exact E3).
      eapply slc_app; [eapply (load_extend_ok sym (nty ra) b ofs ya DX); eauto|].
      intros m1 P1 [Q1 [Q2 Q3]]. apply FIN; auto. destruct HN as [-> | ->]; [exact Q1|].
      apply Q2. right. destruct (uns (nty ra)); [reflexivity|discriminate].
Qed.

(** The operands are never exchanged. *)
Lemma harith2s o n l r p st st1 : Hot r -> gen_arith_opt_gp2 G rec o n l r p st <> Ok (Some st1).
Proof.
  intros HR H. unfold gen_arith_opt_gp2 in H. bnd H. destruct p as [|[|[|p]]].
  - bnd H. destruct a1; [|discriminate]. eapply (hot_const nul t0 VS G UNK); eauto.
  - rewrite (hot_memop nul t0 VS G HERE r HR) in H. discriminate.
  - destruct r; try discriminate. rewrite (hot_memop nul t0 VS G HERE r HR) in H. discriminate.
  - destruct r; try discriminate. rewrite (hot_memop nul t0 VS G HERE r HR) in H. discriminate.
Qed.

Lemma harith_one o t l r n st st1 : Hot l -> gen_arith_opt_gp G rec (NBin o t l r) n st = Ok (Some st1) ->
  simple o /\ exists p, gen_arith_opt_gp2 G rec o n l r p st = Ok (Some st1).
Proof.
  intros HLT H. unfold gen_arith_opt_gp in H.
  assert (BOTH : forall p, orelse (gen_arith_opt_gp2 G rec o n l r p st) (gen_arith_opt_gp2 G rec o n r l p st) = Ok (Some st1) ->
     exists p, gen_arith_opt_gp2 G rec o n l r p st = Ok (Some st1)).
  { intros p E. apply orelse_some in E. destruct E as [E|[_ E]]; [eauto|]. exfalso. eapply harith2s; eauto. }
  destruct o; try discriminate H; (split; [split; discriminate|]);
  cbv beta zeta in H;
  repeat first [eexists; exact H | eapply BOTH; exact H
               | apply orelse_some in H; destruct H as [H|[_ H]]].
Qed.

Lemma harith_gen o t a b st st1 : Hot a -> nonul b -> gen_arith_opt_gp G rec (NBin o t a b) (sz t) st = Ok (Some st1) ->
  hmspec (NBin o t a b) st st1.
Proof.
  intros HA NB' H. destruct (harith_one _ _ _ _ _ _ _ HA H) as [SO [p H']].
  assert (D : sz t = 4 \/ sz t = 8 \/ (sz t <> 4 /\ sz t <> 8)) by lia.
  assert (X : sz t = 4 \/ sz t = 8 -> hmspec (NBin o t a b) st st1).
  { intros HN. apply harith2_ok in H'; auto. eapply hspec_weak; [exact H'|].
    intros v Hv. destruct (nbin_pre G' sym env bs P memF o t a b v Hv) as [P2 [A [Ba [x [y [X [Y CB]]]]]]]. exists v.
    split; [split; [exact P2|rewrite Ba; lia]|]. split; [auto|]. intros j m Gm [-> Q]. split; [reflexivity|].
    rewrite nbin_wbits by auto. specialize (Q x y X Y).
    pose proof (arith_nobool _ A) as NBl. rewrite <- width_sz in Q by (auto; apply A).
    eapply eqm_trans; [exact Q|]. apply c_bin_alu; auto. apply bool_ity; auto; apply A. }
  destruct D as [D|[D|D]]; auto.
  apply arith2_struct in H'. destruct H' as [st0 [c [R0 [-> L]]]]. apply HIH in R0; [|exact HA].
  eapply hspec_emit; [exact R0|exact L|]. intros v Hv. exfalso.
  destruct (nbin_pre G' sym env bs P memF o t a b v Hv) as [_ [A _]]. pose proof (is_ty_size t (proj1 A)). destruct A. lia.
Qed.

Lemma hnarrow_ok t a st st' : Hot a -> sz t = 4 -> sz (nty a) = 8 -> gen_arith_opt_gp G rec a 4 st = Ok (Some st') ->
  hmspec (NCast t a) st st'.
Proof.
  intros HA S4' S8' H. destruct a; try discriminate H. cbn [nty] in S8'. destruct HA as [HA NB'].
  destruct (harith_one _ _ _ _ _ _ _ HA H) as [SO [p H']].
  apply harith2_ok in H'; auto. eapply hspec_weak; [exact H'|].
  intros v Hv. destruct (cast_pre G' sym env bs P memF _ _ _ Hv) as [w [Pw [-> [Tt [_ _]]]]].
  destruct (nbin_pre G' sym env bs P memF _ _ _ _ _ Pw) as [P2 [A [Ba [x [y [X [Y CB]]]]]]]. exists 0.
  split; [split; [exact P2|rewrite Ba; lia]|]. split; [auto|]. intros j m Gm [-> Q]. split; [reflexivity|].
  assert (NBt : is_bool t = false). { destruct (is_ty_inv t Tt) as [i [-> E]]. destruct i; try discriminate S4'; reflexivity. }
  rewrite wbits_cast by exact NBt. rewrite S4'. change (4 =? 8) with false. cbn iota.
  eapply eqm_trans; [exact (Q x y X Y)|]. change (8 * 4) with 32.
  eapply eqm_trans; [eapply eqm_le; [|apply (c_bin_alu o (ity t1)); [exact SO| |exact CB]]|].
  - pose proof (arith_nobool _ A). rewrite width_sz by (auto; apply A). lia.
  - apply bool_ity; [apply A|apply arith_nobool; exact A].
  - apply eqm_sym. replace 32 with (iwidth (ity t)) by (rewrite width_sz by auto; lia).
    apply eqm_conv. apply bool_ity; auto.
Qed.

(** ** Shifts *)
Lemma hshift_opt_ok o n t a b st st' : Hot a -> nonul b ->
  n = match o with XShl => NShl t a b | XShr => NShr t a b | XSar => NSar t a b end ->
  gen_shift_opt_gp G rec o t a b st = Ok (Some st') -> hmspec n st st'.
Proof.
  intros HA NB' EN H. unfold gen_shift_opt_gp in H. bnd H.
  assert (HP : forall v, pre' n v -> exists x y, pre' a x /\ pre b y /\ big a0 /\ nbits a0 = wbits n /\
     iwidth (ity (nty a)) = nbits a0 /\ arith_ty (nty a) /\ 0 <= y < nbits a0 /\
     forall z, eqm (nbits a0) z x -> eqm (nbits a0) (sh_res o a0 (z mod 2 ^ nbits a0) y) v).
  { intros v Hv. destruct (shift_pre G' sym env bs P memF o n t a b v EN Hv) as [A [Ta [Ca [Cb [WB [x [y [X [Y [Rx SH]]]]]]]]]].
    destruct (arith_size _ A) as [s [SZ [OS [Bs [NB [NB8 _]]]]]]. rewrite SZ in E. injection E as <-.
    assert (NT : ity t <> TBool) by (apply bool_ity; [apply A|apply arith_nobool; auto]).
    exists x, y. split; [split; auto|]. split; [split; auto; apply nonul_cgok; auto|]. split; [exact Bs|]. split; [congruence|].
    split; [congruence|]. split; [congruence|]. split.
    - exact (proj1 (sh_val o (ity t) s x y v x NB Rx NT (eqm_refl _ _) SH)).
    - intros z EZ. exact (proj2 (sh_val o (ity t) s x y v z NB Rx NT EZ SH)). }
  destruct a1 as [k|].
  - bnd H. injection H as <-. apply HIH in E1; [|exact HA]. eapply hafter; [exact E1| |].
    { unfold imm_shift in E2. bnd E2. destruct (k =? 0); [injection E2 as <-; reflexivity|].
      destruct (in_imm_range k); [injection E2 as <-; reflexivity|discriminate]. }
    intros v Hv. destruct (HP v Hv) as [x [y [Pa [[[Wb Vb Kb Lb] Tb] [Bs [NB [IW [A [Hy SH]]]]]]]]].
    exists x. split; [exact Pa|]. intros m Gm Q. pose proof (opnd a _ _ A Q) as Q'. rewrite IW in Q'.
    pose proof (const_val G env b k Wb Vb Kb E0 y Tb) as ->.
    assert (RY : rep64 y = y) by (apply rep64_id; destruct Bs as [-> | ->]; cbn in Hy; unfold two63; lia).
    rewrite RY in E2. unfold imm_shift in E2. rewrite E in E2. cbn [bind] in E2. rewrite <- NB.
    destruct (Z.eqb_spec y 0) as [Y0|NY].
    + injection E2 as <-. apply slc_nil. eapply eqm_trans; [|exact (SH _ Q')]. subst y. apply sh_zero.
    + destruct (in_imm_range y); [|discriminate]. injection E2 as <-.
      eapply slc_weak; [apply sh_imm_ok; auto|]. intros m' _ ->.
      eapply eqm_trans; [apply eqm_mod; pose proof (nbits_pos a0); lia|]. exact (SH _ Q').
  - destruct (is_memop G b) as [[mb ofs]|] eqn:M; [|discriminate]. bnd H. injection H as <-. apply HIH in E1; [|exact HA].
    eapply hafter; [exact E1|reflexivity|].
    intros v Hv. destruct (HP v Hv) as [x [y [Pa [[Cb Tb] [Bs [NB [IW [A [Hy SH]]]]]]]]].
    exists x. split; [exact Pa|]. intros m Gm Q. pose proof (opnd a _ _ A Q) as Q'. rewrite IW in Q'.
    destruct (memop_ok G sym env bs P mem0 FR b mb ofs y m M Cb Tb Gm) as [St Hh].
    assert (H1 : holds sym mb ofs 1 y m).
    { eapply holds_low; [|exact Hh]. pose proof (is_ty_size _ (wtn_is_ty _ (ck_wt _ _ _ _ _ _ _ Cb))). unfold tysize. lia. }
    rewrite <- NB.
    change ([?i; ?j]) with ([i] ++ [j]). eapply slc_app.
    + apply (cl_mem sym mb ofs y m H1).
    + intros m1 _ [Q1 Q2]. eapply slc_weak; [apply (sh_cl sym o a0 y); auto|]. intros m' _ ->.
      eapply eqm_trans; [apply eqm_mod; pose proof (nbits_pos a0); lia|]. unfold getr. rewrite Q2. exact (SH _ Q').
Qed.

Lemma hshift_ok o n t a b st st' : Hot a -> nonul b ->
  n = match o with XShl => NShl t a b | XShr => NShr t a b | XSar => NSar t a b end ->
  gen_shift G rec o t a b st = Ok st' -> hmspec n st st'.
Proof.
  intros HA NB' EN H. unfold gen_shift in H. bnd H. injection H as <-. apply HIH in E; [|exact HA]. apply IH in E0.
  destruct a3 as [r st3]. cbn [fst snd] in *.
  assert (E0' : spec (push a0) (emit [Mov None (R S1 AX) (R S1 CX)] a1) (pre b)
            (fun v => plainq (fun m => eqm 8 (rg m CX) v))).
  { eapply spec_emit; [exact E0|reflexivity|]. intros v Hv. exists v. split; [exact Hv|].
    intros j m Gm [-> Q]. split; [reflexivity|]. apply slc_run. apply cl_al.
    eapply eqm_le; [|exact Q]. destruct (wbits_cases b) as [-> | ->]; lia. }
  apply spec_h in E0'.
  unfold pop_gp in E2. eapply (hspec_push_pop G sym bs P mem0 FR); [exact E|exact E0'|exact E2|reflexivity|left; auto|].
  intros v Hv. destruct (shift_pre G' sym env bs P memF o n t a b v EN Hv) as [A [Ta [Ca [Cb [WB [x [y [X [Y [Rx SH]]]]]]]]]].
  destruct (arith_size _ A) as [s [SZ [OS [Bs [NB [NB8 [GS GS8]]]]]]]. rewrite GS in *.
  rewrite OS in E1. injection E1 as <-.
  assert (NT : ity t <> TBool) by (apply bool_ity; [apply A|apply arith_nobool; auto]).
  exists x, y. split; [split; auto|]. split; [split; auto; apply nonul_cgok; auto|]. split; [auto|].
  intros m1 m3 m4 Q1 Q3 _ _ RA _ GR OT MM. specialize (RA eq_refl). subst r.
  assert (C1 : eqm (nbits s) (rg m4 AX) x).
  { unfold eqm. unfold getr in GR. rewrite GR. rewrite NB, <- Ta. apply opnd; [rewrite Ta|]; auto. }
  assert (C2 : eqm 8 (rg m4 CX) y) by (rewrite OT by discriminate; exact Q3).
  destruct (sh_val o (ity t) s x y v _ NB Rx NT C1 SH) as [Hy SV].
  destruct (sh_cl sym o s y m4 Bs Hy C2) as [m' [R' [[P1 P1'] Q']]].
  exists m'. split; [exact R'|]. split; [split; auto|]. rewrite WB, <- NB, Q'.
  eapply eqm_trans; [apply eqm_mod; pose proof (nbits_pos s); lia|exact SV].
Qed.

(** ** Binary operators *)
Lemma hbinary_ok o t a b st st' : Hot a -> nonul b -> gen_binary G rec o t a b st = Ok st' -> hmspec (NBin o t a b) st st'.
Proof.
  intros HA NB'. unfold gen_binary. intros H. bnd H. destruct a2 as [r st3]. injection H as <-.
  apply HIH in E; [|exact HA]. apply IH in E0. apply spec_h in E0.
  unfold pop_gp in E1. eapply (hspec_push_pop G sym bs P mem0 FR); [exact E|exact E0|exact E1| |right; auto|].
  { destruct o; try reflexivity; destruct (uns t), (sz (nty a) =? 8); reflexivity. }
  intros v Hv. destruct (nbin_pre G' sym env bs P memF o t a b v Hv) as [P2 [A [Ta [x [y [X [Y CB]]]]]]].
  pose proof (pre2_range G' sym env bs P memF a b P2 x y X Y) as [Rx Ry]. pose proof P2 as [Aa [Tb [Ca [Cb _]]]].
  destruct (arith_size _ A) as [s [SZ [OS [Bs [NB [NB8 [GS GS8]]]]]]]. rewrite Ta in *. rewrite GS, GS8 in *.
  exists x, y. split; [split; auto|]. split; [split; auto; apply nonul_cgok; auto|]. split; [auto|].
  intros m1 m3 m4 Q1 Q3 _ _ _ IT GR OT MM. specialize (IT eq_refl).
  assert (C1 : eqm (nbits s) (rg m4 r) x).
  { unfold eqm. unfold getr in GR. rewrite GR. rewrite NB, <- Ta. apply opnd; [rewrite Ta|]; auto. }
  assert (C2 : eqm (nbits s) (rg m4 AX) y).
  { rewrite OT by (destruct IT as [->|[->|[->|[->|[->| ->]]]]]; discriminate).
    rewrite NB, <- Tb. apply opnd; [rewrite Tb; exact A|exact Q3]. }
  assert (NT : ity t <> TBool) by (apply bool_ity; [apply A|apply arith_nobool; auto]).
  destruct (bin_tail sym o (ity t) s r x y v m4 NB Bs NT IT Rx Ry C1 C2 CB) as [m' [R' [P' Q']]].
  exists m'. split; [|split; [exact P'|rewrite nbin_wbits, <- NB by auto; exact Q']].
  rewrite (uns_ity _ A) in R'. exact R'.
Qed.

Lemma hdivmod_expr d t a b k st st' : Hot a -> const_of G b = Ok (Some k) -> divmod_opt rec d t a k st = Ok (Some st') ->
  hmspec (NBin (if d then BDiv else BMod) t a b) st st'.
Proof.
  intros HA EK H. destruct (divmod_struct rec d t a k st st' H) as [st1 [code [R1 [-> L]]]].
  eapply hafter; [apply HIH; [exact HA|exact R1]|exact L|]. intros v Hv.
  destruct (nbin_pre G' sym env bs P memF _ t a b v Hv) as [P2 [A [Ta [x [y [X [Y CB]]]]]]].
  pose proof (pre2_range G' sym env bs P memF a b P2 x y X Y) as [Rx Ry]. pose proof P2 as [Aa [Tb [Ca [[Wb Vb Kb Lb] _]]]].
  exists x. split; [split; auto|]. intros m Gm Q. rewrite nbin_wbits by auto.
  pose proof (opnd a _ _ Aa Q) as Q'. rewrite Ta in *.
  pose proof (arith_nobool _ A) as NBt. pose proof (bool_ity _ (proj1 A) NBt) as NT.
  pose proof A as A'. apply arith_inv in A'. destruct A' as [i [Et [Ei [W' [_ _]]]]].
  rewrite Et in H. rewrite Ei in *.
  destruct (divmod_ok sym rec d i a k st _ NT ltac:(lia) H) as [st1' [code' [R1' [EE [_ SEM]]]]].
  rewrite R1 in R1'. injection R1' as <-. apply emit_inj in EE. subst code'.
  apply (SEM m x y v); auto. exact (const_val G env b k Wb Vb Kb EK y Y).
Qed.

Lemma hgp_opt_ok n st st' : Hot n -> gen_gp_opt G rec n st = Ok (Some st') -> hmspec n st st'.
Proof.
  intros HN H. unfold gen_gp_opt in H. destruct n; cbn [CgHot.Hot] in HN; try contradiction; try discriminate H;
    try destruct HN as [HA NB'].
  - destruct o; try solve [eapply harith_gen; eauto].
    + bnd H. destruct a as [k|]; [|discriminate]. eapply (hdivmod_expr true); eauto.
    + bnd H. destruct a as [k|]; [|discriminate]. eapply (hdivmod_expr false); eauto.
  - eapply (hshift_opt_ok XShl); eauto.
  - eapply (hshift_opt_ok XShr); eauto.
  - eapply (hshift_opt_ok XSar); eauto.
  - bnd H. destruct a as [[o' st1]|]; [|discriminate]. injection H as <-. apply hsetcc. apply hcmp_opt_ok; auto.
Qed.

(** ** Boolean expressions *)
Lemma hbool_ok n st st' : Hot n -> gen_bool_opt G rec n st = Ok (Some st') -> hmspec n st st'.
Proof.
  intros HN H. unfold gen_bool_opt in H. destruct (bool_expr_opt n) as [[e flip]|] eqn:BE; [|discriminate].
  destruct (negb (is_not n) && _); [discriminate|]. unfold bool_expr_opt in BE.
  destruct (hot_boolopt nul t0 VS n _ _ _ _ BE HN) as [X|He]; [discriminate|].
  destruct (bool_expr_opt2_ok G' sym env bs P memF n false None e flip BE) as [X|[Be HE']]; [discriminate|].
  assert (HV : forall v, pre' n v -> exists w, pre' e w /\ (v = 0 \/ v = 1) /\ negb (v =? 0) = xorb (negb (w =? 0)) flip).
  { intros v [C T]. destruct (HE' C) as [Ce HV]. destruct (HV v T) as [w [TW [V01 X]]]. exists w.
    split; [split; auto|]. split; [exact V01|]. rewrite xorb_false_r in X. exact X. }
  clear HE' BE.
  assert (VB : forall v (b : bool), v = 0 \/ v = 1 -> negb (v =? 0) = b -> v = b2z b).
  { intros v b [-> | ->] <-; reflexivity. }
  assert (DEF : (do r <- rec MExpr e st; Ok (Some (if flip then emit [Alu AXor None (I 1) (R S1 AX)] r else r))) = Ok (Some st') ->
     hmspec n st st').
  { intros D. bnd D. injection D as <-. apply HIH in E; [|exact He]. destruct flip.
    - eapply hafter; [exact E|reflexivity|]. intros v Hv. destruct (HV v Hv) as [w [Pw [V01 VW]]].
      exists w. split; [exact Pw|]. intros m Gm Q. rewrite wbits_boolish in Q by exact Be.
      destruct Pw as [[W V K L] T]. pose proof (boolish_val env e w W V Be T) as W01.
      eapply slc_weak; [apply (xor1 sym m w Q W01)|]. intros m' _ Q'.
      replace v with (1 - w) by (destruct W01 as [-> | ->], V01 as [-> | ->]; cbn in VW; try discriminate; reflexivity).
      apply eqm_le64. exact Q'.
    - eapply hweak; [exact E|]. intros v Hv. destruct (HV v Hv) as [w [Pw [V01 VW]]].
      exists w. split; [exact Pw|]. intros r Q. rewrite wbits_boolish in Q by exact Be.
      destruct Pw as [[W V K L] T]. pose proof (boolish_val env e w W V Be T) as W01.
      replace v with w by (destruct W01 as [-> | ->], V01 as [-> | ->]; cbn in VW; try discriminate; reflexivity).
      apply eqm_le64. exact Q. }
  destruct e; cbn [CgHot.Hot] in He; try contradiction; try (apply DEF; exact H).
  - (* NCmp *)
    bnd H. injection H as <-. apply HIH in E; [|exact He]. eapply hweak; [exact E|]. intros v Hv.
    destruct (HV v Hv) as [w [[[W V K L] T] [V01 VW]]].
    destruct (ncmp_pre G' sym env bs P memF o e1 e2 w (conj (mkcgok _ _ _ _ _ _ _ W V K L) T)) as [_ [x [y [X [Y EW]]]]].
    exists (b2z (c_cmp (flip_cmp o flip) x y)). split; [split; [exact (mkcgok G' sym env bs P memF (NCmp (flip_cmp o flip) e1 e2) W V K L)|]|].
    + cbn [teval]. rewrite X, Y. reflexivity.
    + intros r Q. rewrite wbits_boolish in Q by reflexivity. rewrite EW, b2z_eq0 in VW.
      rewrite (VB v _ V01 VW), <- c_cmp_flip. apply eqm_le64. exact Q.
  - (* NCast *)
    destruct (is_bool t) eqn:BT; [|apply DEF; exact H]. bnd H. injection H as <-.
    eapply hcmp_zero_ok; [exact He|exact E|destruct flip; auto|]. intros v Hv. destruct (HV v Hv) as [w [Pw [V01 VW]]].
    destruct (cast_pre G' sym env bs P memF t e w Pw) as [va [Pa [Ew [Tt _]]]]. exists va. split; [exact Pa|].
    unfold is_ty in Tt. destruct (ity t) eqn:Ei; subst t; try discriminate BT.
    rewrite Ew, conv_bool, b2z_eq0 in VW. rewrite (VB v _ V01 VW). destruct flip; cbn [c_cmp]; destruct (va =? 0); reflexivity.
Qed.

Lemma hexpr_opt_ok n st st' : Hot n -> gen_expr_opt G rec n st = Ok (Some st') -> hmspec n st st'.
Proof.
  intros HN H. unfold gen_expr_opt in H. bnd H. destruct a as [v|].
  { exfalso. eapply (hot_const nul t0 VS G UNK); eauto. }
  bnd H. destruct a as [c|].
  { exfalso. unfold gen_load_opt_gp in E0. destruct n; try discriminate.
    rewrite (hot_memop nul t0 VS G HERE n HN) in E0. discriminate. }
  rewrite (hot_memop nul t0 VS G HERE n HN) in H.
  apply orelse_some in H. destruct H as [H|[_ H]]; [apply hbool_ok; auto|].
  apply orelse_some in H. destruct H as [H|[_ H]]; [apply hgp_opt_ok; auto|].
  apply orelse_some in H. destruct H as [H|[_ H]].
  - destruct n; try discriminate H. destruct ((sz t =? 4) && (sz (nty n) =? 8)) eqn:Z; [|discriminate].
    apply andb_prop in Z. destruct Z as [Z1 Z2]. apply Z.eqb_eq in Z1, Z2. rewrite Z1 in H. apply hnarrow_ok; auto.
  - destruct n; try discriminate H; contradiction.
Qed.

Lemma hplain_ok n st st' : Hot n -> gen_expr_plain G rec n st = Ok st' -> hmspec n st st'.
Proof.
  intros HN H. destruct n; cbn [CgHot.Hot] in HN; try contradiction; cbn [gen_expr_plain] in H.
  - destruct HN as [-> ->]. rewrite HERE in H. injection H as <-. apply hspec_nop. intros v m [_ T] _ Q.
    cbn [teval] in T. injection T as <-. exact Q.
  - apply hbinary_ok; tauto.
  - eapply (hshift_ok XShl); try eassumption; tauto || reflexivity.
  - eapply (hshift_ok XShr); try eassumption; tauto || reflexivity.
  - eapply (hshift_ok XSar); try eassumption; tauto || reflexivity.
  - bnd H. injection H as <-. apply hsetcc. eapply hspec_weak; [apply hcmp_plain_ok; [| |exact E]; tauto|].
    intros v P2. exists v. split; [exact P2|]. split; [auto|]. intros j m _ [-> Q]. split; [reflexivity|].
    eapply (qcmp_flags G'); eauto.
  - apply hcast_ok; auto.
Qed.

Lemma hexpr2_ok n st st' : Hot n -> gen_expr2 G rec n st = Ok st' -> hmspec n st st'.
Proof.
  intros HN. unfold gen_expr2. destruct (opt (gc G)); [|apply hplain_ok; exact HN]. intros H. bnd H.
  destruct a as [st1|]; [|apply hplain_ok; auto]. injection H as <-. apply hexpr_opt_ok; auto.
Qed.
End Hot.

Theorem hot_gen G sym env bs P mem0 nul t0 LF memF V : frame_ok G bs P -> cfg_ok (gc G) ->
  loc G nul = VHere -> known (gc G) nul = None ->
  (forall i x, In (i, x) V -> leafv (setlocs G LF) sym env bs P memF (mty i) x -> leafv G sym env bs P mem0 (mty i) x) ->
  forall f n st st', Hot nul t0 V n -> gen G f MExpr n st = Ok st' -> hmspec G sym env bs P mem0 nul t0 LF memF n st st'.
Proof.
  intros FR CO HE UN CV. induction f as [|f IH]; intros n st st' HN H; [discriminate|]. cbn [gen] in H.
  eapply hexpr2_ok; eauto. intros md n0 st0 st1 R0. eapply gen_ok; eauto.
Qed.

(** The placeholder stands for an object at [lx]. *)
Theorem hot_ok G sym env bs P mem0 nul t0 lx V : frame_ok G bs P -> cfg_ok (gc G) ->
  loc G nul = VHere -> known (gc G) nul = None -> (forall i, ~ In (i, nul) V) ->
  forall f n st st', Hot nul t0 V n -> gen G f MExpr n st = Ok st' ->
  hmspec G sym env bs P mem0 nul t0 (fun y => if Nat.eqb y nul then lx else loc G y) mem0 n st st'.
Proof.
  intros FR CO HE UN NV. apply (hot_gen G sym env bs P mem0 nul t0 _ mem0 V); auto.
  intros i x N L. assert (X : Nat.eqb x nul = false) by (apply Nat.eqb_neq; intros ->; exact (NV i N)).
  unfold leafv, vloc_ok, CgInv.vaddr, outside in *. cbn [loc setlocs pic lvar_sz lptr] in L. rewrite X in L. exact L.
Qed.
